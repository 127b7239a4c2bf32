(** Bit-sliced MSB extraction and OR reduction (generic in the engine). *)
From Verif Require Import Base Ring RingProofs Prog Sched Rng Rel Net BinTrait BitArith BinProofs AddProofs Iris IrisSpec IrisProofs Protocol MpcSpec Aby3 ShareSpec Aby3Proofs Aby3Proofs2.
From Coq Require Import ZifyBool ZifyNat Btauto.

Lemma RL_nth {A B} (R : (pid -> A) -> B -> Prop) X ys n D d : RL R X ys -> R D d ->
  (forall Y Y' y, (forall i, Y i = Y' i) -> R Y y -> R Y' y) ->
  R (fun i => nth n (X i) (D i)) (nth n ys d).
Proof.
  intros H HD Hext. revert n. induction H as [X HX|X Y X0 y ys HX HY H IH]; intros n.
  - apply (Hext D); [intros i; rewrite HX; destruct n; reflexivity|]. destruct n; exact HD.
  - destruct n as [|n].
    + apply (Hext Y); [intros i; rewrite HX; reflexivity|exact HY].
    + apply (Hext (fun i => nth n (X0 i) (D i))); [intros i; rewrite HX; reflexivity|apply IH].
Qed.
Lemma RL_inv_snoc {A B} (R : (pid -> A) -> B -> Prop) X ys y : RL R X (ys ++ [y]) ->
  exists X' t, (forall i, X i = X' i ++ [t i]) /\ RL R X' ys /\ R t y.
Proof.
  revert X. induction ys as [|z ys IH]; intros X H; cbn [app] in H; apply RL_inv_cons in H;
    destruct H as (Y & X0 & HX & HY & H0).
  - exists (fun _ => []), Y. split; [|split; [apply RL_nil'|exact HY]].
    intros i. rewrite HX, (RL_inv_nil _ _ H0 i). reflexivity.
  - destruct (IH _ H0) as (X' & t & E & H1 & H2). exists (fun i => Y i :: X' i), t.
    split; [|split; [apply RL_cons'; assumption|exact H2]]. intros i. rewrite HX, E. reflexivity.
Qed.
Lemma RL_exists {A B C} (R : (pid -> A) -> C -> Prop) (Q : C -> B -> Prop) X ys :
  RL (fun Y y => exists z, R Y z /\ Q z y) X ys -> exists zs, RL R X zs /\ Forall2 Q zs ys.
Proof.
  induction 1 as [X HX|X Y X0 y ys HX (z & Hz & HQ) H (zs & IH1 & IH2)].
  - exists []. split; [apply RL_nil, HX|constructor].
  - exists (z :: zs). split; [eapply RL_cons; eassumption|constructor; assumption].
Qed.

(** Bits to words. *)
Definition pkf (W : Z) (zs : list Z) : Z :=
  fold_left (fun acc nb => ror acc (rshl W (snd nb) (Z.of_nat (fst nb)))) (combine (seq 0 (length zs)) zs) 0.
Lemma pkf_gen W zs : 1 < W -> forall k acc, Z.of_nat k + Z.of_nat (length zs) <= W -> Forall (inr 1) zs -> inr W acc ->
  (forall n, Z.of_nat k <= n -> Z.testbit acc n = false) ->
  let r := fold_left (fun acc nb => ror acc (rshl W (snd nb) (Z.of_nat (fst nb)))) (combine (seq k (length zs)) zs) acc in
  inr W r /\ forall n, (Z.of_nat n < W) ->
    Z.testbit r (Z.of_nat n) = if Nat.ltb n k then Z.testbit acc (Z.of_nat n) else Z.testbit (nth (n - k) zs 0) 0.
Proof.
  intros HW. induction zs as [|z zs IH]; intros k acc Hk Hzs Hacc Hhi.
  - cbn [length seq combine fold_left]. split; [exact Hacc|]. intros n Hn. destruct (Nat.ltb_spec n k); [reflexivity|].
    rewrite Hhi by lia. destruct (n - k)%nat; reflexivity.
  - cbn [length seq combine fold_left fst snd]. inversion Hzs as [|? ? Hz Hzs']; subst. cbn [length] in Hk.
    assert (Hz1 : inr W z).
    { unfold inr in *. change (2 ^ 1) with 2 in Hz. assert (2 ^ 1 <= 2 ^ W) by (apply Z.pow_le_mono_r; lia). change (2 ^ 1) with 2 in *. lia. }
    assert (Hb : forall n, 0 <= n < W -> Z.testbit (rshl W z (Z.of_nat k)) n = (n =? Z.of_nat k) && Z.testbit z 0).
    { intros n Hn. rewrite testbit_rshl; [|lia|exact Hz1|lia|lia|exact Hn].
      destruct (Z.eqb_spec n (Z.of_nat k)) as [->|Hne].
      - rewrite Z.sub_diag. reflexivity.
      - cbn [andb]. destruct (Z.lt_ge_cases n (Z.of_nat k)); [apply Z.testbit_neg_r; lia|].
        apply (bits_range z 1); [exact Hz|lia|lia]. }
    assert (Hr : inr W (rshl W z (Z.of_nat k))) by (apply inr_rshl; [lia|exact Hz1]).
    destruct (IH (S k) (ror acc (rshl W z (Z.of_nat k)))) as [I1 I2]; [lia|exact Hzs'|apply inr_lor; [lia|assumption|assumption]| |].
    { intros n Hn. unfold ror. rewrite Z.lor_spec, Hhi by lia. cbn [orb].
      destruct (Z.lt_ge_cases n W); [rewrite Hb by lia; replace (n =? Z.of_nat k) with false by lia; reflexivity|].
      apply (bits_range _ W); [exact Hr|lia|lia]. }
    split; [exact I1|]. intros n Hn. rewrite I2 by exact Hn.
    destruct (Nat.ltb_spec n (S k)), (Nat.ltb_spec n k); try lia.
    + unfold ror. rewrite Z.lor_spec, Hb by lia. replace (Z.of_nat n =? Z.of_nat k) with false by lia. apply Bool.orb_false_r.
    + assert (n = k) as -> by lia. unfold ror. rewrite Z.lor_spec, Hb, Hhi by lia. rewrite Z.eqb_refl, Nat.sub_diag. reflexivity.
    + replace (n - k)%nat with (S (n - S k)) by lia. reflexivity.
Qed.
Lemma pkf_spec W zs : 1 < W -> Z.of_nat (length zs) <= W -> Forall (inr 1) zs ->
  inr W (pkf W zs) /\ forall n, Z.of_nat n < W -> Z.testbit (pkf W zs) (Z.of_nat n) = Z.testbit (nth n zs 0) 0.
Proof.
  intros HW Hl Hz. destruct (pkf_gen W zs HW 0%nat 0) as [H1 H2]; [lia|exact Hz| |intros; apply Z.bits_0|].
  { unfold inr. assert (0 < 2 ^ W) by (apply Z.pow_pos_nonneg; lia). lia. }
  split; [exact H1|]. intros n Hn. unfold pkf. rewrite H2 by exact Hn. rewrite Nat.sub_0_r. reflexivity.
Qed.

Lemma pack_word_eq W l : pack_word W l = Share (pkf W (map sa l)) (pkf W (map sb l)).
Proof.
  unfold pack_word, pkf. rewrite !map_length. change szero with (Share 0 0). generalize 0 at 1 3 as u. generalize 0 at 1 2 as v.
  generalize 0%nat as k.
  induction l as [|x l IH]; intros k v u; [reflexivity|]. cbn [length seq combine fold_left map fst snd].
  rewrite IH. reflexivity.
Qed.

Lemma brel_bits1 X bs : RL (brel 1) X bs -> forall i, Forall (inr 1) (map sa (X i)).
Proof.
  induction 1 as [X HX|X Y X0 y ys HX HY H IH]; intros i; rewrite HX; constructor; [apply HY|apply IH].
Qed.
Lemma map_sb_sa K X bs : RL (brel K) X bs -> forall i, map sb (X i) = map sa (X (prev i)).
Proof. intros H. apply (RL_sb (brel K) X bs H). intros Y y HY. apply HY. Qed.
Lemma brel_Forall K X bs : RL (brel K) X bs -> Forall (inr K) bs.
Proof.
  induction 1 as [X HX|X Y X0 y ys HX HY H IH]; constructor; [|exact IH].
  destruct HY as [HK HY]. eapply brel_range; [|exact HY]. apply in_widths_pos in HK; lia.
Qed.
Lemma brel_nth_bit K X bs n m : In K widths -> RL (brel K) X bs -> 0 <= m ->
  Z.testbit (nth n bs 0) m = xorb (xorb (Z.testbit (nth n (map sa (X P0)) 0) m) (Z.testbit (nth n (map sa (X P1)) 0) m)) (Z.testbit (nth n (map sa (X P2)) 0) m).
Proof.
  intros HK H Hm.
  assert (HN : brel K (fun i => nth n (X i) szero) (nth n bs 0)).
  { apply (RL_nth (brel K) X bs n (fun _ => szero) 0 H).
    - split; [exact HK|]. apply szero_brel. apply in_widths_pos in HK; lia.
    - intros Y Y' y E [_ HY]. split; [exact HK|]. eapply brel_ext; eassumption. }
  destruct HN as (_ & _ & _ & ->). rewrite !Z.lxor_spec.
  rewrite <- !(map_nth sa). reflexivity.
Qed.

Lemma pack_word_ok W X bs : In W widths -> 1 < W -> Z.of_nat (length bs) <= W -> RL (brel 1) X bs ->
  brel W (fun i => pack_word W (X i)) (pkf W bs).
Proof.
  intros HW H1 Hl H. assert (HF : Forall (inr 1) bs) by (apply (brel_Forall 1 X), H).
  assert (HL : forall i, Z.of_nat (length (map sa (X i))) <= W) by (intros i; rewrite map_length, (RL_length _ _ _ H); exact Hl).
  split; [exact HW|]. split; [|split].
  - intros i. rewrite pack_word_eq. cbn [sa]. apply pkf_spec; auto. eapply brel_bits1; exact H.
  - intros i. rewrite !pack_word_eq. cbn [sa sb]. rewrite (map_sb_sa _ _ _ H). reflexivity.
  - rewrite !pack_word_eq. cbn [sa].
    apply (inr_bits_eq W); [lia|apply pkf_spec; auto| |].
    { repeat apply inr_lxor; try lia; apply pkf_spec; auto; eapply brel_bits1; exact H. }
    intros n Hn. rewrite !Z.lxor_spec. rewrite <- (Z2Nat.id n) by lia.
    rewrite !(proj2 (pkf_spec W _ H1 (HL _) (brel_bits1 _ _ H _))) by lia.
    rewrite (proj2 (pkf_spec W bs H1 Hl HF)) by lia. apply (brel_nth_bit 1); [left; reflexivity|exact H|lia].
Qed.

(** chunks *)
Lemma skipn_add {A} (l : list A) a b : skipn a (skipn b l) = skipn (b + a) l.
Proof. revert l. induction b as [|b IH]; intros l; [reflexivity|]. destruct l; cbn; [apply skipn_nil|apply IH]. Qed.
Lemma chunks_fuel_nth {A} fuel n (l : list A) w : (0 < n)%nat -> (length l <= fuel)%nat ->
  nth w (chunks_fuel fuel n l) [] = firstn n (skipn (w * n) l).
Proof.
  intros Hn. revert l w. induction fuel as [|fuel IH]; intros l w Hl.
  - destruct l; [|cbn in Hl; lia]. cbn. destruct w; cbn [nth]; rewrite skipn_nil, firstn_nil; reflexivity.
  - cbn [chunks_fuel]. destruct l as [|a l].
    + destruct w; cbn [nth]; rewrite skipn_nil, firstn_nil; reflexivity.
    + destruct w as [|w]; [reflexivity|]. cbn [nth]. rewrite IH.
      * rewrite skipn_add. reflexivity.
      * rewrite skipn_length. cbn [length] in *. lia.
Qed.
Lemma chunks_nth {A} n (l : list A) w : (0 < n)%nat -> nth w (chunks n l) [] = firstn n (skipn (w * n) l).
Proof. intros H. apply chunks_fuel_nth; [exact H|apply le_n]. Qed.
Lemma chunks_fuel_length {A} fuel n (l : list A) : (0 < n)%nat -> (length l <= fuel)%nat ->
  length (chunks_fuel fuel n l) = ((length l + (n - 1)) / n)%nat.
Proof.
  intros Hn. revert l. induction fuel as [|fuel IH]; intros l Hl.
  - destruct l; [|cbn in Hl; lia]. cbn [chunks_fuel length]. symmetry. apply Nat.div_small. lia.
  - cbn [chunks_fuel]. destruct l as [|a l].
    + cbn [length]. symmetry. apply Nat.div_small. lia.
    + cbn [length]. rewrite IH by (rewrite skipn_length; cbn [length] in *; lia). rewrite skipn_length. cbn [length].
      destruct (Nat.le_gt_cases n (S (length l))).
      * replace (S (length l) + (n - 1))%nat with ((S (length l) - n + (n - 1)) + 1 * n)%nat by lia.
        rewrite Nat.div_add by lia. lia.
      * replace (S (length l) - n)%nat with O by lia. rewrite Nat.div_small by lia.
        replace (S (length l) + (n - 1))%nat with (length l + 1 * n)%nat by lia.
        rewrite Nat.div_add, Nat.div_small by lia. reflexivity.
Qed.
Definition nchunks (c n : nat) : nat := ((n + (c - 1)) / c)%nat.
Lemma chunks_length {A} n (l : list A) : (0 < n)%nat -> length (chunks n l) = nchunks n (length l).
Proof. intros H. apply chunks_fuel_length; [exact H|apply le_n]. Qed.
Lemma nchunks_bound c n : (0 < c)%nat -> (n <= c * nchunks c n)%nat /\ (0 < n -> 0 < nchunks c n)%nat.
Proof.
  intros Hc. unfold nchunks. pose proof (Nat.div_mod (n + (c - 1)) c ltac:(lia)) as E.
  pose proof (Nat.mod_upper_bound (n + (c - 1)) c ltac:(lia)). split; [lia|].
  intros Hn. destruct ((n + (c - 1)) / c)%nat eqn:D; [|lia]. apply Nat.div_small_iff in D; lia.
Qed.
Lemma chunks_map {A B} (f : A -> B) n l : chunks n (map f l) = map (map f) (chunks n l).
Proof.
  unfold chunks. rewrite map_length. generalize (length l) as fuel. intros fuel. revert l.
  induction fuel as [|fuel IH]; intros l; [reflexivity|]. destruct l as [|a l]; [reflexivity|].
  cbn [chunks_fuel map]. rewrite <- IH. f_equal.
  - change (f a :: map f l) with (map f (a :: l)). apply firstn_map.
  - f_equal. change (f a :: map f l) with (map f (a :: l)). apply skipn_map.
Qed.
Lemma chunks_Forall_len {A} n (l : list A) : Forall (fun c => (length c <= n)%nat) (chunks n l).
Proof.
  unfold chunks. generalize (length l) as fuel. intros fuel. revert l.
  induction fuel as [|fuel IH]; intros l; [constructor|]. destruct l as [|a l]; [constructor|].
  cbn [chunks_fuel]. constructor; [rewrite firstn_length; lia|apply IH].
Qed.
Lemma chunks_concat_id {A} n (rows : list (list A)) : (0 < n)%nat -> Forall (fun r => length r = n) rows ->
  chunks n (concat rows) = rows.
Proof.
  intros Hn H. unfold chunks.
  enough (HF : forall fuel, (length (concat rows) <= fuel)%nat -> chunks_fuel fuel n (concat rows) = rows) by (apply HF, le_n).
  induction H as [|r rows Hr H IH]; intros fuel Hf.
  - destruct fuel; reflexivity.
  - cbn [concat] in *. rewrite app_length in Hf. destruct fuel as [|fuel]; [lia|]. cbn [chunks_fuel].
    destruct (r ++ concat rows) as [|a l] eqn:E.
    { destruct r; [cbn in Hr; lia|discriminate]. }
    rewrite <- E. rewrite <- Hr at 1 3. rewrite firstn_length_app, skipn_length_app. f_equal. apply IH. lia.
Qed.

(** Rows of 128-bit words as sequences of bits. *)
Definition rowis (nw : nat) (row : list Z) (f : nat -> bool) : Prop :=
  length row = nw /\ Forall (inr 128) row /\
  forall w n, (w < nw)%nat -> (n < 128)%nat -> Z.testbit (nth w row 0) (Z.of_nat n) = f (128 * w + n)%nat.

Lemma in128 : In 128 widths. Proof. cbn; tauto. Qed.
Lemma in1 : In 1 widths. Proof. cbn; tauto. Qed.

Lemma rowis_ext nw row f g : (forall j, (j < 128 * nw)%nat -> f j = g j) -> rowis nw row f -> rowis nw row g.
Proof. intros E (H1 & H2 & H3). split; [|split]; auto. intros w n Hw Hn. rewrite H3 by assumption. apply E. lia. Qed.
Lemma rowis_map2 nw (op : Z -> Z -> Z) (bop : bool -> bool -> bool) r1 f1 r2 f2 :
  (forall a b, inr 128 a -> inr 128 b -> inr 128 (op a b)) ->
  (forall a b n, 0 <= n -> Z.testbit (op a b) n = bop (Z.testbit a n) (Z.testbit b n)) -> op 0 0 = 0 ->
  rowis nw r1 f1 -> rowis nw r2 f2 -> rowis nw (map2 op r1 r2) (fun j => bop (f1 j) (f2 j)).
Proof.
  intros Hop Hb H0 (A1 & A2 & A3) (B1 & B2 & B3). split; [|split].
  - rewrite map2_length_eq; congruence.
  - eapply map2_Forall; [|exact A2|exact B2]. exact Hop.
  - intros w n Hw Hn. rewrite (map2_nth op r1 r2 w 0 0 0) by (congruence || exact H0).
    rewrite Hb by lia. rewrite A3, B3 by assumption. reflexivity.
Qed.
Lemma rowis_xor nw r1 f1 r2 f2 : rowis nw r1 f1 -> rowis nw r2 f2 -> rowis nw (map2 Z.lxor r1 r2) (fun j => xorb (f1 j) (f2 j)).
Proof. apply rowis_map2; auto using Z.lxor_spec. intros; apply inr_lxor; auto; lia. Qed.
Lemma rowis_and nw r1 f1 r2 f2 : rowis nw r1 f1 -> rowis nw r2 f2 -> rowis nw (map2 Z.land r1 r2) (fun j => f1 j && f2 j).
Proof. apply rowis_map2; auto using Z.land_spec. intros; apply inr_land; auto; lia. Qed.

Definition vpack (W : Z) (bs : list Z) : list Z := map (pkf W) (chunks (Z.to_nat W) bs).
Lemma vpack_rowis bs : Forall (inr 1) bs ->
  rowis (nchunks 128 (length bs)) (vpack 128 bs) (fun j => Z.testbit (nth j bs 0) 0).
Proof.
  intros H. assert (Hch : forall w, Forall (inr 1) (nth w (chunks 128 bs) []) /\ (length (nth w (chunks 128 bs) []) <= 128)%nat).
  { intros w. rewrite chunks_nth by lia. split; [|rewrite firstn_length; lia].
    apply Forall_forall. intros x Hx. rewrite Forall_forall in H. apply H.
    rewrite <- (firstn_skipn (w * 128) bs), in_app_iff. right.
    rewrite <- (firstn_skipn 128 (skipn (w * 128) bs)), in_app_iff. left. exact Hx. }
  unfold vpack. change (Z.to_nat 128) with 128%nat. split; [|split].
  - rewrite map_length. apply chunks_length. lia.
  - apply Forall_forall. intros x Hx. apply in_map_iff in Hx. destruct Hx as (c & <- & Hc).
    destruct (In_nth _ _ [] Hc) as (w & _ & <-). apply pkf_spec; [lia| |apply Hch].
    destruct (Hch w). lia.
  - intros w n Hw Hn. replace 0 with (pkf 128 []) at 1 by reflexivity. rewrite (map_nth (pkf 128)).
    destruct (Hch w) as [Hf Hl]. rewrite (proj2 (pkf_spec 128 (nth w (chunks 128 bs) []) ltac:(lia) ltac:(lia) Hf)) by lia.
    rewrite chunks_nth by lia. f_equal.
    rewrite <- (firstn_skipn (w * 128) bs) at 2.
    destruct (Nat.le_gt_cases (length bs) (w * 128)).
    + rewrite skipn_all2 by assumption. rewrite firstn_nil, app_nil_r, firstn_all2 by lia.
      rewrite (nth_overflow bs) by lia. destruct n; reflexivity.
    + rewrite app_nth2 by (rewrite firstn_length; lia). rewrite firstn_length.
      replace (128 * w + n - Nat.min (w * 128) (length bs))%nat with n by lia.
      rewrite <- (firstn_skipn 128 (skipn (w * 128) bs)) at 2.
      destruct (Nat.le_gt_cases (length (skipn (w * 128) bs)) n).
      * rewrite !nth_overflow; [reflexivity| |]; rewrite ?app_length, ?firstn_length, ?skipn_length in *; lia.
      * rewrite app_nth1; [reflexivity|]. rewrite firstn_length. lia.
Qed.
Lemma pack_words_ok W Xc css : In W widths -> 1 < W -> RL (RL (brel 1)) Xc css -> Forall (fun c => (length c <= Z.to_nat W)%nat) css ->
  RL (brel W) (fun i => map (pack_word W) (Xc i)) (map (pkf W) css).
Proof.
  intros HW H1 HC. induction HC as [X' HX'|X' Y X0 y ys HX HY HR IH]; intros HL.
  - apply RL_nil. intros i. rewrite HX'. reflexivity.
  - inversion HL; subst. cbn [map]. eapply RL_cons; [|apply (pack_word_ok W Y y HW H1); [lia|exact HY]|apply IH; assumption].
    intros i. rewrite HX. reflexivity.
Qed.
Lemma pack_ok W X bs : In W widths -> 1 < W -> RL (brel 1) X bs -> RL (brel W) (fun i => pack W (X i)) (vpack W bs).
Proof.
  intros HW H1 H. apply (pack_words_ok W (fun i => chunks (Z.to_nat W) (X i))); auto.
  - apply RL_chunks, H.
  - apply chunks_Forall_len.
Qed.

(** Transposition is packing of the r-th bits. *)
Definition sbit (r : nat) (x : share) : share :=
  Share (if rand_ (Z.shiftr (sa x) (Z.of_nat r)) 1 =? 1 then 1 else 0) (if rand_ (Z.shiftr (sb x) (Z.of_nat r)) 1 =? 1 then 1 else 0).
Definition zbit (r : nat) (x : Z) : Z := Z.b2z (Z.testbit x (Z.of_nat r)).
Lemma zbit_eq r x : (if rand_ (Z.shiftr x (Z.of_nat r)) 1 =? 1 then 1 else 0) = zbit r x.
Proof. unfold rand_, zbit. rewrite word_get by lia. destruct (Z.testbit x (Z.of_nat r)); reflexivity. Qed.
Lemma sbit_ok K r X x : brel K X x -> brel 1 (fun i => sbit r (X i)) (zbit r x).
Proof.
  intros (HK & A1 & A2 & A3). split; [exact in1|]. split; [|split].
  - intros i. cbn [sa sbit]. rewrite zbit_eq. apply b2z_inr.
  - intros i. cbn [sa sb sbit]. rewrite A2. reflexivity.
  - cbn [sa sbit]. rewrite !zbit_eq. subst x. unfold zbit. rewrite !Z.lxor_spec.
    destruct (Z.testbit (sa (X P0)) (Z.of_nat r)), (Z.testbit (sa (X P1)) (Z.of_nat r)), (Z.testbit (sa (X P2)) (Z.of_nat r)); reflexivity.
Qed.
Lemma transpose_word_eq f r l : transpose_word f r l = pkf 128 (map (fun x => if rand_ (Z.shiftr (f x) (Z.of_nat r)) 1 =? 1 then 1 else 0) l).
Proof.
  unfold transpose_word, pkf. rewrite map_length. generalize 0 at 2 4 as u. generalize 0%nat as k.
  induction l as [|x l IH]; intros k u; [reflexivity|]. cbn [length seq combine fold_left map fst snd]. apply IH.
Qed.
Lemma transpose_input_eq K l : transpose_shared_input K l = map (fun r => pack_word 128 (map (sbit r) l)) (seq 0 (Z.to_nat K)).
Proof.
  unfold transpose_shared_input. apply map_ext. intros r. rewrite pack_word_eq, !transpose_word_eq, !map_map. reflexivity.
Qed.
Lemma fold_rows {A C} (g : C -> nat -> A) rs : forall chs (init : list (list A)), length init = length rs ->
  fold_left (fun res ch => map2 (fun des src => des ++ [src]) res (map (g ch) rs)) chs init =
  map2 (fun row r => row ++ map (fun ch => g ch r) chs) init rs.
Proof.
  induction chs as [|ch chs IH]; intros init Hl.
  - cbn [fold_left map]. clear g. revert rs Hl. induction init as [|x init IHi]; intros [|r rs] Hl; try discriminate; [reflexivity|].
    cbn. rewrite app_nil_r. f_equal. apply IHi. cbn in Hl. lia.
  - cbn [fold_left]. rewrite IH.
    + clear IH. revert rs Hl. induction init as [|x init IHi]; intros [|r rs] Hl; try discriminate; [reflexivity|].
      cbn [map map2]. rewrite <- app_assoc. f_equal. apply IHi. cbn in Hl. lia.
    + rewrite map2_length_eq; rewrite ?map_length; assumption.
Qed.
Lemma fold_left_ext_eq {A B} (f g : A -> B -> A) l a : (forall a b, f a b = g a b) -> fold_left f l a = fold_left g l a.
Proof. intros E. revert a. induction l as [|b l IH]; intros a; [reflexivity|]. cbn. rewrite E. apply IH. Qed.
Lemma map2_repeat_nil {A B} (f : B -> list A) rs : map2 (fun (row : list A) r => row ++ f r) (repeat [] (length rs)) rs = map f rs.
Proof. induction rs as [|r rs IH]; [reflexivity|]. cbn. rewrite IH. reflexivity. Qed.
Lemma transpose_pack_eq K x : transpose_pack_u128 K x = map (fun r => pack 128 (map (sbit r) x)) (seq 0 (Z.to_nat K)).
Proof.
  unfold transpose_pack_u128.
  rewrite (fold_left_ext_eq (fun res ch => map2 (fun des src => des ++ [src]) res (transpose_shared_input K ch))
     (fun res ch => map2 (fun des src => des ++ [src]) res (map ((fun ch r => pack_word 128 (map (sbit r) ch)) ch) (seq 0 (Z.to_nat K)))))
    by (intros; rewrite transpose_input_eq; reflexivity).
  rewrite fold_rows by (rewrite repeat_length, seq_length; reflexivity).
  rewrite <- (seq_length (Z.to_nat K) 0) at 1. rewrite map2_repeat_nil.
  apply map_ext. intros r. unfold pack. change (Z.to_nat 128) with 128%nat. rewrite chunks_map, map_map. reflexivity.
Qed.

(** A joint row of words whose bit j is bit r of v j. *)
Definition rowrel (nw : nat) (v : nat -> Z) (Y : pid -> list share) (r : nat) : Prop :=
  exists row, RL (brel 128) Y row /\ rowis nw row (fun j => Z.testbit (v j) (Z.of_nat r)).
Lemma nth_zbit r xs j : nth j (map (zbit r) xs) 0 = zbit r (nth j xs 0).
Proof. replace 0 with (zbit r 0) at 1 by (unfold zbit; rewrite Z.bits_0; reflexivity). apply map_nth. Qed.
Lemma RL_map_seq {A B} (R : (pid -> A) -> B -> Prop) (f : pid -> B -> A) rs :
  (forall r, In r rs -> R (fun i => f i r) r) -> RL R (fun i => map (f i) rs) rs.
Proof.
  induction rs as [|r rs IH]; intros H; [apply RL_nil'|]. cbn [map]. apply (RL_cons' R (fun i => f i r)).
  - apply H. left; reflexivity.
  - apply IH. intros; apply H; right; assumption.
Qed.
Lemma transpose_ok K X xs : RL (brel K) X xs ->
  RL (rowrel (nchunks 128 (length xs)) (fun j => nth j xs 0)) (fun i => transpose_pack_u128 K (X i)) (seq 0 (Z.to_nat K)).
Proof.
  intros H. eapply RL_ext; [intros i; symmetry; apply transpose_pack_eq|].
  apply (RL_map_seq (rowrel _ _) (fun i r => pack 128 (map (sbit r) (X i)))).
  intros r _. exists (vpack 128 (map (zbit r) xs)).
  assert (HB : RL (brel 1) (fun i => map (sbit r) (X i)) (map (zbit r) xs)).
  { apply (RL_map (brel K) (brel 1) (fun _ => sbit r)); [|exact H]. intros; apply (sbit_ok K); assumption. }
  split; [apply pack_ok; [exact in128|lia|exact HB]|].
  eapply rowis_ext; [|rewrite <- (map_length (zbit r) xs); apply vpack_rowis; exact (brel_Forall 1 _ _ HB)].
  intros j _. cbn beta. rewrite nth_zbit. unfold zbit. destruct (Z.testbit (nth j xs 0) (Z.of_nat r)); reflexivity.
Qed.
Lemma brel_xor128 X x Y y : brel 128 X x -> brel 128 Y y -> brel 128 (fun i => sh_xor (X i) (Y i)) (Z.lxor x y).
Proof. intros [_ HX] [_ HY]. split; [exact in128|]. apply sh_xor_ok; auto; lia. Qed.
Lemma rowrel_xor nw u v Y1 Y2 r r2 : rowrel nw u Y1 r -> rowrel nw v Y2 r2 ->
  exists row, RL (brel 128) (fun i => map2 sh_xor (Y1 i) (Y2 i)) row /\
    rowis nw row (fun j => xorb (Z.testbit (u j) (Z.of_nat r)) (Z.testbit (v j) (Z.of_nat r2))).
Proof.
  intros (row1 & A1 & A2) (row2 & B1 & B2). exists (map2 Z.lxor row1 row2). split; [|apply rowis_xor; assumption].
  apply (RL_map2 (brel 128) (brel 128)); auto.
  intros. apply brel_xor128; assumption.
Qed.
Lemma txor_ok nw u v X Y rs : RL (rowrel nw u) X rs -> RL (rowrel nw v) Y rs ->
  RL (rowrel nw (fun j => Z.lxor (u j) (v j))) (fun i => transposed_pack_xor (X i) (Y i)) rs.
Proof.
  intros HX. revert Y. induction HX as [X HX|X A X0 r rs HX HA H IH]; intros Y HY.
  - apply RL_nil. intros i. rewrite HX. reflexivity.
  - apply RL_inv_cons in HY. destruct HY as (B & Y0 & HY & HB & HY0).
    eapply RL_cons; [|  |apply (IH Y0 HY0)].
    + intros i. rewrite HX, HY. reflexivity.
    + destruct (rowrel_xor nw u v A B r r HA HB) as (row & R1 & R2). exists row. split; [exact R1|].
      eapply rowis_ext; [|exact R2]. intros j _. cbn beta. rewrite Z.lxor_spec. reflexivity.
Qed.
Lemma pop_ok {A} (R : (pid -> A) -> nat -> Prop) X k : RL R X (seq 0 (S k)) ->
  exists X' t, (forall i, pop (X i) = Ok (X' i, t i)) /\ RL R X' (seq 0 k) /\ R t k.
Proof.
  intros H. replace (S k) with (k + 1)%nat in H by lia. rewrite seq_app in H. cbn [seq] in H.
  destruct (RL_inv_snoc _ _ _ _ H) as (X' & t & E & H1 & H2). exists X', t. split; [|split; assumption].
  intros i. unfold pop. rewrite E, rev_app_distr. cbn [rev app]. rewrite rev_involutive. reflexivity.
Qed.

(** Words back to bits. *)
Lemma to_bits_row row f nw : rowis nw row f -> flat_map (to_bits 128) row = map (fun j => Z.b2z (f j)) (seq 0 (128 * nw)).
Proof.
  intros (H1 & H2 & H3). revert f nw H1 H3. induction H2 as [|w row Hw H2 IH]; intros f nw H1 H3.
  - cbn in H1. subst nw. reflexivity.
  - destruct nw as [|nw]; [discriminate|]. replace (128 * S nw)%nat with (128 + 128 * nw)%nat by lia.
    rewrite seq_app, map_app. cbn [flat_map]. f_equal.
    + unfold to_bits. change (Z.to_nat 128) with 128%nat. apply map_ext_in. intros n Hn. apply in_seq in Hn.
      rewrite (word_get w (Z.of_nat n)) by lia.
      pose proof (H3 0%nat n ltac:(lia) ltac:(lia)) as E. cbn [nth] in E. rewrite E. replace (128 * 0 + n)%nat with n by lia.
      destruct (f n); reflexivity.
    + rewrite (IH (fun j => f (128 + j)%nat) nw).
      * rewrite Nat.add_0_l, (seq_shift_n 128 (128 * nw)), map_map. reflexivity.
      * cbn in H1. lia.
      * intros w' n Hw' Hn. specialize (H3 (S w') n ltac:(lia) Hn). cbn [nth] in H3. rewrite H3. f_equal. lia.
Qed.
Lemma resize_row row f nw len : rowis nw row f -> (len <= 128 * nw)%nat ->
  resize len 0 (flat_map (to_bits 128) row) = map (fun j => Z.b2z (f j)) (seq 0 len).
Proof.
  intros H Hl. rewrite (to_bits_row _ _ _ H). unfold resize. rewrite map_length, seq_length.
  replace (len - 128 * nw)%nat with 0%nat by lia. cbn [repeat]. rewrite app_nil_r.
  replace (128 * nw)%nat with (len + (128 * nw - len))%nat by lia. rewrite seq_app, map_app.
  rewrite firstn_app, map_length, seq_length, Nat.sub_diag. cbn [firstn]. rewrite app_nil_r.
  apply firstn_all2. rewrite map_length, seq_length. lia.
Qed.
Lemma sh_to_bits_ok X x : brel 128 X x -> RL (brel 1) (fun i => sh_to_bits 128 (X i)) (to_bits 128 x).
Proof.
  intros HX. assert (E : forall i, sh_to_bits 128 (X i) = map (fun r => sbit r (X i)) (seq 0 128)).
  { intros i. unfold sh_to_bits, to_bits. change (Z.to_nat 128) with 128%nat. apply (map2_map_map Share). }
  apply (RL_ext _ (fun i => map (fun r => sbit r (X i)) (seq 0 128))); [intros; symmetry; apply E|].
  unfold to_bits. change (Z.to_nat 128) with 128%nat. generalize (seq 0 128). intros l.
  induction l as [|r l IH]; [apply RL_nil'|]. cbn [map]. apply (RL_cons' (brel 1) (fun i => sbit r (X i))); [|exact IH].
  change (Z.land (Z.shiftr x (Z.of_nat r)) 1) with (rand_ (Z.shiftr x (Z.of_nat r)) 1). rewrite zbit_eq.
  apply (sbit_ok 128), HX.
Qed.
Lemma flat_bits_ok X row : RL (brel 128) X row -> RL (brel 1) (fun i => flat_map (sh_to_bits 128) (X i)) (flat_map (to_bits 128) row).
Proof.
  induction 1 as [X HX|X Y X0 y ys HX HY H IH].
  - apply RL_nil. intros i. rewrite HX. reflexivity.
  - cbn [flat_map]. apply (RL_ext _ (fun i => sh_to_bits 128 (Y i) ++ flat_map (sh_to_bits 128) (X0 i))).
    { intros i. rewrite HX. reflexivity. }
    apply RL_app; [apply sh_to_bits_ok, HY|exact IH].
Qed.

Lemma Forall2_len {A B} (R : A -> B -> Prop) l l' : Forall2 R l l' -> length l = length l'.
Proof. induction 1; cbn; congruence. Qed.

Section Msb.
  Context {Gh S : Type} (E : pid -> Z -> bineng S share) (Inv : Gh -> (pid -> S) -> Prop) (g_and : Z -> nat -> Gh -> Gh).
  Hypothesis OK : bin_ok E brel Inv g_and.

  Fixpoint iter_g (n : nat) (f : Gh -> Gh) (g : Gh) : Gh := match n with O => g | Datatypes.S n' => iter_g n' f (f g) end.
  (** The gates one call of msb_adder_many on [n] values of width K consumes, all of width 128. *)
  Definition g_msb (K : Z) (n : nat) (g : Gh) : Gh :=
    let nw := nchunks 128 n in
    iter_g (Z.to_nat K - 3) (g_and 128 nw) (g_and 128 nw (g_and 128 ((Z.to_nat K - 1) * nw)%nat g)).

  Lemma concat_map2_land rows1 rows2 nw : Forall (fun r => length r = nw) rows1 -> Forall (fun r => length r = nw) rows2 ->
    length rows1 = length rows2 ->
    map2 Z.land (concat rows1) (concat rows2) = concat (map2 (map2 Z.land) rows1 rows2) /\
    Forall (fun r => length r = nw) (map2 (map2 Z.land) rows1 rows2).
  Proof.
    intros H1. revert rows2. induction H1 as [|r1 rows1 Hr1 H1 IH]; intros rows2 H2 Hl.
    - destruct rows2; [|discriminate]. split; [reflexivity|constructor].
    - destruct H2 as [|r2 rows2 Hr2 H2]; [discriminate|]. injection Hl as Hl. destruct (IH rows2 H2 Hl) as [I1 I2].
      cbn [concat map2]. split.
      + rewrite map2_app by congruence. rewrite I1. reflexivity.
      + constructor; [|exact I2]. rewrite map2_length_eq; congruence.
  Qed.
  Lemma tand_ok k nw u v X Y g s : (0 < nw)%nat -> Inv g s ->
    RL (rowrel nw u) X (seq 0 (Datatypes.S k)) -> RL (rowrel nw v) Y (seq 0 (Datatypes.S k)) ->
    wpM (fun i => transposed_pack_and (E i 128) (X i) (Y i)) s
      (fun s' W => Inv (g_and 128 (Datatypes.S k * nw)%nat g) s' /\ RL (rowrel nw (fun j => Z.land (u j) (v j))) W (seq 0 (Datatypes.S k))).
  Proof using OK.
    intros Hnw Hs HX HY.
    destruct (RL_exists _ _ _ _ HX) as (rows1 & X1 & X2). destruct (RL_exists _ _ _ _ HY) as (rows2 & Y1 & Y2).
    assert (L1 : length rows1 = Datatypes.S k) by (rewrite (Forall2_len _ _ _ X2), seq_length; reflexivity).
    assert (L2 : length rows2 = Datatypes.S k) by (rewrite (Forall2_len _ _ _ Y2), seq_length; reflexivity).
    assert (F1 : Forall (fun r => length r = nw) rows1).
    { clear -X2. induction X2 as [|row j rows js Hj X2 IH]; constructor; [apply Hj|exact IH]. }
    assert (F2 : Forall (fun r => length r = nw) rows2).
    { clear -Y2. induction Y2 as [|row j rows js Hj X2 IH]; constructor; [apply Hj|exact IH]. }
    destruct (concat_map2_land rows1 rows2 nw F1 F2 ltac:(congruence)) as [C1 C2].
    assert (LC : forall rows : list (list Z), Forall (fun r => length r = nw) rows -> length (concat rows) = (length rows * nw)%nat).
    { clear. induction 1 as [|r rows Hr H IH]; [reflexivity|]. cbn [concat length]. rewrite app_length, IH, Hr. lia. }
    unfold transposed_pack_and.
    destruct rows1 as [|row0 rows1]; [discriminate|].
    destruct (RL_inv_cons _ _ _ _ X1) as (Y0 & X' & EX & HY0 & _).
    assert (LY0 : forall i, length (Y0 i) = nw).
    { intros i. rewrite (RL_length _ _ _ HY0). inversion F1; assumption. }
    apply (wpM_bind (fun i => resM (index (X i) 0))).
    apply (wpM_res _ Y0). { intros i. rewrite EX. reflexivity. }
    apply (wpM_bind (fun i => b_and_many (E i 128) (concat (X i)) (concat (Y i)))).
    eapply wpM_mono; [|apply (bo_and_many _ _ _ _ OK 128 g s _ _ _ _ in128 Hs (RL_concat _ _ _ X1) (RL_concat _ _ _ Y1))].
    2: { rewrite !LC by assumption. congruence. }
    intros s' W [Hs' HW].
    apply (wpM_ext (fun i => retM (chunks nw (W i)))).
    { intros i. rewrite LY0. destruct (Nat.eqb_spec nw 0); [lia|reflexivity]. }
    apply wpM_ret. split.
    - rewrite LC, L1 in Hs' by exact F1. exact Hs'.
    - rewrite C1 in HW. pose proof (RL_chunks (brel 128) nw W _ HW) as HC.
      rewrite (chunks_concat_id nw _ Hnw C2) in HC.
      clear - HC X2 Y2. set (rows := row0 :: rows1) in *. clearbody rows. revert HC Y2.
      generalize (fun i => chunks nw (W i)) as Wc. revert rows2.
      induction X2 as [|r1 j rows js Hj X2 IH]; intros rows2 Wc HC Y2.
      + cbn [map2] in HC. apply RL_nil. exact (RL_inv_nil _ _ HC).
      + inversion Y2 as [|r2 j' rows2' js' Hj' Y2']; subst. cbn [map2] in HC.
        destruct (RL_inv_cons _ _ _ _ HC) as (A & W0 & EW & HA & HW0).
        eapply RL_cons; [exact EW| |apply (IH _ _ HW0 Y2')].
        exists (map2 Z.land r1 r2). split; [exact HA|].
        eapply rowis_ext; [|apply rowis_and; eassumption]. intros; cbn beta. rewrite Z.land_spec. reflexivity.
  Qed.

  (** carry word of a + b *)
  Definition carry (a b : Z) : Z := Z.lxor (a + b) (Z.lxor a b).
  Lemma carry_spec a b : Z.testbit (carry a b) 0 = false /\
    forall n, 0 <= n -> Z.testbit (carry a b) (n + 1) = majb (Z.testbit a n) (Z.testbit b n) (Z.testbit (carry a b) n).
  Proof using Type.
    destruct (carry_exists a b) as (c & H1 & H2 & H3).
    assert (HC : forall n, 0 <= n -> Z.testbit (carry a b) n = Z.testbit c n).
    { intros n Hn. unfold carry. rewrite !Z.lxor_spec, H1 by exact Hn. destruct (Z.testbit a n), (Z.testbit b n), (Z.testbit c n); reflexivity. }
    split; [rewrite HC by lia; exact H2|]. intros n Hn. rewrite !HC by lia. apply H3, Hn.
  Qed.

  Lemma rowrel_ext nw u v Y r r' : (forall j, (j < 128 * nw)%nat -> Z.testbit (u j) (Z.of_nat r) = Z.testbit (v j) (Z.of_nat r')) ->
    rowrel nw u Y r -> rowrel nw v Y r'.
  Proof using Type. intros H (row & R1 & R2). exists row. split; [exact R1|]. eapply rowis_ext; [|exact R2]. exact H. Qed.

  (** xor / and of two joint rows *)
  Lemma xor_many_row nw f1 f2 Y1 Y2 row1 row2 : RL (brel 128) Y1 row1 -> rowis nw row1 f1 -> RL (brel 128) Y2 row2 -> rowis nw row2 f2 ->
    exists W row, (forall i, xor_many (E i 128) (Y1 i) (Y2 i) = Ok (W i)) /\ RL (brel 128) W row /\ rowis nw row (fun j => xorb (f1 j) (f2 j)).
  Proof using OK.
    intros A1 A2 B1 B2. destruct (xor_many_ok E brel Inv g_and OK 128 in128 _ _ _ _ A1 B1) as [H1 H2].
    { destruct A2 as [-> _], B2 as [-> _]. reflexivity. }
    eexists _, _. split; [exact H1|]. split; [exact H2|]. apply rowis_xor; assumption.
  Qed.
  Lemma and_many_row nw f1 f2 Y1 Y2 row1 row2 g s : Inv g s ->
    RL (brel 128) Y1 row1 -> rowis nw row1 f1 -> RL (brel 128) Y2 row2 -> rowis nw row2 f2 ->
    wpM (fun i => b_and_many (E i 128) (Y1 i) (Y2 i)) s
      (fun s' W => Inv (g_and 128 nw g) s' /\ exists row, RL (brel 128) W row /\ rowis nw row (fun j => f1 j && f2 j)).
  Proof using OK.
    intros Hs A1 A2 B1 B2.
    eapply wpM_mono; [|apply (bo_and_many _ _ _ _ OK 128 g s _ _ _ _ in128 Hs A1 B1)].
    2: destruct A2 as [-> _], B2 as [-> _]; reflexivity.
    intros s' W [Hs' HW]. destruct A2 as (La & A2). rewrite La in Hs'. split; [exact Hs'|].
    eexists. split; [exact HW|]. apply rowis_and; [split; assumption|assumption].
  Qed.

  Lemma ripple_ok nw (u m : nat -> Z) : forall n r A B C g s, Inv g s ->
    RL (rowrel nw u) A (seq (Datatypes.S r) n) -> RL (rowrel nw m) B (seq r n) ->
    rowrel nw (fun j => carry (u j) (2 * m j)) C (Datatypes.S r) ->
    wpM (fun i => foldM (ripple_step (E i 128)) (combine (A i) (B i)) (C i)) s
      (fun s' W => Inv (iter_g n (g_and 128 nw) g) s' /\ rowrel nw (fun j => carry (u j) (2 * m j)) W (Datatypes.S r + n)).
  Proof using OK.
    induction n as [|n IH]; intros r A B C g s Hs HA HB HC.
    - apply (wpM_ext (fun i => retM (C i))). { intros i. rewrite (RL_inv_nil _ _ HA i). reflexivity. }
      apply wpM_ret. split; [exact Hs|]. rewrite Nat.add_0_r. exact HC.
    - cbn [seq] in HA, HB. destruct (RL_inv_cons _ _ _ _ HA) as (a & A0 & EA & (ra & Ha1 & Ha2) & HA0).
      destruct (RL_inv_cons _ _ _ _ HB) as (b & B0 & EB & (rb & Hb1 & Hb2) & HB0). destruct HC as (rc & Hc1 & Hc2).
      apply (wpM_ext (fun i => bindM (ripple_step (E i 128) (C i) (a i, b i)) (fun c' => foldM (ripple_step (E i 128)) (combine (A0 i) (B0 i)) c'))).
      { intros i. rewrite EA, EB. reflexivity. }
      apply (wpM_bind (fun i => ripple_step (E i 128) (C i) (a i, b i)) (fun i c' => foldM (ripple_step (E i 128)) (combine (A0 i) (B0 i)) c')).
      unfold ripple_step at 1. cbn [fst snd].
      destruct (xor_many_row _ _ _ _ _ _ _ Ha1 Ha2 Hc1 Hc2) as (W1 & row1 & E1 & R1 & I1).
      destruct (xor_many_row _ _ _ _ _ _ _ Hb1 Hb2 Hc1 Hc2) as (W2 & row2 & E2 & R2 & I2).
      apply (wpM_bind (fun i => resM (xor_many (E i 128) (a i) (C i)))). apply (wpM_res _ W1 _ _ E1).
      apply (wpM_bind (fun i => resM (xor_many (E i 128) (b i) (C i)))). apply (wpM_res _ W2 _ _ E2).
      apply (wpM_bind (fun i => b_and_many (E i 128) (W1 i) (W2 i))).
      eapply wpM_mono; [|apply (and_many_row nw _ _ _ _ _ _ g s Hs R1 I1 R2 I2)].
      intros s' W3 (Hs' & row3 & R3 & I3).
      destruct (xor_many_row _ _ _ _ _ _ _ R3 I3 Hc1 Hc2) as (W4 & row4 & E4 & R4 & I4).
      apply (wpM_res _ W4 _ _ E4).
      eapply wpM_mono; [|apply (IH (Datatypes.S r) A0 B0 W4 _ s' Hs' HA0 HB0)].
      + intros s2 W5 [H1 H2]. split; [exact H1|]. replace (Datatypes.S r + Datatypes.S n)%nat with (Datatypes.S (Datatypes.S r) + n)%nat by lia. exact H2.
      + exists row4. split; [exact R4|]. eapply rowis_ext; [|exact I4]. intros j _. cbn beta.
        destruct (carry_spec (u j) (2 * m j)) as [_ HC']. specialize (HC' (Z.of_nat (Datatypes.S r)) ltac:(lia)).
        replace (Z.of_nat (Datatypes.S (Datatypes.S r))) with (Z.of_nat (Datatypes.S r) + 1) by lia. rewrite HC'.
        assert (E2m : Z.testbit (2 * m j) (Z.of_nat (Datatypes.S r)) = Z.testbit (m j) (Z.of_nat r)).
        { replace (Z.of_nat (Datatypes.S r)) with (Z.succ (Z.of_nat r)) by lia. apply Z.double_bits_succ. }
        rewrite E2m. reflexivity.
  Qed.

  Lemma nth_map3 {A B C D} (f : A -> B -> C -> D) xs ys zs j a b c : length xs = length ys -> length xs = length zs -> (j < length xs)%nat ->
    nth j (map3 f xs ys zs) (f a b c) = f (nth j xs a) (nth j ys b) (nth j zs c).
  Proof using Type.
    clear. revert ys zs j. induction xs as [|x xs IH]; intros [|y ys] [|z zs] j H1 H2 Hj; cbn in *; try lia.
    destruct j; [reflexivity|]. apply IH; lia.
  Qed.
  Lemma map3_as_seq {D} (f : Z -> Z -> Z -> D) xs ys zs : length xs = length ys -> length xs = length zs ->
    map3 f xs ys zs = map (fun j => f (nth j xs 0) (nth j ys 0) (nth j zs 0)) (seq 0 (length xs)).
  Proof using Type.
    clear. revert ys zs. induction xs as [|x xs IH]; intros [|y ys] [|z zs] H1 H2; cbn [length] in *; try lia; [reflexivity|].
    cbn [map3 seq map nth]. f_equal. rewrite <- seq_shift, map_map. apply IH; lia.
  Qed.

  (** msb_adder_many on binary sharings of three vectors gives the top bit of the sums. *)
  Lemma msb_adder_many_ok K X1 xs1 X2 xs2 X3 xs3 g s : In K widths -> 3 <= K -> Inv g s ->
    RL (brel K) X1 xs1 -> RL (brel K) X2 xs2 -> RL (brel K) X3 xs3 ->
    length xs1 = length xs2 -> length xs1 = length xs3 -> (0 < length xs1)%nat ->
    wpM (fun i => msb_adder_many (E i 128) K (X1 i) (X2 i) (X3 i)) s
      (fun s' W => Inv (g_msb K (length xs1) g) s' /\
         RL (brel 1) W (map3 (fun a b c => Z.b2z (Z.testbit (a + b + c) (K - 1))) xs1 xs2 xs3)).
  Proof using OK.
    intros HK HK3 Hs H1 H2 H3 L12 L13 Hlen. unfold msb_adder_many, g_msb.
    set (nw := nchunks 128 (length xs1)).
    destruct (nchunks_bound 128 (length xs1) ltac:(lia)) as [Bn Pn]. specialize (Pn Hlen). fold nw in Bn, Pn.
    pose proof (transpose_ok K X1 xs1 H1) as T1. pose proof (transpose_ok K X2 xs2 H2) as T2. pose proof (transpose_ok K X3 xs3 H3) as T3.
    rewrite <- L12 in T2. rewrite <- L13 in T3. fold nw in T1, T2, T3.
    pose (v1 := fun j => nth j xs1 0). pose (v2 := fun j => nth j xs2 0). pose (v3 := fun j => nth j xs3 0).
    change (fun j => nth j xs1 0) with v1 in T1. change (fun j => nth j xs2 0) with v2 in T2. change (fun j => nth j xs3 0) with v3 in T3.
    pose proof (txor_ok nw v2 v3 _ _ _ T2 T3) as T23.
    pose proof (txor_ok nw v1 (fun j => Z.lxor (v2 j) (v3 j)) _ _ _ T1 T23) as TS.
    pose proof (txor_ok nw v1 v3 _ _ _ T1 T3) as T13.
    pose (k := (Z.to_nat K - 3)%nat). assert (EK : Z.to_nat K = Datatypes.S (Datatypes.S (Datatypes.S k))) by lia.
    rewrite EK in T1, T2, T3, T23, TS, T13.
    apply (wpM_ext (fun i =>
      let x1 := transpose_pack_u128 K (X1 i) in
      let x2 := transpose_pack_u128 K (X2 i) in
      let x3 := transpose_pack_u128 K (X3 i) in
      let x2x3 := transposed_pack_xor x2 x3 in
      let s := transposed_pack_xor x1 x2x3 in
      let x1x3 := transposed_pack_xor x1 x3 in
      (x1x3 <- resM (pop x1x3) ;;
      x2x3 <- resM (pop x2x3) ;;
      x3 <- resM (pop x3) ;;
      c <- transposed_pack_and (E i 128) (fst x1x3) (fst x2x3) ;;
      let a := s in
      let b := transposed_pack_xor c (fst x3) in
      a1 <- resM (index a 1) ;;
      b0 <- resM (index b 0) ;;
      c <- b_and_many (E i 128) a1 b0 ;;
      a <- resM (pop a) ;;
      b <- resM (pop b) ;;
      c <- foldM (ripple_step (E i 128)) (combine (skipn 2 (fst a)) (skipn 1 (fst b))) c ;;
      r <- resM (xor_many (E i 128) (snd a) (snd b)) ;;
      r <- resM (xor_many (E i 128) r c) ;;
      retM (resize (length xs1) szero (flat_map (sh_to_bits 128) r)))%M)).
    { intros i. rewrite (RL_length _ _ _ H1), (RL_length _ _ _ H2), (RL_length _ _ _ H3), <- L12, <- L13, Nat.eqb_refl. reflexivity. }
    cbv zeta.
    destruct (pop_ok _ _ _ T13) as (X13 & t13 & E13 & T13' & _).
    destruct (pop_ok _ _ _ T23) as (X23 & t23 & E23 & T23' & _).
    destruct (pop_ok _ _ _ T3) as (X3' & t3 & E3 & T3' & _).
    apply (wpM_bind (fun i => resM (pop (transposed_pack_xor (transpose_pack_u128 K (X1 i)) (transpose_pack_u128 K (X3 i)))))).
    apply (wpM_res _ _ _ _ E13).
    apply (wpM_bind (fun i => resM (pop (transposed_pack_xor (transpose_pack_u128 K (X2 i)) (transpose_pack_u128 K (X3 i)))))).
    apply (wpM_res _ _ _ _ E23).
    apply (wpM_bind (fun i => resM (pop (transpose_pack_u128 K (X3 i))))).
    apply (wpM_res _ _ _ _ E3). cbn [fst snd].
    apply (wpM_bind (fun i => transposed_pack_and (E i 128) (X13 i) (X23 i))).
    eapply wpM_mono; [|apply (tand_ok _ nw _ _ _ _ g s Pn Hs T13' T23')].
    intros s1 C [Hs1 HC]. cbn beta.
    pose proof (txor_ok nw _ _ _ _ _ HC T3') as TB.
    pose (u := fun j => sum3 (v1 j) (v2 j) (v3 j)). pose (m := fun j => maj3 (v1 j) (v2 j) (v3 j)).
    change (RL (rowrel nw m) (fun i => transposed_pack_xor (C i) (X3' i)) (seq 0 (Datatypes.S (Datatypes.S k)))) in TB.
    change (RL (rowrel nw u) (fun i => transposed_pack_xor (transpose_pack_u128 K (X1 i)) (transposed_pack_xor (transpose_pack_u128 K (X2 i)) (transpose_pack_u128 K (X3 i)))) (seq 0 (Datatypes.S (Datatypes.S (Datatypes.S k))))) in TS.
    pose (B := fun i => transposed_pack_xor (C i) (X3' i)).
    pose (A := fun i => transposed_pack_xor (transpose_pack_u128 K (X1 i)) (transposed_pack_xor (transpose_pack_u128 K (X2 i)) (transpose_pack_u128 K (X3 i)))).
    change (RL (rowrel nw m) B (seq 0 (Datatypes.S (Datatypes.S k)))) in TB.
    change (RL (rowrel nw u) A (seq 0 (Datatypes.S (Datatypes.S (Datatypes.S k))))) in TS.
    match goal with |- wpM ?P _ ?Q => change (wpM (fun i =>
      (a1 <- resM (index (A i) 1) ;;
      b0 <- resM (index (B i) 0) ;;
      c <- b_and_many (E i 128) a1 b0 ;;
      a <- resM (pop (A i)) ;;
      b <- resM (pop (B i)) ;;
      c <- foldM (ripple_step (E i 128)) (combine (skipn 2 (fst a)) (skipn 1 (fst b))) c ;;
      r <- resM (xor_many (E i 128) (snd a) (snd b)) ;;
      r <- resM (xor_many (E i 128) r c) ;;
      retM (resize (length xs1) szero (flat_map (sh_to_bits 128) r)))%M) s1 Q) end.
    clearbody A B.
    destruct (RL_nth_error _ A _ 1%nat 1%nat TS eq_refl) as (a1 & Ea1 & Ra1).
    destruct (RL_nth_error _ B _ 0%nat 0%nat TB eq_refl) as (b0 & Eb0 & Rb0).
    apply (wpM_bind (fun i => resM (index (A i) 1))).
    apply (wpM_res _ a1); [intros i; unfold index; rewrite Ea1; reflexivity|].
    apply (wpM_bind (fun i => resM (index (B i) 0))).
    apply (wpM_res _ b0); [intros i; unfold index; rewrite Eb0; reflexivity|].
    apply (wpM_bind (fun i => b_and_many (E i 128) (a1 i) (b0 i))).
    destruct Ra1 as (ra1 & Ra1 & Ia1). destruct Rb0 as (rb0 & Rb0 & Ib0).
    eapply wpM_mono; [|apply (and_many_row nw _ _ _ _ _ _ _ s1 Hs1 Ra1 Ia1 Rb0 Ib0)].
    intros s2 c (Hs2 & rc & Rc & Ic).
    assert (HCarry : rowrel nw (fun j => carry (u j) (2 * m j)) c 2).
    { exists rc. split; [exact Rc|]. eapply rowis_ext; [|exact Ic]. intros j _. cbn beta.
      destruct (carry_spec (u j) (2 * m j)) as [C0 CS].
      pose proof (CS 0 ltac:(lia)) as C1. pose proof (CS 1 ltac:(lia)) as C2. cbn [Z.add Pos.add] in C1, C2.
      change (Z.of_nat 2) with (1 + 1). change (Z.of_nat 1) with 1. change (Z.of_nat 0) with 0.
      replace (1 + 1) with 2 by lia. rewrite C2, C1, C0.
      assert (E0 : Z.testbit (2 * m j) 0 = false) by (rewrite Z.bit0_odd, Z.odd_mul; reflexivity).
      assert (E1 : Z.testbit (2 * m j) 1 = Z.testbit (m j) 0) by (apply (Z.double_bits_succ (m j) 0)).
      rewrite E0, E1. unfold majb. destruct (Z.testbit (u j) 0), (Z.testbit (u j) 1), (Z.testbit (m j) 0); reflexivity. }
    destruct (pop_ok _ _ _ TS) as (A' & ta & EA & TA' & Rta).
    destruct (pop_ok _ _ _ TB) as (B' & tb & EB & TB' & Rtb).
    apply (wpM_bind (fun i => resM (pop (A i)))). apply (wpM_res _ _ _ _ EA).
    apply (wpM_bind (fun i => resM (pop (B i)))). apply (wpM_res _ _ _ _ EB). cbn [fst snd].
    apply (wpM_bind (fun i => foldM (ripple_step (E i 128)) (combine (skipn 2 (A' i)) (skipn 1 (B' i))) (c i))).
    pose proof (RL_skipn _ _ _ 2 TA') as SA. pose proof (RL_skipn _ _ _ 1 TB') as SB.
    change (skipn 2 (seq 0 (Datatypes.S (Datatypes.S k)))) with (seq 2 k) in SA.
    change (skipn 1 (seq 0 (Datatypes.S k))) with (seq 1 k) in SB.
    eapply wpM_mono; [|apply (ripple_ok nw u m k 1%nat _ _ c _ s2 Hs2 SA SB HCarry)].
    intros s3 cf [Hs3 (rcf & Rcf & Icf)].
    destruct Rta as (rta & Rta & Ita). destruct Rtb as (rtb & Rtb & Itb).
    destruct (xor_many_row _ _ _ _ _ _ _ Rta Ita Rtb Itb) as (W1 & row1 & F1 & R1 & I1).
    destruct (xor_many_row _ _ _ _ _ _ _ R1 I1 Rcf Icf) as (W2 & row2 & F2 & R2 & I2).
    apply (wpM_bind (fun i => resM (xor_many (E i 128) (ta i) (tb i)))). apply (wpM_res _ _ _ _ F1).
    apply (wpM_bind (fun i => resM (xor_many (E i 128) (W1 i) (cf i)))). apply (wpM_res _ _ _ _ F2).
    apply wpM_ret. split.
    - replace (Z.to_nat K - 3)%nat with k by lia. replace (Z.to_nat K - 1)%nat with (Datatypes.S (Datatypes.S k)) by lia. exact Hs3.
    - assert (RZ : RL (brel 1) (fun i => resize (length xs1) szero (flat_map (sh_to_bits 128) (W2 i))) (resize (length xs1) 0 (flat_map (to_bits 128) row2))).
      { apply (RL_resize (brel 1) _ _ _ (fun _ => szero)); [apply flat_bits_ok, R2|]. split; [exact in1|]. apply szero_brel; lia. }
      rewrite (resize_row _ _ _ _ I2 Bn) in RZ. rewrite map3_as_seq by assumption.
      erewrite map_ext_in; [exact RZ|]. intros j Hj. apply in_seq in Hj. cbn beta. f_equal.
      assert (Hr : forall xs X, RL (brel K) X xs -> 0 <= nth j xs 0).
      { intros xs X HX. pose proof (brel_Forall K X xs HX) as HF. rewrite Forall_forall in HF.
        destruct (Nat.lt_ge_cases j (length xs)) as [Hl|Hl]; [apply HF, nth_In, Hl|rewrite nth_overflow by lia; lia]. }
      rewrite (csa (nth j xs1 0) (nth j xs2 0) (nth j xs3 0)); [|eapply Hr; eassumption|eapply Hr; eassumption|eapply Hr; eassumption].
      change (nth j xs1 0) with (v1 j). change (nth j xs2 0) with (v2 j). change (nth j xs3 0) with (v3 j).
      change (sum3 (v1 j) (v2 j) (v3 j)) with (u j). change (maj3 (v1 j) (v2 j) (v3 j)) with (m j).
      assert (E1 : Z.testbit (2 * m j) (K - 1) = Z.testbit (m j) (Z.of_nat (Datatypes.S k))).
      { replace (K - 1) with (Z.succ (Z.of_nat (Datatypes.S k))) by lia. apply Z.double_bits_succ. }
      replace (Z.of_nat (2 + k)) with (K - 1) by lia. replace (Z.of_nat (Datatypes.S (Datatypes.S k))) with (K - 1) by lia.
      rewrite <- E1. unfold carry. rewrite !Z.lxor_spec.
      destruct (Z.testbit (u j + 2 * m j) (K - 1)), (Z.testbit (u j) (K - 1)), (Z.testbit (2 * m j) (K - 1)); reflexivity.
  Qed.
End Msb.
