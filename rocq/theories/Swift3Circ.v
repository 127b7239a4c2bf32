(** Honest runs of the Swift3 engine: linear operations, circuits, OR reduction. *)
From Verif Require Import Base Ring RingProofs Prog Sched Conc Rng Rel Net BitArith Iris IrisSpec Protocol MpcSpec BinTrait BinProofs AddProofs SlicedProofs OrProofs
  Aby3 ShareSpec Aby3Proofs Aby3Proofs2 Jmp JmpProofs Swift3 Swift3Spec Swift3Proofs Swift3Gates.
From Coq Require Import ZifyBool ZifyNat Btauto.

(** ** Linear operations *)
Section Linear.
  Variable K : Z.
  Hypothesis HK : 0 <= K.
  Lemma inr0 : inr K 0. Proof using HK. unfold inr. split; [lia|apply Z.pow_pos_nonneg; lia]. Qed.
  Lemma tzero_ok : arith3 K (fun _ => tzero) 0.
  Proof using HK. split; [intros i; split; apply inr0|]. split; [split; reflexivity|]. reflexivity. Qed.
  Lemma t_add_ok X x Y y : arith3 K X x -> arith3 K Y y -> arith3 K (fun i => t_add K (X i) (Y i)) ((x + y) mod 2 ^ K).
  Proof using HK.
    intros (A1 & A2 & A3) (B1 & B2 & B3). split; [intros i; split; apply (inr_mod K _ HK)|]. split.
    - intros i. cbn. rewrite (proj1 (A2 i)), (proj1 (B2 i)), (proj2 (A2 i)), (proj2 (B2 i)). auto.
    - cbn. subst x y. modring.
  Qed.
  Lemma t_sub_ok X x Y y : arith3 K X x -> arith3 K Y y -> arith3 K (fun i => t_sub K (X i) (Y i)) ((x - y) mod 2 ^ K).
  Proof using HK.
    intros (A1 & A2 & A3) (B1 & B2 & B3). split; [intros i; split; apply (inr_mod K _ HK)|]. split.
    - intros i. cbn. rewrite (proj1 (A2 i)), (proj1 (B2 i)), (proj2 (A2 i)), (proj2 (B2 i)). auto.
    - cbn. subst x y. modring.
  Qed.
  Lemma t_mulc_ok X x c : arith3 K X x -> arith3 K (fun i => t_mulc K (X i) c) ((x * c) mod 2 ^ K).
  Proof using HK.
    intros (A1 & A2 & A3). split; [intros i; split; apply (inr_mod K _ HK)|]. split.
    - intros i. cbn. rewrite (proj1 (A2 i)), (proj2 (A2 i)). auto.
    - cbn. subst x. modring.
  Qed.
  Lemma t_add_const_ok X x c : arith3 K X x -> arith3 K (fun i => t_add_const K (X i) c) ((x + c) mod 2 ^ K).
  Proof using HK.
    intros (A1 & A2 & A3). split; [intros i; split; [apply A1|apply (inr_mod K _ HK)]|]. split.
    - intros i. cbn. rewrite (proj1 (A2 i)), (proj2 (A2 i)). auto.
    - cbn. subst x. modring.
  Qed.
  Lemma t_sub_const_ok X x c : arith3 K X x -> arith3 K (fun i => t_sub_const K (X i) c) ((x - c) mod 2 ^ K).
  Proof using HK.
    intros (A1 & A2 & A3). split; [intros i; split; [apply A1|apply (inr_mod K _ HK)]|]. split.
    - intros i. cbn. rewrite (proj1 (A2 i)), (proj2 (A2 i)). auto.
    - cbn. subst x. modring.
  Qed.
  Lemma arith3_range X x : arith3 K X x -> inr K x.
  Proof using HK. intros (_ & _ & ->). apply (inr_mod K _ HK). Qed.
  Lemma bin3_range X x : bin3 K X x -> inr K x.
  Proof using HK. intros (A1 & _ & ->). repeat apply inr_lxor; try apply A1; auto. Qed.
  Lemma t_xor_ok X x Y y : bin3 K X x -> bin3 K Y y -> bin3 K (fun i => t_xor (X i) (Y i)) (Z.lxor x y).
  Proof using HK.
    intros (A1 & A2 & A3) (B1 & B2 & B3). split; [intros i; split; apply inr_lxor; auto; try apply A1; apply B1|]. split.
    - intros i. cbn. rewrite (proj1 (A2 i)), (proj1 (B2 i)), (proj2 (A2 i)), (proj2 (B2 i)). auto.
    - cbn. subst x y. unfold rxor. bitsolve.
  Qed.
End Linear.
Lemma t_shl_ok K X x n : 0 < K -> bin3 K X x -> bin3 K (fun i => t_shl K (X i) n) (rshl K x n).
Proof.
  intros HK (A1 & A2 & A3). split; [intros i; split; cbn [ta tc t_shl]; apply inr_rshl; auto; apply A1|]. split.
  - intros i. cbn. rewrite (proj1 (A2 i)), (proj2 (A2 i)). auto.
  - cbn [ta tc t_shl]. subst x. rewrite !rshl_lxor by exact HK. reflexivity.
Qed.

Definition b3 (K : Z) (X : pid -> share3) (x : Z) : Prop := In K widths /\ bin3 K X x.
Lemma RL_b3 K X xs : In K widths -> RL (bin3 K) X xs <-> RL (b3 K) X xs.
Proof.
  intros HK. split; intros E; (eapply RL_mono; [|exact E]); [intros Y y HY; split; assumption|intros Y y [_ HY]; exact HY].
Qed.

(** ** Arithmetic to binary *)
Lemma one_comp K (X : pid -> share3) v j : 0 <= K -> inr K v -> (forall i, tc (X i) = 0) ->
  (forall i, ta (X i) = if pid_eqb i j then v else 0) -> (forall i, tb (X i) = if pid_eqb (prev i) j then v else 0) -> bin3 K X v.
Proof.
  intros HK Hv Hc Ha Hb. split; [|split].
  - intros i. rewrite Hc, Ha. split; [destruct (pid_eqb i j); [exact Hv|apply inr0, HK]|apply inr0, HK].
  - intros i. rewrite Hb, Ha, !Hc. auto.
  - rewrite Hc, !Ha, Z.lxor_0_l. destruct j; cbn; rewrite ?Z.lxor_0_l, ?Z.lxor_0_r; reflexivity.
Qed.
Lemma a2b_pre3_ok K X x : In K widths -> arith3 K X x ->
  exists x1 x2 x3, b3 K (fun i => fst (fst (a2b_pre3 i K (X i)))) x1 /\
    b3 K (fun i => snd (fst (a2b_pre3 i K (X i)))) x2 /\ b3 K (fun i => snd (a2b_pre3 i K (X i))) x3 /\
    norm K (x1 + x2 + x3) = x.
Proof.
  intros HK (A1 & A2 & A3). assert (HK0 : 0 <= K) by (apply in_widths_pos in HK; lia).
  pose proof (A2 P0) as [E0 C0]. pose proof (A2 P1) as [E1 C1]. pose proof (A2 P2) as [E2 C2]. cbn [prev] in *.
  exists (rsub K (tc (X P0)) (ta (X P0))), (rneg K (ta (X P1))), (rneg K (ta (X P2))).
  split; [|split; [|split]].
  - split; [exact HK|]. apply (one_comp K _ _ P0); [exact HK0|apply (inr_mod K _ HK0)|..]; intros [| |]; cbn; try reflexivity. rewrite C1, E1. reflexivity.
  - split; [exact HK|]. apply (one_comp K _ _ P1); [exact HK0|apply (inr_mod K _ HK0)|..]; intros [| |]; cbn; try reflexivity. rewrite E2. reflexivity.
  - split; [exact HK|]. apply (one_comp K _ _ P2); [exact HK0|apply (inr_mod K _ HK0)|..]; intros [| |]; cbn; try reflexivity. rewrite E0. reflexivity.
  - subst x. unfold norm. modring.
Qed.
Lemma a2b_pre3_many_ok K X xs : In K widths -> RL (arith3 K) X xs ->
  exists x1 x2 x3, RL (b3 K) (fun i => map (fun t => fst (fst t)) (map (a2b_pre3 i K) (X i))) x1 /\
    RL (b3 K) (fun i => map (fun t => snd (fst t)) (map (a2b_pre3 i K) (X i))) x2 /\
    RL (b3 K) (fun i => map snd (map (a2b_pre3 i K) (X i))) x3 /\
    map3 (fun a b c => norm K (a + b + c)) x1 x2 x3 = xs /\
    length x1 = length xs /\ length x2 = length xs /\ length x3 = length xs.
Proof.
  intros HK. induction 1 as [X HX|X Y X0 y ys HX HY HR IH].
  - exists [], [], []. repeat split; apply RL_nil; intros i; rewrite HX; reflexivity.
  - destruct IH as (x1 & x2 & x3 & H1 & H2 & H3 & E & L1 & L2 & L3).
    destruct (a2b_pre3_ok K Y y HK HY) as (y1 & y2 & y3 & J1 & J2 & J3 & Ey).
    exists (y1 :: x1), (y2 :: x2), (y3 :: x3). split; [|split; [|split; [|split]]].
    + eapply RL_cons; [|exact J1|exact H1]. intros i. rewrite HX. reflexivity.
    + eapply RL_cons; [|exact J2|exact H2]. intros i. rewrite HX. reflexivity.
    + eapply RL_cons; [|exact J3|exact H3]. intros i. rewrite HX. reflexivity.
    + cbn [map3]. rewrite Ey, E. reflexivity.
    + cbn [length]. lia.
Qed.
Lemma t_get_msb_ok K X x : In K widths -> bin3 K X x -> bin3 1 (fun i => t_get_msb K (X i)) (Z.b2z (Z.testbit x (K - 1))).
Proof.
  intros HK (A1 & A2 & A3). split; [|split].
  - intros i. cbn. rewrite !get_msb_bit by (auto; apply A1). split; apply b2z_inr.
  - intros i. cbn. rewrite (proj1 (A2 i)), (proj2 (A2 i)). auto.
  - cbn. rewrite !get_msb_bit by (auto; apply A1). subst x. rewrite !Z.lxor_spec.
    repeat match goal with |- context [Z.testbit ?a ?n] => destruct (Z.testbit a n) end; reflexivity.
Qed.

(** ** Packing *)
Lemma pack_word3_eq W l : pack_word3 W l = Share3 (pkf W (map ta l)) (pkf W (map tb l)) (pkf W (map tc l)).
Proof.
  unfold pack_word3, pkf. rewrite !map_length. unfold tzero. generalize 0 at 1 4 as u. generalize 0 at 1 3 as v. generalize 0 at 1 2 as w.
  generalize 0%nat as k.
  induction l as [|x l IH]; intros k v u w; [reflexivity|]. cbn [length seq combine fold_left map fst snd ta tb tc].
  rewrite IH. reflexivity.
Qed.
Lemma pkf_xor W (ps : list (Z * Z)) : 1 < W -> Z.of_nat (length ps) <= W -> Forall (fun p => inr 1 (fst p) /\ inr 1 (snd p)) ps ->
  pkf W (map val_b ps) = Z.lxor (pkf W (map snd ps)) (pkf W (map fst ps)).
Proof.
  intros HW Hl HF.
  assert (F1 : Forall (inr 1) (map fst ps)) by (apply Forall_map; eapply Forall_impl; [|exact HF]; intros p Hp; apply Hp).
  assert (F2 : Forall (inr 1) (map snd ps)) by (apply Forall_map; eapply Forall_impl; [|exact HF]; intros p Hp; apply Hp).
  assert (F3 : Forall (inr 1) (map val_b ps)) by (apply Forall_map; eapply Forall_impl; [|exact HF]; intros p [Hp Hq]; apply inr_lxor; auto; lia).
  assert (L1 : Z.of_nat (length (map fst ps)) <= W) by (rewrite map_length; exact Hl).
  assert (L2 : Z.of_nat (length (map snd ps)) <= W) by (rewrite map_length; exact Hl).
  assert (L3 : Z.of_nat (length (map val_b ps)) <= W) by (rewrite map_length; exact Hl).
  apply (inr_bits_eq W); [lia|apply pkf_spec; auto|apply inr_lxor; try lia; apply pkf_spec; auto|].
  intros n Hn. rewrite Z.lxor_spec, <- (Z2Nat.id n) by lia.
  rewrite !(proj2 (pkf_spec W _ HW L1 F1)), !(proj2 (pkf_spec W _ HW L2 F2)), !(proj2 (pkf_spec W _ HW L3 F3)) by lia.
  generalize (Z.to_nat n). clear. intros k. revert ps. induction k as [|k IH]; intros [|p ps]; cbn [map nth]; try apply Z.lxor_spec; try reflexivity. apply IH.
Qed.
Lemma bin3'_bits1 X ps : RL (bin3' 1) X ps -> Forall (fun p => inr 1 (fst p) /\ inr 1 (snd p)) ps.
Proof. induction 1 as [X HX|X Y X0 y ys HX HY HR IH]; constructor; [|exact IH]. split; [eapply brel_range; [|apply HY]; lia|apply HY]. Qed.
Lemma RL_tc K X ps : RL (bin3' K) X ps -> forall i, map tc (X i) = map snd ps.
Proof. induction 1 as [X HX|X Y X0 y ys HX HY HR IH]; intros i; rewrite HX; [reflexivity|]. cbn. rewrite IH. f_equal. apply HY. Qed.
Lemma pack_word3_ok W X bs : In W widths -> 1 < W -> Z.of_nat (length bs) <= W -> RL (bin3 1) X bs ->
  bin3 W (fun i => pack_word3 W (X i)) (pkf W bs).
Proof.
  intros HW H1 Hl HX. destruct (RL_split _ (bin3' 1) val_b _ _ (bin3_split 1) HX) as (ps & HX' & ->). rewrite map_length in Hl.
  pose proof (bin3'_bits1 _ _ HX') as HF.
  assert (HB : RL (brel 1) (fun i => map t_ab (X i)) (map fst ps)) by (apply RL_brel; [exact in1|]; apply RL_tab_b, HX').
  assert (L1 : Z.of_nat (length (map fst ps)) <= W) by (rewrite map_length; exact Hl).
  assert (L2 : Z.of_nat (length (map snd ps)) <= W) by (rewrite map_length; exact Hl).
  assert (F2 : Forall (inr 1) (map snd ps)) by (apply Forall_map; eapply Forall_impl; [|exact HF]; intros p Hp; apply Hp).
  eapply (bin3_join W _ (pkf W (map fst ps), pkf W (map snd ps))).
  - split; [|split].
    + destruct (pack_word_ok W _ _ HW H1 L1 HB) as [_ HP]. eapply brel_ext; [|exact HP].
      intros i. cbn beta. rewrite pack_word_eq, pack_word3_eq, !map_map. reflexivity.
    + apply (pkf_spec W _ H1 L2 F2).
    + intros i. rewrite pack_word3_eq. cbn [tc snd]. rewrite (RL_tc _ _ _ HX'). reflexivity.
  - symmetry. apply pkf_xor; auto.
Qed.
Lemma pack_words3_ok W Xc css : In W widths -> 1 < W -> RL (RL (bin3 1)) Xc css -> Forall (fun c => (length c <= Z.to_nat W)%nat) css ->
  RL (bin3 W) (fun i => map (pack_word3 W) (Xc i)) (map (pkf W) css).
Proof.
  intros HW H1 HC. induction HC as [X' HX'|X' Y X0 y ys HX HY HR IH]; intros HL.
  - apply RL_nil. intros i. rewrite HX'. reflexivity.
  - inversion HL; subst. cbn [map]. eapply RL_cons; [|apply (pack_word3_ok W Y y HW H1); [lia|exact HY]|apply IH; assumption].
    intros i. rewrite HX. reflexivity.
Qed.
Lemma pack3_ok W X bs : In W widths -> 1 < W -> RL (bin3 1) X bs -> RL (bin3 W) (fun i => pack3 W (X i)) (vpack W bs).
Proof.
  intros HW H1 HX. apply (pack_words3_ok W (fun i => chunks (Z.to_nat W) (X i))); auto.
  - apply RL_chunks, HX.
  - apply chunks_Forall_len.
Qed.

Lemma mod_lxor H a b : 0 <= H -> Z.lxor a b mod 2 ^ H = Z.lxor (a mod 2 ^ H) (b mod 2 ^ H).
Proof.
  intros HH. apply Z.bits_inj'. intros n Hn. rewrite Z.lxor_spec. destruct (Z.lt_ge_cases n H).
  - rewrite !Z.mod_pow2_bits_low by lia. apply Z.lxor_spec.
  - rewrite !Z.mod_pow2_bits_high by lia. reflexivity.
Qed.
Lemma split3_ok H X x : In H widths -> In (2 * H) widths -> bin3 (2 * H) X x ->
  bin3 H (fun i => fst (split_share3 H (X i))) (x mod 2 ^ H) /\
  bin3 H (fun i => snd (split_share3 H (X i))) (Z.shiftr x H mod 2 ^ H).
Proof.
  intros HH H2 (A1 & A2 & A3). assert (H0 : 0 < H) by (apply in_widths_pos; assumption).
  split; (split; [|split]); unfold split_share3; cbn [fst snd ta tb tc].
  1, 4: intros i; split; apply (inr_mod H); lia.
  1, 3: intros i; rewrite (proj1 (A2 i)), (proj2 (A2 i)); auto.
  - subst x. rewrite !mod_lxor by lia. reflexivity.
  - subst x. rewrite !Z.shiftr_lxor, !mod_lxor by lia. reflexivity.
Qed.
Definition tbit (r : nat) (x : share3) : share3 :=
  let bit (v : Z) (n : nat) := if rand_ (rshr 8 v (Z.of_nat n)) 1 =? 1 then 1 else 0 in Share3 (bit (ta x) r) (bit (tb x) r) (bit (tc x) r).
Lemma tbit_ok r X x : (r < 8)%nat -> bin3 8 X x -> bin3 1 (fun i => tbit r (X i)) (zbit r x).
Proof.
  intros Hr (A1 & A2 & A3).
  assert (E : forall v, (if rand_ (rshr 8 v (Z.of_nat r)) 1 =? 1 then 1 else 0) = zbit r v).
  { intros v. rewrite <- zbit_eq. unfold rshr. rewrite Z.mod_small by lia. reflexivity. }
  split; [|split].
  - intros i. cbn [ta tc tbit]. rewrite !E. split; apply b2z_inr.
  - intros i. cbn [ta tb tc tbit]. rewrite (proj1 (A2 i)), (proj2 (A2 i)). auto.
  - cbn [ta tc tbit]. rewrite !E. subst x. unfold zbit. rewrite !Z.lxor_spec.
    repeat match goal with |- context [Z.testbit ?a ?n] => destruct (Z.testbit a n) end; reflexivity.
Qed.

Section Circ.
  Variable G : rng.
  Variable KU : Z.
  Notation winv := (winv G KU).
  Lemma swift3_bin_ok : bin_ok (fun i K => swift3_bin G i K) b3 (fun _ : unit => winv) (fun _ _ g => g).
  Proof using.
    constructor.
    - reflexivity.
    - intros K X x [HK HX]. eapply bin3_range; [|exact HX]. apply in_widths_pos in HK. lia.
    - intros K X X' x E [HK HX]. split; [exact HK|]. eapply bin3_ext; eassumption.
    - intros K X x Y y HK [_ HX] [_ HY]. split; [exact HK|]. apply t_xor_ok; auto. apply in_widths_pos in HK. lia.
    - intros K X x n HK [_ HX] Hn. split; [exact HK|]. apply t_shl_ok; auto. apply in_widths_pos in HK. lia.
    - intros K g s X x Y y HK Hs [_ HX] [_ HY].
      eapply wpM_mono; [|apply (w_andg_ok G KU K X x Y y s); assumption].
      intros s' W [H1 H2]. split; [exact H1|]. split; assumption.
    - intros K g s X xs Y ys HK Hs HX HY Hl.
      eapply wpM_mono; [|apply (w_and_many_ok G KU K X xs Y ys s); try assumption; apply RL_b3; assumption].
      intros s' W [H1 H2]. split; [exact H1|]. apply RL_b3; assumption.
  Qed.
  Notation OK := swift3_bin_ok.

  Lemma w_a2b_ok K X x s : In K widths -> winv s -> arith3 K X x ->
    wpM (fun i => w_a2b G i K (X i)) s (fun s' W => winv s' /\ bin3 K W x).
  Proof using.
    intros HK Hs HX. destruct (a2b_pre3_ok K X x HK HX) as (x1 & x2 & x3 & H1 & H2 & H3 & E).
    unfold w_a2b. apply (wpM_ext (fun i => binary_add_3 (swift3_bin G i K) (fst (fst (a2b_pre3 i K (X i)))) (snd (fst (a2b_pre3 i K (X i)))) (snd (a2b_pre3 i K (X i))))).
    { intros i. destruct (a2b_pre3 i K (X i)) as [[? ?] ?]. reflexivity. }
    eapply wpM_mono; [|apply (binary_add_3_ok _ _ _ _ OK K HK tt s _ x1 _ x2 _ x3 Hs H1 H2 H3)].
    intros s' W [Hs' HW]. rewrite E in HW. split; [exact Hs'|apply HW].
  Qed.
  Lemma w_a2b_many_ok K X xs s : In K widths -> winv s -> RL (arith3 K) X xs ->
    wpM (fun i => w_a2b_many G i K (X i)) s (fun s' W => winv s' /\ RL (bin3 K) W xs).
  Proof using.
    intros HK Hs HX. destruct (a2b_pre3_many_ok K X xs HK HX) as (x1 & x2 & x3 & H1 & H2 & H3 & E & L1 & L2 & L3).
    unfold w_a2b_many.
    eapply wpM_mono; [|apply (binary_add_3_many_ok _ _ _ _ OK K HK tt s _ x1 _ x2 _ x3 Hs H1 H2 H3); congruence].
    intros s' W [Hs' HW]. rewrite E in HW. split; [exact Hs'|]. apply RL_b3; assumption.
  Qed.
  Lemma w_get_msb_ok K X x s : In K widths -> winv s -> arith3 K X x ->
    wpM (fun i => w_get_msb G i K (X i)) s (fun s' W => winv s' /\ bin3 1 W (Z.b2z (Z.testbit x (K - 1)))).
  Proof using.
    intros HK Hs HX. unfold w_get_msb. wbind. eapply wpM_mono; [|apply (w_a2b_ok K X x s HK Hs HX)]. intros s' W [Hs' HW].
    apply wpM_ret. split; [exact Hs'|]. apply t_get_msb_ok; assumption.
  Qed.
  Lemma w_get_msb_many_ok K X xs s : In K widths -> winv s -> RL (arith3 K) X xs ->
    wpM (fun i => w_get_msb_many G i K (X i)) s (fun s' W => winv s' /\ RL (bin3 1) W (map (fun x => Z.b2z (Z.testbit x (K - 1))) xs)).
  Proof using.
    intros HK Hs HX. unfold w_get_msb_many. wbind. eapply wpM_mono; [|apply (w_a2b_many_ok K X xs s HK Hs HX)]. intros s' W [Hs' HW].
    apply wpM_ret. split; [exact Hs'|]. apply (RL_map (bin3 K) (bin3 1) (fun _ => t_get_msb K)); [|exact HW].
    intros Y y HY. apply t_get_msb_ok; assumption.
  Qed.

  (** ** OR reduction *)
  Lemma reduce3_u8_ok X x s : winv s -> bin3 8 X x ->
    wpM (fun i => reduce3_u8 G i (X i)) s (fun s' W => winv s' /\ bin3 1 W (nz x)).
  Proof using.
    intros Hs HX. unfold reduce3_u8.
    pose (D := fun i => map (fun n => tbit n (X i)) (seq 0 8)).
    assert (HD : RL (b3 1) D (map (fun n => zbit n x) (seq 0 8))).
    { apply RL_b3; [exact in1|]. unfold D. assert (HI : forall n, In n (seq 0 8) -> (n < 8)%nat) by (intros n Hn; apply in_seq in Hn; lia).
      revert HI. generalize (seq 0 8). intros l HI. induction l as [|r l IH]; [apply RL_nil'|]. cbn [map].
      apply (RL_cons' (bin3 1) (fun i => tbit r (X i))); [apply tbit_ok; [apply HI; left; reflexivity|exact HX]|apply IH; intros n Hn; apply HI; right; exact Hn]. }
    apply (wpM_ext (fun i => (d4 <- or_many (swift3_bin G i 1) (firstn 4 (D i)) (skipn 4 (D i)) ;;
      d2 <- or_many (swift3_bin G i 1) (firstn 2 d4) (skipn 2 d4) ;;
      d1 <- or_many (swift3_bin G i 1) (firstn 1 d2) (skipn 1 d2) ;;
      resM (index d1 0))%M)).
    { intros i. reflexivity. }
    cbn [seq map] in HD. rewrite <- (bits8 x) by (eapply bin3_range; [|exact HX]; lia).
    cbn [seq map]. generalize dependent (zbit 0 x). intros b0. generalize dependent (zbit 1 x). intros b1.
    generalize dependent (zbit 2 x). intros b2. generalize dependent (zbit 3 x). intros b3'.
    generalize dependent (zbit 4 x). intros b4. generalize dependent (zbit 5 x). intros b5.
    generalize dependent (zbit 6 x). intros b6. generalize dependent (zbit 7 x). intros b7 HD. clearbody D.
    apply (wpM_bind (fun i => or_many (swift3_bin G i 1) (firstn 4 (D i)) (skipn 4 (D i)))).
    eapply wpM_mono; [|apply (or_many_ok _ _ _ _ OK 1 in1 tt s _ _ _ _ Hs (RL_firstn _ _ _ 4 HD) (RL_skipn _ _ _ 4 HD) eq_refl)].
    intros s1 D4 [Hs1 H4]. cbn [firstn skipn map2 length] in Hs1, H4.
    apply (wpM_bind (fun i => or_many (swift3_bin G i 1) (firstn 2 (D4 i)) (skipn 2 (D4 i)))).
    eapply wpM_mono; [|apply (or_many_ok _ _ _ _ OK 1 in1 tt s1 _ _ _ _ Hs1 (RL_firstn _ _ _ 2 H4) (RL_skipn _ _ _ 2 H4) eq_refl)].
    intros s2 D2 [Hs2 H2]. cbn [firstn skipn map2 length] in Hs2, H2.
    apply (wpM_bind (fun i => or_many (swift3_bin G i 1) (firstn 1 (D2 i)) (skipn 1 (D2 i)))).
    eapply wpM_mono; [|apply (or_many_ok _ _ _ _ OK 1 in1 tt s2 _ _ _ _ Hs2 (RL_firstn _ _ _ 1 H2) (RL_skipn _ _ _ 1 H2) eq_refl)].
    intros s3 D1 [Hs3 H1]. cbn [firstn skipn map2 length] in Hs3, H1.
    destruct (RL_inv_cons _ _ _ _ H1) as (Y & D0 & EY & HY & _).
    apply (wpM_res _ Y); [intros i; rewrite EY; reflexivity|]. split; [exact Hs3|].
    destruct HY as [_ HY].
    match goal with HY : bin3 1 Y ?a |- bin3 1 Y ?b => replace b with a; [exact HY|] end.
    cbn [orl fold_right]. rewrite Z.lor_0_r. clear. bitsolve.
  Qed.
  Lemma reduce3_split_ok H (f : pid -> share3 -> M (sst G) share3) X x s :
    In H widths -> In (2 * H) widths ->
    (forall Y y s, winv s -> bin3 H Y y -> wpM (fun i => f i (Y i)) s (fun s' W => winv s' /\ bin3 1 W (nz y))) ->
    winv s -> bin3 (2 * H) X x ->
    wpM (fun i => let '(l, h) := split_share3 H (X i) in bindM (b_or (swift3_bin G i H) l h) (f i)) s
      (fun s' W => winv s' /\ bin3 1 W (nz x)).
  Proof using.
    intros HH H2 Hf Hs HX. destruct (split3_ok H X x HH H2 HX) as [HL HU].
    apply (wpM_ext (fun i => bindM (b_or (swift3_bin G i H) (fst (split_share3 H (X i))) (snd (split_share3 H (X i)))) (f i))).
    { intros i. reflexivity. }
    apply (wpM_bind (fun i => b_or (swift3_bin G i H) (fst (split_share3 H (X i))) (snd (split_share3 H (X i))))).
    eapply wpM_mono; [|apply (or_ok _ _ _ _ OK H HH tt s _ _ _ _ Hs (conj HH HL) (conj HH HU))].
    intros s' W [Hs' [_ HW]]. eapply wpM_mono; [|apply (Hf W _ s' Hs' HW)].
    intros s2 V [H3 H4]. split; [exact H3|]. rewrite split_lor in H4; [exact H4|apply in_widths_pos, HH|].
    eapply bin3_range; [|exact HX]. apply in_widths_pos in H2; lia.
  Qed.
  Lemma reduce3_u128_ok X x s : winv s -> bin3 128 X x ->
    wpM (fun i => reduce3_u128 G i (X i)) s (fun s' W => winv s' /\ bin3 1 W (nz x)).
  Proof using.
    intros Hs HX. unfold reduce3_u128.
    apply (reduce3_split_ok 64); [cbn; tauto|cbn; tauto| |exact Hs|exact HX].
    intros X1 x1 s1 Hs1 HX1. unfold reduce3_u64.
    apply (reduce3_split_ok 32); [cbn; tauto|cbn; tauto| |exact Hs1|exact HX1].
    intros X2 x2 s2 Hs2 HX2. unfold reduce3_u32.
    apply (reduce3_split_ok 16); [cbn; tauto|cbn; tauto| |exact Hs2|exact HX2].
    intros X3 x3 s3 Hs3 HX3. unfold reduce3_u16.
    apply (reduce3_split_ok 8); [cbn; tauto|cbn; tauto| |exact Hs3|exact HX3].
    intros. apply reduce3_u8_ok; assumption.
  Qed.
  Lemma w_reduce_or_ok X bs chunk s : (0 < chunk)%nat -> (0 < length bs)%nat -> winv s -> RL (bin3 1) X bs ->
    wpM (fun i => w_reduce_or G i (X i) chunk) s (fun s' W => winv s' /\ bin3 1 W (or_bits bs)).
  Proof using.
    intros Hc Hn Hs HX. unfold w_reduce_or.
    assert (HF : Forall (inr 1) bs) by (clear -HX; induction HX; constructor; auto; eapply bin3_range; [|eassumption]; lia).
    pose proof (vpack_rowis bs HF) as (HL & _).
    destruct (nchunks_bound 128 (length bs) ltac:(lia)) as [_ Pn]. specialize (Pn Hn).
    wbind.
    eapply wpM_mono; [|apply (or_tree_ok _ _ _ _ OK 128 in128 chunk _ (vpack 128 bs) tt s Hc ltac:(lia) Hs)].
    - intros s1 W [Hs1 [_ HW]].
      eapply wpM_mono; [|apply (reduce3_u128_ok W _ s1 Hs1 HW)].
      intros s2 V [H1 H2]. split; [exact H1|]. rewrite nz_orl_vpack in H2 by exact HF. exact H2.
    - apply RL_b3; [exact in128|]. apply pack3_ok; [exact in128|lia|exact HX].
  Qed.
End Circ.
