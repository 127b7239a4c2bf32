(** Honest runs of the malicious ABY3 engine: triples, sacrifice, multiplication, gates. *)
From Verif Require Import Base Ring RingProofs Prog Sched Conc Rng Rel Net BinTrait BitArith BinProofs AddProofs Iris IrisSpec IrisProofs
  Protocol MpcSpec Plain Aby3 ShareSpec Aby3Proofs Aby3Proofs2 SlicedProofs OrProofs EngineProofs Client Jmp JmpProofs Aby3Mal.
From Coq Require Import ZifyBool ZifyNat.

(** ** Rings of different width *)
Lemma mod_mod_pow a K U : 0 <= K <= U -> (a mod 2 ^ U) mod 2 ^ K = a mod 2 ^ K.
Proof.
  intros H. replace U with (K + (U - K)) by lia. rewrite Z.pow_add_r by lia.
  assert (0 < 2 ^ K) by (apply Z.pow_pos_nonneg; lia). assert (0 < 2 ^ (U - K)) by (apply Z.pow_pos_nonneg; lia).
  rewrite Z.rem_mul_r by lia. rewrite Z.mul_comm, Z_mod_plus_full. apply Zmod_mod.
Qed.
Lemma sh_trunc_ok K U X x : 0 <= K <= U -> arith_shared U X x -> arith_shared K (fun i => sh_trunc K (X i)) (x mod 2 ^ K).
Proof.
  intros HK (A1 & A2 & A3). split; [|split]; intros; cbn [sa sb sh_trunc].
  - apply inr_mod; lia.
  - rewrite A2. reflexivity.
  - subst x. rewrite mod_mod_pow by lia. unfold from_verif. modring.
Qed.
Lemma sh_ext_ok K U X x : 0 <= K <= U -> arith_shared K X x ->
  exists x', arith_shared U (fun i => sh_ext (X i)) x' /\ x' mod 2 ^ K = x.
Proof.
  intros HK (A1 & A2 & A3). eexists. split; [split; [|split]; [..|reflexivity]; intros; cbn [sa sb sh_ext]|].
  - unfold to_verif. specialize (A1 i). unfold inr in *. assert (2 ^ K <= 2 ^ U) by (apply Z.pow_le_mono_r; lia). lia.
  - apply A2.
  - rewrite mod_mod_pow by lia. symmetry. exact A3.
Qed.
Lemma RL_Forall2_l {A B} (R : (pid -> A) -> B -> Prop) X ys : RL R X ys -> forall i, length (X i) = length ys.
Proof. apply RL_length. Qed.
Lemma RL_ext_ok K U X xs : 0 <= K <= U -> RL (arith_shared K) X xs ->
  exists xs', RL (arith_shared U) (fun i => map sh_ext (X i)) xs' /\ map (fun x => x mod 2 ^ K) xs' = xs.
Proof.
  intros HK H. induction H as [X HX|X Y X0 y ys HX HY H (xs' & I1 & I2)].
  - exists []. split; [apply RL_nil; intros i; rewrite HX; reflexivity|reflexivity].
  - destruct (sh_ext_ok K U Y y HK HY) as (y' & Hy & E). exists (y' :: xs'). split.
    + eapply RL_cons; [|exact Hy|exact I1]. intros i. rewrite HX. reflexivity.
    + cbn [map]. rewrite E, I2. reflexivity.
Qed.
Lemma RL_trunc_ok K U X xs : 0 <= K <= U -> RL (arith_shared U) X xs ->
  RL (arith_shared K) (fun i => map (sh_trunc K) (X i)) (map (fun x => x mod 2 ^ K) xs).
Proof. intros HK. apply (RL_map (arith_shared U) (arith_shared K) (fun _ => sh_trunc K)). intros. apply (sh_trunc_ok K U); assumption. Qed.

(** Sharing of one bit. *)
Lemma bit3 a b c : inr 1 a -> inr 1 b -> inr 1 c -> (a + b + c) mod 2 = Z.lxor (Z.lxor a b) c.
Proof.
  unfold inr. change (2 ^ 1) with 2. intros.
  assert (Ha : a = 0 \/ a = 1) by lia. assert (Hb : b = 0 \/ b = 1) by lia. assert (Hc : c = 0 \/ c = 1) by lia.
  destruct Ha, Hb, Hc; subst; reflexivity.
Qed.
Lemma arith_bin1 X x : arith_shared 1 X x <-> bin_shared 1 X x.
Proof.
  unfold arith_shared, bin_shared. change (2 ^ 1) with 2. split; intros (A1 & A2 & A3); split; auto; split; auto.
  - rewrite A3. apply bit3; apply A1.
  - rewrite A3. symmetry. apply bit3; apply A1.
Qed.
Lemma mul_land1 a b : inr 1 a -> inr 1 b -> (a * b) mod 2 ^ 1 = Z.land a b.
Proof.
  unfold inr. change (2 ^ 1) with 2. intros.
  assert (Ha : a = 0 \/ a = 1) by lia. assert (Hb : b = 0 \/ b = 1) by lia. destruct Ha, Hb; subst; reflexivity.
Qed.

(** ** Packing bits into words *)
Lemma pkf_one b : pkf 1 [b] = b.
Proof. reflexivity. Qed.
Lemma pkf_full W zs : In W widths -> length zs = Z.to_nat W -> Forall (inr 1) zs ->
  inr W (pkf W zs) /\ forall n, Z.of_nat n < W -> Z.testbit (pkf W zs) (Z.of_nat n) = Z.testbit (nth n zs 0) 0.
Proof.
  intros HW Hl Hz. destruct (Z.eq_dec W 1) as [->|Hne].
  - destruct zs as [|b [|]]; try discriminate. inversion Hz; subst. rewrite pkf_one. split; [assumption|].
    intros n Hn. assert (n = 0%nat) as -> by lia. reflexivity.
  - apply pkf_spec; [apply in_widths_pos in HW; lia| |exact Hz]. rewrite Hl. apply in_widths_pos in HW. lia.
Qed.
Lemma pack_word_full W X bs : In W widths -> length bs = Z.to_nat W -> RL (brel 1) X bs ->
  brel W (fun i => pack_word W (X i)) (pkf W bs).
Proof.
  intros HW Hl H. destruct (Z.eq_dec W 1) as [->|Hne].
  - destruct bs as [|b [|]]; try discriminate. apply RL_inv_cons in H. destruct H as (Y & X0 & HX & [_ HY] & H0).
    split; [exact HW|]. eapply brel_ext; [|exact HY]. intros i. rewrite HX, (RL_inv_nil _ _ H0 i). rewrite pack_word_eq.
    cbn [map]. rewrite !pkf_one. destruct (Y i); reflexivity.
  - apply pack_word_ok; [exact HW|apply in_widths_pos in HW; lia| |exact H]. rewrite Hl. apply in_widths_pos in HW. lia.
Qed.
Lemma pkf_land W a b : In W widths -> length a = Z.to_nat W -> length b = Z.to_nat W -> Forall (inr 1) a -> Forall (inr 1) b ->
  pkf W (map2 Z.land a b) = Z.land (pkf W a) (pkf W b).
Proof.
  intros HW La Lb Ha Hb.
  assert (Hab : Forall (inr 1) (map2 Z.land a b)).
  { clear La Lb. revert b Hb. induction Ha as [|x a Hx Ha IH]; intros [|y b] Hb; cbn; try constructor; inversion Hb; subst.
    - apply inr_land; auto; lia.
    - apply IH; assumption. }
  assert (Lab : length (map2 Z.land a b) = Z.to_nat W) by (rewrite map2_length_eq; congruence).
  assert (W0 : 0 < W) by (apply in_widths_pos in HW; lia).
  apply (inr_bits_eq W); [lia|apply pkf_full; auto|apply inr_land; [lia|apply pkf_full; auto|apply pkf_full; auto]|].
  intros n Hn. rewrite Z.land_spec. rewrite <- (Z2Nat.id n) by lia.
  rewrite !(proj2 (pkf_full W _ HW Lab Hab)), !(proj2 (pkf_full W _ HW La Ha)), !(proj2 (pkf_full W _ HW Lb Hb)) by lia.
  rewrite <- Z.land_spec. f_equal. apply (map2_nth Z.land a b _ 0 0 0); [congruence|reflexivity].
Qed.

Lemma chunks_fuel_exact {A} n m : (0 < n)%nat -> forall fuel (l : list A), length l = (n * m)%nat -> (length l <= fuel)%nat ->
  Forall (fun c => length c = n) (chunks_fuel fuel n l) /\ length (chunks_fuel fuel n l) = m.
Proof.
  intros Hn. induction m as [|m IH]; intros fuel l Hl Hf.
  - rewrite Nat.mul_0_r in Hl. destruct l; [|discriminate]. destruct fuel; split; constructor.
  - destruct fuel as [|fuel]; [lia|]. destruct l as [|x l]; [cbn in Hl; lia|]. cbn [chunks_fuel].
    destruct (IH fuel (skipn n (x :: l))) as [I1 I2]; [rewrite skipn_length; lia|rewrite skipn_length; lia|].
    split; [constructor; [rewrite firstn_length; lia|exact I1]|]. cbn [length]. congruence.
Qed.
Lemma chunks_exact {A} n m (l : list A) : (0 < n)%nat -> length l = (n * m)%nat ->
  Forall (fun c => length c = n) (chunks n l) /\ length (chunks n l) = m.
Proof. intros Hn Hl. apply chunks_fuel_exact; auto. Qed.
Lemma firstn_map2 {A B C} (f : A -> B -> C) n a b : firstn n (map2 f a b) = map2 f (firstn n a) (firstn n b).
Proof. revert a b. induction n as [|n IH]; intros [|x a] [|y b]; cbn; try reflexivity. rewrite IH. reflexivity. Qed.
Lemma skipn_map2 {A B C} (f : A -> B -> C) n a b : length a = length b -> skipn n (map2 f a b) = map2 f (skipn n a) (skipn n b).
Proof. revert a b. induction n as [|n IH]; intros [|x a] [|y b] H; cbn; try reflexivity; try discriminate. apply IH. injection H; auto. Qed.
Lemma chunks_map2 {A B C} (f : A -> B -> C) n a b : length a = length b ->
  chunks n (map2 f a b) = map2 (map2 f) (chunks n a) (chunks n b).
Proof.
  intros H. unfold chunks. rewrite map2_length_eq, <- H by exact H.
  generalize (length a) as fuel. intros fuel. revert a b H. induction fuel as [|fuel IH]; intros a b H; [reflexivity|].
  destruct a as [|x a], b as [|y b]; try discriminate; [reflexivity|]. cbn [map2 chunks_fuel].
  change (f x y :: map2 f a b) with (map2 f (x :: a) (y :: b)). rewrite firstn_map2, skipn_map2 by exact H.
  rewrite IH; [reflexivity|]. rewrite !skipn_length. congruence.
Qed.
Lemma chunks_incl {A} (P : A -> Prop) n l : Forall P l -> Forall (Forall P) (chunks n l).
Proof.
  unfold chunks. generalize (length l) as fuel. intros fuel. revert l. induction fuel as [|fuel IH]; intros l H; [constructor|].
  destruct l as [|x l]; [constructor|]. cbn [chunks_fuel].
  rewrite <- (firstn_skipn n (x :: l)) in H. apply Forall_app in H. constructor; [apply H|apply IH, H].
Qed.
Lemma vpack_land W a b m : In W widths -> length a = (Z.to_nat W * m)%nat -> length b = (Z.to_nat W * m)%nat ->
  Forall (inr 1) a -> Forall (inr 1) b -> vpack W (map2 Z.land a b) = map2 Z.land (vpack W a) (vpack W b).
Proof.
  intros HW La Lb Ha Hb. unfold vpack. rewrite chunks_map2 by congruence.
  assert (W0 : (0 < Z.to_nat W)%nat) by (apply in_widths_pos in HW; lia).
  destruct (chunks_exact _ m a W0 La) as [Fa Na]. destruct (chunks_exact _ m b W0 Lb) as [Fb Nb].
  pose proof (chunks_incl _ (Z.to_nat W) _ Ha) as Ga. pose proof (chunks_incl _ (Z.to_nat W) _ Hb) as Gb.
  revert Fa Na Ga Fb Nb Gb. generalize (chunks (Z.to_nat W) a) as ca. generalize (chunks (Z.to_nat W) b) as cb. clear La Lb.
  induction m as [|m IH]; intros cb ca Fa Na Ga Fb Nb Gb; destruct ca as [|c ca], cb as [|d cb]; try discriminate; [reflexivity|].
  inversion Fa; inversion Fb; inversion Ga; inversion Gb; subst. cbn [map2 map]. f_equal; [apply pkf_land; assumption|].
  apply IH; auto.
Qed.
Lemma vpack_length W a m : In W widths -> length a = (Z.to_nat W * m)%nat -> length (vpack W a) = m.
Proof. intros HW La. unfold vpack. rewrite map_length. apply chunks_exact; [apply in_widths_pos in HW; lia|exact La]. Qed.
Lemma pack_full_ok W X bs m : In W widths -> length bs = (Z.to_nat W * m)%nat -> RL (brel 1) X bs ->
  RL (brel W) (fun i => pack W (X i)) (vpack W bs).
Proof.
  intros HW Hl H. assert (W0 : (0 < Z.to_nat W)%nat) by (apply in_widths_pos in HW; lia).
  destruct (chunks_exact _ m bs W0 Hl) as [F _]. unfold pack, vpack.
  pose proof (RL_chunks _ (Z.to_nat W) _ _ H) as HC. revert F.
  enough (G : forall Xc css, RL (RL (brel 1)) Xc css -> Forall (fun c => length c = Z.to_nat W) css ->
    RL (brel W) (fun i => map (pack_word W) (Xc i)) (map (pkf W) css)) by (exact (G _ _ HC)).
  clear HC Hl H X bs. intros Xc css HC. induction HC as [X' HX'|X' Y X0 y ys HX HY HR IH]; intros F.
  - apply RL_nil. intros i. rewrite HX'. reflexivity.
  - inversion F; subst. cbn [map]. eapply RL_cons; [|apply (pack_word_full W Y y HW); assumption|apply IH; assumption].
    intros i. rewrite HX. reflexivity.
Qed.

(** Vectors of pairs; public vectors. *)
Lemma RL_combine {A A' B B'} (R : (pid -> A) -> B -> Prop) (R' : (pid -> A') -> B' -> Prop) X xs Y ys :
  RL R X xs -> RL R' Y ys ->
  RL (fun (W : pid -> A * A') (w : B * B') => R (fun i => fst (W i)) (fst w) /\ R' (fun i => snd (W i)) (snd w))
     (fun i => combine (X i) (Y i)) (combine xs ys).
Proof.
  intros HX. revert Y ys. induction HX as [X HX|X A0 X0 x xs HX HA HR IH]; intros Y ys HY.
  - apply RL_nil. intros i. rewrite HX. reflexivity.
  - destruct HY as [Y HY|Y B0 Y0 y ys HY HB HR'].
    + apply RL_nil. intros i. rewrite HX, HY. reflexivity.
    + cbn [combine]. eapply (RL_cons _ _ (fun i => (A0 i, B0 i))); [| |apply (IH _ _ HR')].
      * intros i. rewrite HX, HY. reflexivity.
      * cbn. auto.
Qed.
Definition public {A} (Y : pid -> A) (y : A) : Prop := forall i, Y i = y.
Lemma RL_public {A} (v : pid -> list A) ws : (forall i, v i = ws) -> RL public v ws.
Proof.
  intros Hv. apply (RL_ext _ (fun _ => ws)); [intros i; symmetry; apply Hv|]. clear Hv. induction ws as [|w ws IH]; [apply RL_nil'|].
  apply (RL_cons' _ (fun _ => w)); [intros i; reflexivity|exact IH].
Qed.

Section Mal.
  Variable G : rng.
  Variable H : hasher.
  Notation ST := (jst G).
  Notation inv := (jmp_inv G).

  Lemma gen_rand_many_ok U n (s : pid -> ST) : 0 <= U -> inv s ->
    wpM (fun _ => gen_rand_many G U n) s
      (fun s' W => inv s' /\ exists rs, length rs = n /\ RL (arith_shared U) W rs).
  Proof.
    intros HU Hs. unfold gen_rand_many.
    apply (on_prf_ok G (fun _ => mapM (fun _ : unit => gen_rand G U) (repeat tt n)) s
       (fun W => exists rs, length rs = n /\ RL (arith_shared U) W rs) Hs).
    eapply wpM_mono; [|apply (wpM_mapM prf_synced (fun (_ : pid -> unit) (_ : unit) => True)
       (fun Y (_ : unit) => exists r, arith_shared U Y r /\ True) (fun _ _ => gen_rand G U) (fun _ => tt)) with
       (X := fun _ => repeat tt n) (ys := repeat tt n)].
    - intros s' W [Hs' HW]. split; [exact Hs'|]. destruct (RL_exists _ (fun _ _ => True) _ _ HW) as (zs & Hz & HF).
      exists zs. split; [|exact Hz]. rewrite (Forall2_len _ _ _ HF), map_length, repeat_length. reflexivity.
    - intros s0 Y y Hs0 _. eapply wpM_mono; [|apply gen_rand_ok; [exact HU|exact Hs0]].
      intros s' W (Hs' & r & Hr). split; [exact Hs'|]. exists r. auto.
    - apply Hs.
    - apply (RL_repeat (fun _ _ => True) (fun _ => tt) tt). exact Logic.I.
  Qed.
  Lemma gen_rand_mal_ok U (s : pid -> ST) : 0 <= U -> inv s ->
    wpM (fun _ => on_prf G (gen_rand G U)) s (fun s' W => inv s' /\ exists r, arith_shared U W r).
  Proof.
    intros HU Hs. apply (on_prf_ok G (fun _ => gen_rand G U) s (fun W => exists r, arith_shared U W r) Hs).
    apply gen_rand_ok; [exact HU|apply Hs].
  Qed.

  Lemma reshare_vec_ok U L zs (s : pid -> ST) : In U widths -> RL (asum U) L zs ->
    wpM (fun i => bindM (liftM (send_slice_and_receive_vec i U (L i))) (fun bs => retM (map2 Share (L i) bs))) s
      (fun s' W => s' = s /\ RL (arith_shared U) W zs).
  Proof.
    intros HU HL. wbind. apply wpM_lift. apply (wp_sar_vec U L (length zs)); auto.
    { exact (RL_asum_Forall _ _ _ HL). } { exact (RL_length _ _ _ HL). }
    apply wpM_ret. split; [reflexivity|]. apply RL_rep_a, HL.
  Qed.
  Lemma aby_mul_many_ok U X xs Y ys (s : pid -> ST) : In U widths -> inv s ->
    RL (arith_shared U) X xs -> RL (arith_shared U) Y ys ->
    wpM (fun i => aby_mul_many G i U (X i) (Y i)) s
      (fun s' W => inv s' /\ RL (arith_shared U) W (map2 (fun x y => (x * y) mod 2 ^ U) xs ys)).
  Proof.
    intros HU Hs HX HY. assert (HU0 : 0 <= U) by (apply in_widths_pos in HU; lia). unfold aby_mul_many. wbind.
    eapply wpM_mono; [|apply (on_prf_ok G _ s (fun L => RL (asum U) L (map2 (fun x y => (x * y) mod 2 ^ U) xs ys)) Hs);
      apply (wpM_mapM2 prf_synced (arith_shared U) (arith_shared U) (asum U)
        (fun i x y => bindM (gen_zero_share G U) (fun r => retM (radd U (local_mul U x y) r))) (fun x y => (x * y) mod 2 ^ U));
      [|apply Hs|exact HX|exact HY]].
    - intros s1 L [Hs1 HL]. eapply wpM_mono; [|apply reshare_vec_ok; eassumption].
      cbn beta. intros s2 W [-> HW]. split; assumption.
    - intros s0 A a B b Hs0 HA HB. wbind. eapply wpM_mono; [|apply gen_zero_share_ok; eassumption].
      intros s' W [Hs' HW]. apply wpM_ret. split; [exact Hs'|].
      replace ((a * b) mod 2 ^ U) with (((a * b) mod 2 ^ U + 0) mod 2 ^ U) by (rewrite Z.add_0_r; apply Zmod_mod).
      apply (asum_add U _ _ _ _ HU0 (local_mul_ok U _ _ _ _ HU0 HA HB) HW).
  Qed.
  Lemma aby_dot_many_ok U X xs Y ys (s : pid -> ST) : In U widths -> inv s ->
    RL (RL (arith_shared U)) X xs -> RL (RL (arith_shared U)) Y ys -> Forall2 (fun x y => length x = length y) xs ys ->
    wpM (fun i => aby_dot_many G i U (X i) (Y i)) s
      (fun s' W => inv s' /\ RL (arith_shared U) W (map2 (fun x y => dotp x y mod 2 ^ U) xs ys)).
  Proof.
    intros HU Hs HX HY HF. assert (HU0 : 0 <= U) by (apply in_widths_pos in HU; lia). unfold aby_dot_many.
    apply (wpM_ext (fun i => bindM (on_prf G (mapM2 (dot_row G U) (X i) (Y i)))
       (fun l => bindM (liftM (send_slice_and_receive_vec i U l)) (fun bs => retM (map2 Share l bs))))).
    { intros i. rewrite (RL_length _ _ _ HX), (RL_length _ _ _ HY), (Forall2_len _ _ _ HF), Nat.eqb_refl. reflexivity. }
    wbind. eapply wpM_mono; [|apply (on_prf_ok G _ s (fun L => RL (asum U) L (map2 (fun x y => dotp x y mod 2 ^ U) xs ys)) Hs);
      apply (dot_rows_ok G U X xs Y ys _ HU0); [apply Hs|assumption..]].
    intros s1 L [Hs1 HL]. eapply wpM_mono; [|apply reshare_vec_ok; eassumption].
    cbn beta. intros s2 W [-> HW]. split; assumption.
  Qed.

  Lemma verif_in K : In K widths -> In (verif_width K) widths.
  Proof. intros HK. unfold verif_width. destruct (K <=? 32); cbn; tauto. Qed.

  (** *** A multiplication triple *)
  Lemma get_mul_triple_ok K (s : pid -> ST) : In K widths -> 40 <= verif_width K - K -> inv s ->
    wpM (fun i => get_mul_triple G H i K) s (fun s' T => inv s' /\ exists a b,
      arith_shared K (fun i => fst (fst (T i))) a /\ arith_shared K (fun i => snd (fst (T i))) b /\
      arith_shared K (fun i => snd (T i)) ((a * b) mod 2 ^ K)).
  Proof.
    intros HK HU Hs. pose proof (verif_in K HK) as HU1. pose proof (in_widths_pos K HK) as K0. unfold get_mul_triple, mul_triple_check, triple_check.
    set (U := verif_width K) in *. clearbody U. assert (HU0 : 0 <= U) by lia.
    replace (40 <=? U - K) with true by lia. cbn [negb].
    wbind. eapply wpM_mono; [|apply gen_rand_mal_ok; [exact HU0|exact Hs]]. intros s1 A (Hs1 & a & HA).
    wbind. eapply wpM_mono; [|apply gen_rand_mal_ok; [exact HU0|exact Hs1]]. intros s2 A' (Hs2 & a' & HA').
    wbind. eapply wpM_mono; [|apply gen_rand_mal_ok; [exact HU0|exact Hs2]]. intros s3 B (Hs3 & b & HB).
    wbind. eapply wpM_mono; [|apply (aby_mul_many_ok U (fun i => [A i; A' i]) [a; a'] (fun i => [B i; B i]) [b; b] s3 HU1 Hs3);
      repeat (apply RL_cons'; [assumption|]); apply RL_nil'].
    intros s4 C [Hs4 HC]. cbn [map2] in HC.
    apply RL_inv_cons in HC. destruct HC as (C0 & CX & EC & HC0 & HC).
    apply RL_inv_cons in HC. destruct HC as (C1 & CY & EC' & HC1 & HC).
    wbind. eapply wpM_mono; [|apply coin_ok; exact Hs4]. intros s5 sd (Hs5 & d & _ & Hd).
    set (seed := xor3 (d P0) (d P1) (d P2)) in *. clearbody seed.
    wbind. eapply wpM_mono; [|apply (reconstruct_ok G U (fun i => sh_sub U (sh_mulc U (A i) (challenge G U (sd i))) (A' i))
       (((a * challenge G U seed) mod 2 ^ U - a') mod 2 ^ U)); [exact HU1| |exact Hs5]].
    2:{ apply (sh_sub_ok U HU0); [|exact HA']. eapply arel_ext; [|apply (sh_mulc_ok U HU0 _ _ (challenge G U seed) HA)].
        intros i. cbn beta. rewrite Hd. reflexivity. }
    intros s6 v [Hs6 Hv]. wbind. eapply wpM_mono; [|apply (jmp_verify_ok G H); exact Hs6]. intros s7 _ [Hs7 _].
    wbind. apply (wpM_res _ C0). { intros i. unfold index. rewrite EC. reflexivity. }
    wbind. apply (wpM_res _ C1). { intros i. unfold index. rewrite EC, EC'. reflexivity. }
    wbind. set (r := challenge G U seed) in *.
    eapply wpM_mono; [|apply (zero_verify_ok G H U _ [((((b * (((a * r) mod 2 ^ U - a') mod 2 ^ U)) mod 2 ^ U - (((a * b) mod 2 ^ U) * r) mod 2 ^ U) mod 2 ^ U) + (a' * b) mod 2 ^ U) mod 2 ^ U] s7 HU0); [| |exact Hs7]].
    - intros s8 ? Hs8. apply wpM_ret. cbn [fst snd]. split; [exact Hs8|]. exists (a mod 2 ^ K), (b mod 2 ^ K).
      split; [apply (sh_trunc_ok K U); [lia|exact HA]|]. split; [apply (sh_trunc_ok K U); [lia|exact HB]|].
      rewrite <- Zmult_mod. rewrite <- (mod_mod_pow _ K U) by lia. apply (sh_trunc_ok K U); [lia|exact HC0].
    - apply RL_cons'; [|apply RL_nil'].
      apply (sh_add_ok U HU0); [|exact HC1]. apply (sh_sub_ok U HU0).
      + eapply arel_ext; [|apply (sh_mulc_ok U HU0 B b); exact HB]. intros i. cbn beta. rewrite Hv. reflexivity.
      + eapply arel_ext; [|apply (sh_mulc_ok U HU0 C0 _ r HC0)]. intros i. cbn beta. rewrite Hd. reflexivity.
    - constructor; [|constructor]. rewrite <- (Zmod_0_l (2 ^ U)). modring.
  Qed.

  (** *** Many triples at once *)
  Lemma RL_firstn_app {A B} (R : (pid -> A) -> B -> Prop) X xs ys : RL R X (xs ++ ys) ->
    RL R (fun i => firstn (length xs) (X i)) xs /\ RL R (fun i => skipn (length xs) (X i)) ys.
  Proof.
    intros HX. split.
    - pose proof (RL_firstn R X _ (length xs) HX) as E. rewrite firstn_length_app in E. exact E.
    - pose proof (RL_skipn R X _ (length xs) HX) as E. rewrite skipn_length_app in E. exact E.
  Qed.

  Lemma get_mul_triple_many_ok K len (s : pid -> ST) : In K widths -> 40 <= verif_width K - K -> inv s ->
    wpM (fun i => get_mul_triple_many G H i K len) s (fun s' T => inv s' /\ exists a b,
      length a = len /\ length b = len /\
      RL (arith_shared K) (fun i => fst (fst (T i))) a /\ RL (arith_shared K) (fun i => snd (fst (T i))) b /\
      RL (arith_shared K) (fun i => snd (T i)) (map2 (fun x y => (x * y) mod 2 ^ K) a b)).
  Proof.
    intros HK HU Hs. pose proof (verif_in K HK) as HU1. pose proof (in_widths_pos K HK) as K0. unfold get_mul_triple_many, mul_triple_check_many, triple_check.
    set (U := verif_width K) in *. clearbody U. assert (HU0 : 0 <= U) by lia.
    replace (40 <=? U - K) with true by lia. cbn [negb].
    wbind. eapply wpM_mono; [|apply gen_rand_many_ok; [exact HU0|exact Hs]]. intros s1 A (Hs1 & a & La & HA).
    wbind. eapply wpM_mono; [|apply gen_rand_many_ok; [exact HU0|exact Hs1]]. intros s2 B (Hs2 & b & Lb & HB).
    wbind. eapply wpM_mono; [|apply gen_rand_many_ok; [exact HU0|exact Hs2]]. intros s3 A' (Hs3 & a' & La' & HA').
    wbind. eapply wpM_mono; [|apply (aby_mul_many_ok U (fun i => A i ++ A' i) (a ++ a') (fun i => B i ++ B i) (b ++ b) s3 HU1 Hs3);
      apply RL_app; assumption].
    intros s4 C [Hs4 HC]. rewrite map2_app in HC by congruence.
    pose proof (RL_firstn_app _ _ _ _ HC) as [HC0 HC1].
    rewrite map2_length_eq, La in HC0, HC1 by congruence.
    wbind. eapply wpM_mono; [|apply coin_ok; exact Hs4]. intros s5 sd (Hs5 & d & _ & Hd).
    set (seed := xor3 (d P0) (d P1) (d P2)) in *. clearbody seed. set (r := challenge G U seed).
    wbind. eapply wpM_mono; [|apply (reconstruct_many_ok G U (fun i => map2 (fun x y => sh_sub U (sh_mulc U x (challenge G U (sd i))) y) (A i) (A' i))
       (map2 (fun a a' => ((a * r) mod 2 ^ U - a') mod 2 ^ U) a a')); [exact HU1| |exact Hs5]].
    2:{ apply (RL_map2 (arith_shared U) (arith_shared U) (arith_shared U) (fun i x y => sh_sub U (sh_mulc U x (challenge G U (sd i))) y)); auto.
        intros Y y Y' y' HY HY'. apply (sh_sub_ok U HU0); [|exact HY']. eapply arel_ext; [|apply (sh_mulc_ok U HU0 _ _ r HY)].
        intros i. cbn beta. rewrite Hd. reflexivity. }
    intros s6 v [Hs6 Hv]. wbind. eapply wpM_mono; [|apply (jmp_verify_ok G H); exact Hs6]. intros s7 _ [Hs7 _].
    set (vv := map2 (fun a a' => ((a * r) mod 2 ^ U - a') mod 2 ^ U) a a') in *.
    set (cc0 := map2 (fun x y => (x * y) mod 2 ^ U) a b) in *. set (cc1 := map2 (fun x y => (x * y) mod 2 ^ U) a' b) in *.
    wbind.
    eapply wpM_mono; [|apply (zero_verify_ok G H U _
       (map2 (fun bv cc => (((fst bv * snd bv) mod 2 ^ U - (fst cc * r) mod 2 ^ U) mod 2 ^ U + snd cc) mod 2 ^ U) (combine b vv) (combine cc0 cc1)) s7 HU0); [| |exact Hs7]].
    - intros s8 ? Hs8. apply wpM_ret. cbn [fst snd]. split; [exact Hs8|].
      exists (map (fun x => x mod 2 ^ K) a), (map (fun x => x mod 2 ^ K) b). rewrite !map_length.
      split; [exact La|]. split; [exact Lb|].
      split; [apply (RL_trunc_ok K U); [lia|exact HA]|]. split; [apply (RL_trunc_ok K U); [lia|exact HB]|].
      replace (map2 (fun x y => (x * y) mod 2 ^ K) (map (fun x => x mod 2 ^ K) a) (map (fun x => x mod 2 ^ K) b))
        with (map (fun x => x mod 2 ^ K) cc0).
      { apply (RL_trunc_ok K U); [lia|exact HC0]. }
      unfold cc0. clear -K0 HU. revert b. induction a as [|x a IH]; intros [|y b]; cbn; try reflexivity.
      rewrite IH, mod_mod_pow, <- Zmult_mod by lia. reflexivity.
    - pose proof (RL_combine _ _ _ _ _ _ HB (RL_public _ _ Hv)) as HP.
      pose proof (RL_combine _ _ _ _ _ _ HC0 HC1) as HQ.
      apply (RL_map2 _ _ (arith_shared U) (fun i bv cc => sh_add U (sh_sub U (sh_mulc U (fst bv) (snd bv)) (sh_mulc U (fst cc) (challenge G U (sd i)))) (snd cc)))
        with (3 := HQ) (2 := HP).
      intros Y y Y' y' [HY1 HY2] [HY1' HY2']. apply (sh_add_ok U HU0); [|exact HY2']. apply (sh_sub_ok U HU0).
      + eapply arel_ext; [|apply (sh_mulc_ok U HU0 _ _ (snd y) HY1)]. intros i. cbn beta. rewrite HY2. reflexivity.
      + eapply arel_ext; [|apply (sh_mulc_ok U HU0 _ _ r HY1')]. intros i. cbn beta. rewrite Hd. reflexivity.
    - unfold vv, cc0, cc1. clear -La Lb La'. revert a a' b La La' Lb. induction len as [|len IH]; intros [|x a] [|x' a'] [|y b] L1 L2 L3; try discriminate; [constructor|].
      cbn [map2 combine]. constructor; [|apply IH; injection L1; injection L2; injection L3; auto].
      cbn [fst snd]. rewrite <- (Zmod_0_l (2 ^ U)). modring.
  Qed.

  (** *** Inner products with sacrifice *)
  Definition sac_open (U r : Z) (a a' : list Z) : list Z := map2 (fun a a' => ((a * r) mod 2 ^ U - a') mod 2 ^ U) a a'.
  Lemma sac_fold_ok U B bs v vs W w : 0 <= U -> RL (arith_shared U) B bs -> (forall i, v i = vs) -> arith_shared U W w ->
    arith_shared U (fun i => fold_left (fun w vb => sh_add U w (sh_mulc U (snd vb) (fst vb))) (combine (v i) (B i)) (W i))
      ((w + dotp vs bs) mod 2 ^ U).
  Proof.
    intros HU HB Hv HW. revert v vs Hv W w HW. induction HB as [B HB|B Y B0 y ys HB HY HR IH]; intros v vs Hv W w HW.
    - unfold dotp. rewrite map2_nil_r. cbn [fold_right]. rewrite Z.add_0_r, Z.mod_small by apply (arel_range U W w HU HW).
      eapply arel_ext; [|exact HW]. intros i. rewrite HB, combine_nil. reflexivity.
    - destruct vs as [|x vs].
      + unfold dotp. cbn [map2 fold_right]. rewrite Z.add_0_r, Z.mod_small by apply (arel_range U W w HU HW).
        eapply arel_ext; [|exact HW]. intros i. rewrite Hv. reflexivity.
      + unfold dotp. cbn [map2 fold_right]. fold (dotp vs ys).
        replace ((w + (x * y + dotp vs ys)) mod 2 ^ U) with (((w + (y * x) mod 2 ^ U) mod 2 ^ U + dotp vs ys) mod 2 ^ U) by modring.
        eapply arel_ext; [|apply (IH (fun _ => vs) vs (fun _ => eq_refl) (fun i => sh_add U (W i) (sh_mulc U (Y i) x)))].
        * intros i. rewrite Hv, HB. reflexivity.
        * apply (sh_add_ok U HU); [exact HW|]. apply (sh_mulc_ok U HU), HY.
  Qed.
  Lemma sac_dotp U r a a' b : length a = length b -> length a' = length b -> 
    dotp (sac_open U r a a') b mod 2 ^ U = (r * dotp a b - dotp a' b) mod 2 ^ U.
  Proof.
    unfold dotp, sac_open. revert a a'. induction b as [|y b IH]; intros [|x a] [|x' a'] L1 L2; try discriminate.
    - f_equal. cbn. lia.
    - cbn [map2 fold_right]. specialize (IH a a' ltac:(injection L1; auto) ltac:(injection L2; auto)).
      rewrite Zplus_mod, IH. modring.
  Qed.
  Lemma sac_zero U r a a' b c0 c1 : length a = length b -> length a' = length b ->
    c0 = dotp a b mod 2 ^ U -> c1 = dotp a' b mod 2 ^ U ->
    ((((- c0) mod 2 ^ U * r) mod 2 ^ U + c1) mod 2 ^ U + dotp (sac_open U r a a') b) mod 2 ^ U = 0.
  Proof.
    intros L1 L2 -> ->. rewrite Zplus_mod, (sac_dotp U r a a' b L1 L2). rewrite <- (Zmod_0_l (2 ^ U)). modring.
  Qed.
  Lemma dotp_mod K U x y : 0 <= K <= U ->
    (dotp x y mod 2 ^ U) mod 2 ^ K = dotp (map (fun x => x mod 2 ^ K) x) (map (fun x => x mod 2 ^ K) y) mod 2 ^ K.
  Proof.
    intros HK. rewrite mod_mod_pow by exact HK. unfold dotp. revert y. induction x as [|a x IH]; intros [|b y]; try reflexivity.
    cbn [map map2 fold_right]. rewrite Zplus_mod, IH. modring.
  Qed.

  Lemma dot_sacrifice_ok K X xs Y ys (s : pid -> ST) : In K widths -> 40 <= verif_width K - K -> inv s ->
    RL (arith_shared K) X xs -> RL (arith_shared K) Y ys -> length xs = length ys ->
    wpM (fun i => dot_sacrifice G H i K (X i) (Y i)) s
      (fun s' W => inv s' /\ arith_shared K W (dotp xs ys mod 2 ^ K)).
  Proof.
    intros HK HU Hs HX HY Hl. pose proof (verif_in K HK) as HU1. pose proof (in_widths_pos K HK) as K0. unfold dot_sacrifice, dot_sacrifice_check, dot_check.
    set (U := verif_width K) in *. clearbody U. assert (HU0 : 0 <= U) by lia.
    replace (40 <=? U - K) with true by lia. cbn [negb].
    destruct (RL_ext_ok K U X xs ltac:(lia) HX) as (a & HA & Ea). destruct (RL_ext_ok K U Y ys ltac:(lia) HY) as (b & HB & Eb).
    assert (Lab : length a = length b) by (rewrite <- (map_length (fun x => x mod 2 ^ K) a), Ea, Hl, <- Eb, map_length; reflexivity).
    wbind. eapply wpM_mono; [|apply (wpM_ext (fun i => gen_rand_many G U (length a)));
      [intros i; rewrite (RL_length _ _ _ HA); reflexivity|apply gen_rand_many_ok; [exact HU0|exact Hs]]].
    intros s1 A' (Hs1 & a' & La' & HA'). cbn beta zeta.
    wbind. eapply wpM_mono; [|apply (aby_dot_many_ok U (fun i => [map sh_ext (X i); A' i]) [a; a'] (fun i => [map sh_ext (Y i); map sh_ext (Y i)]) [b; b] s1 HU1 Hs1);
      [repeat (apply RL_cons'; [assumption|]); apply RL_nil'..|repeat constructor; congruence]].
    intros s4 C [Hs4 HC]. cbn [map2] in HC.
    apply RL_inv_cons in HC. destruct HC as (C0 & CX & EC & HC0 & HC).
    apply RL_inv_cons in HC. destruct HC as (C1 & CY & EC' & HC1 & HC).
    wbind. eapply wpM_mono; [|apply coin_ok; exact Hs4]. intros s5 sd (Hs5 & d & _ & Hd).
    set (seed := xor3 (d P0) (d P1) (d P2)) in *. clearbody seed. set (r := challenge G U seed).
    wbind. eapply wpM_mono; [|apply (reconstruct_many_ok G U (fun i => map2 (fun x y => sh_sub U (sh_mulc U x (challenge G U (sd i))) y) (map sh_ext (X i)) (A' i))
       (sac_open U r a a')); [exact HU1| |exact Hs5]].
    2:{ apply (RL_map2 (arith_shared U) (arith_shared U) (arith_shared U) (fun i x y => sh_sub U (sh_mulc U x (challenge G U (sd i))) y)); auto.
        intros V y V' y' HV HV'. apply (sh_sub_ok U HU0); [|exact HV']. eapply arel_ext; [|apply (sh_mulc_ok U HU0 _ _ r HV)].
        intros i. cbn beta. rewrite Hd. reflexivity. }
    intros s6 v [Hs6 Hv]. wbind. eapply wpM_mono; [|apply (jmp_verify_ok G H); exact Hs6]. intros s7 ? [Hs7 _].
    wbind. apply (wpM_res _ C0). { intros i. unfold index. rewrite EC. reflexivity. }
    wbind. apply (wpM_res _ C1). { intros i. unfold index. rewrite EC, EC'. reflexivity. }
    wbind. eapply wpM_mono; [|apply (zero_verify_ok G H U _ [0] s7 HU0); [|repeat constructor|exact Hs7]].
    - intros s8 ? Hs8. apply wpM_ret. split; [exact Hs8|]. rewrite <- Ea, <- Eb, <- (dotp_mod K U) by lia.
      apply (sh_trunc_ok K U); [lia|exact HC0].
    - apply RL_cons'; [|apply RL_nil'].
      rewrite <- (sac_zero U r a a' b _ _ Lab ltac:(congruence) eq_refl eq_refl).
      apply (sac_fold_ok U _ _ _ _ _ _ HU0 HB Hv).
      apply (sh_add_ok U HU0); [|exact HC1].
      eapply arel_ext; [|apply (sh_mulc_ok U HU0 _ _ r (sh_neg_ok U HU0 _ _ HC0))]. intros i. cbn beta. rewrite Hd. reflexivity.
  Qed.

  Lemma sacrifice_rows_ok U B bs r : 0 <= U -> RL (RL (arith_shared U)) B bs ->
    forall rr CC cs a a' v, (forall i, rr i = r) ->
    Forall2 (fun x y => length x = length y) a bs -> Forall2 (fun x y => length x = length y) a' bs ->
    RL (fun (W : pid -> share * share) (w : Z * Z) => arith_shared U (fun i => fst (W i)) (fst w) /\ arith_shared U (fun i => snd (W i)) (snd w)) CC cs ->
    cs = combine (map2 (fun x y => dotp x y mod 2 ^ U) a bs) (map2 (fun x y => dotp x y mod 2 ^ U) a' bs) ->
    (forall i, v i = concat (map2 (sac_open U r) a a')) ->
    RL (arith_shared U) (fun i => sacrifice_rows U (rr i) (B i) (CC i) (v i)) (repeat 0 (length bs)).
  Proof.
    intros HU HB. induction HB as [B HB|B Y B0 y ys HB HY HR IH]; intros rr CC cs a a' v Er Fa Fa' HC Ec Hv.
    - apply RL_nil. intros i. rewrite HB. reflexivity.
    - inversion Fa as [|x ? xs ? Lx Fxs]; subst. inversion Fa' as [|x' ? xs' ? Lx' Fxs']; subst. cbn [map2 combine] in HC.
      apply RL_inv_cons in HC. destruct HC as (C & CC0 & EC & [HC0 HC1] & HCC). cbn [fst snd] in HC0, HC1. cbn [map2 concat] in Hv.
      assert (Lo : length (sac_open U r x x') = length y) by (unfold sac_open; rewrite map2_length_eq; congruence).
      cbn [length repeat]. eapply (RL_cons _ _ _ (fun i => sacrifice_rows U (rr i) (B0 i) (CC0 i) (concat (map2 (sac_open U r) xs xs'))));
        [| |apply (IH rr CC0 _ xs xs' (fun _ => concat (map2 (sac_open U r) xs xs')) Er Fxs Fxs' HCC eq_refl); reflexivity].
      + intros i. rewrite HB, EC, Hv. cbn [sacrifice_rows]. unfold dot_check. destruct (C i) as [c0 c1] eqn:Ei.
        rewrite (RL_length _ _ _ HY), <- Lo, firstn_length_app, skipn_length_app.
        instantiate (1 := fun i => fold_left (fun w vb => sh_add U w (sh_mulc U (snd vb) (fst vb))) (combine (sac_open U r x x') (Y i))
             (sh_add U (sh_mulc U (sh_neg U (fst (C i))) (rr i)) (snd (C i)))).
        cbn beta. rewrite Ei. reflexivity.
      + rewrite <- (sac_zero U r x x' y _ _ Lx Lx' eq_refl eq_refl).
        apply (sac_fold_ok U _ _ _ _ _ _ HU HY (fun _ => eq_refl)).
        apply (sh_add_ok U HU); [|exact HC1].
        eapply arel_ext; [|apply (sh_mulc_ok U HU _ _ r (sh_neg_ok U HU _ _ HC0))]. intros i. cbn beta. rewrite Er. reflexivity.
  Qed.

  Lemma RL_RL_ext_ok K U X xs : 0 <= K <= U -> RL (RL (arith_shared K)) X xs ->
    exists xs', RL (RL (arith_shared U)) (fun i => map (map sh_ext) (X i)) xs' /\ map (map (fun x => x mod 2 ^ K)) xs' = xs.
  Proof.
    intros HK HX. induction HX as [X HX|X Y X0 y ys HX HY HR (xs' & I1 & I2)].
    - exists []. split; [apply RL_nil; intros i; rewrite HX; reflexivity|reflexivity].
    - destruct (RL_ext_ok K U Y y HK HY) as (y' & Hy & E). exists (y' :: xs'). split.
      + eapply RL_cons; [|exact Hy|exact I1]. intros i. rewrite HX. reflexivity.
      + cbn [map]. rewrite E, I2. reflexivity.
  Qed.

  Lemma rand_rows_ok U B bs (s : pid -> ST) : 0 <= U -> inv s -> RL (RL (arith_shared U)) B bs ->
    wpM (fun i => mapM (fun b => gen_rand_many G U (length b)) (B i)) s
      (fun s' W => inv s' /\ exists rs, Forall2 (fun x y => length x = length y) rs bs /\ RL (RL (arith_shared U)) W rs).
  Proof.
    intros HU Hs HB.
    eapply wpM_mono; [|apply (wpM_mapM inv (RL (arith_shared U)) (fun W y => exists z, RL (arith_shared U) W z /\ length z = length (A := Z) y)
      (fun i b => gen_rand_many G U (length b)) (fun x => x)) with (X := B) (ys := bs); [|exact Hs|exact HB]].
    - intros s' W [Hs' HW]. split; [exact Hs'|]. rewrite map_id in HW. destruct (RL_exists _ _ _ _ HW) as (zs & Hz & HF).
      exists zs. split; assumption.
    - intros s0 Y y Hs0 HY. apply (wpM_ext (fun i => gen_rand_many G U (length y))).
      { intros i. rewrite (RL_length _ _ _ HY). reflexivity. }
      eapply wpM_mono; [|apply gen_rand_many_ok; [exact HU|exact Hs0]]. intros s' W (Hs' & rs & L & HW). split; [exact Hs'|].
      exists rs. auto.
  Qed.

  Lemma Forall2_app' {A B} (R : A -> B -> Prop) a b c d : Forall2 R a b -> Forall2 R c d -> Forall2 R (a ++ c) (b ++ d).
  Proof. apply Forall2_app. Qed.

  Lemma dot_sacrifice_many_ok K X xs Y ys (s : pid -> ST) : In K widths -> 40 <= verif_width K - K -> inv s ->
    RL (RL (arith_shared K)) X xs -> RL (RL (arith_shared K)) Y ys -> Forall2 (fun x y => length x = length y) xs ys ->
    wpM (fun i => dot_sacrifice_many G H i K (X i) (Y i)) s
      (fun s' W => inv s' /\ RL (arith_shared K) W (map2 (fun x y => dotp x y mod 2 ^ K) xs ys)).
  Proof.
    intros HK HU Hs HX HY Hl. pose proof (verif_in K HK) as HU1. pose proof (in_widths_pos K HK) as K0. unfold dot_sacrifice_many, dot_sacrifice_check_many.
    set (U := verif_width K) in *. clearbody U. assert (HU0 : 0 <= U) by lia.
    replace (40 <=? U - K) with true by lia. cbn [negb].
    destruct (RL_RL_ext_ok K U X xs ltac:(lia) HX) as (a & HA & Ea). destruct (RL_RL_ext_ok K U Y ys ltac:(lia) HY) as (b & HB & Eb).
    assert (Lab : Forall2 (fun x y => length x = length y) a b).
    { clear -Hl Ea Eb. subst xs ys. revert b Hl. induction a as [|x a IH]; intros [|y b] Hl; cbn in Hl; inversion Hl; subst; constructor.
      - rewrite !map_length in *. assumption.
      - apply IH. assumption. }
    wbind. eapply wpM_mono; [|apply (rand_rows_ok U _ b s HU0 Hs HB)].
    intros s1 A' (Hs1 & a' & La' & HA'). cbn beta zeta.
    wbind. eapply wpM_mono; [|apply (aby_dot_many_ok U _ (a ++ a') _ (b ++ b) s1 HU1 Hs1 (RL_app _ _ _ _ _ HA HA') (RL_app _ _ _ _ _ HB HB));
      apply Forall2_app; assumption].
    intros s4 C [Hs4 HC]. rewrite map2_app in HC by apply (Forall2_len _ _ _ Lab).
    pose proof (RL_firstn_app _ _ _ _ HC) as [HC0 HC1].
    assert (Ll : forall i, length (X i) = length (map2 (fun x y => dotp x y mod 2 ^ U) a b)).
    { intros i. rewrite (RL_length _ _ _ HX), map2_length_eq by apply (Forall2_len _ _ _ Lab). rewrite <- Ea, map_length. reflexivity. }
    wbind. eapply wpM_mono; [|apply coin_ok; exact Hs4]. intros s5 sd (Hs5 & d & _ & Hd).
    set (seed := xor3 (d P0) (d P1) (d P2)) in *. clearbody seed. set (r := challenge G U seed).
    wbind. eapply wpM_mono; [|apply (reconstruct_many_ok G U (fun i => concat (map2 (map2 (fun x y => sh_sub U (sh_mulc U x (challenge G U (sd i))) y)) (map (map sh_ext) (X i)) (A' i)))
       (concat (map2 (sac_open U r) a a'))); [exact HU1| |exact Hs5]].
    2:{ apply RL_concat. apply (RL_map2 (RL (arith_shared U)) (RL (arith_shared U)) (RL (arith_shared U)) (fun i => map2 (fun x y => sh_sub U (sh_mulc U x (challenge G U (sd i))) y))); auto.
        intros P p P' p' HP HP'. unfold sac_open.
        apply (RL_map2 (arith_shared U) (arith_shared U) (arith_shared U) (fun i x y => sh_sub U (sh_mulc U x (challenge G U (sd i))) y)); auto.
        intros V y V' y' HV HV'. apply (sh_sub_ok U HU0); [|exact HV']. eapply arel_ext; [|apply (sh_mulc_ok U HU0 _ _ r HV)].
        intros i. cbn beta. rewrite Hd. reflexivity. }
    intros s6 v [Hs6 Hv]. wbind. eapply wpM_mono; [|apply (jmp_verify_ok G H); exact Hs6]. intros s7 ? [Hs7 _].
    wbind. eapply wpM_mono; [|apply (zero_verify_ok G H U _ (repeat 0 (length b)) s7 HU0); [| |exact Hs7]].
    - intros s8 ? Hs8. apply wpM_ret. split; [exact Hs8|].
      apply (RL_ext _ (fun i => map (sh_trunc K) (firstn (length (map2 (fun x y => dotp x y mod 2 ^ U) a b)) (C i)))).
      { intros i. rewrite Ll. reflexivity. }
      replace (map2 (fun x y => dotp x y mod 2 ^ K) xs ys) with (map (fun x => x mod 2 ^ K) (map2 (fun x y => dotp x y mod 2 ^ U) a b)).
      { apply (RL_trunc_ok K U); [lia|exact HC0]. }
      rewrite <- Ea, <- Eb. clear -HU K0. revert b. induction a as [|x a IH]; intros [|y b]; cbn; try reflexivity. rewrite IH, (dotp_mod K U) by lia. reflexivity.
    - apply (RL_ext _ (fun i => sacrifice_rows U (challenge G U (sd i)) (map (map sh_ext) (Y i))
         (combine (firstn (length (map2 (fun x y => dotp x y mod 2 ^ U) a b)) (C i)) (skipn (length (map2 (fun x y => dotp x y mod 2 ^ U) a b)) (C i))) (v i))).
      { intros i. rewrite Ll. reflexivity. }
      apply (sacrifice_rows_ok U _ b r HU0 HB (fun i => challenge G U (sd i)) (fun i => combine _ _) _ a a' v) with (4 := RL_combine _ _ _ _ _ _ HC0 HC1); auto.
      intros i. rewrite Hd. reflexivity.
    - apply Forall_forall. intros x Hx. apply repeat_spec in Hx. exact Hx.
  Qed.
End Mal.
