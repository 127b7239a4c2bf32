(** Honest runs of the SPDZ-wise engine, part 1: pools of AND triples, shuffling, triple generation
    and verification. *)
From Coq Require Import Permutation.
From Verif Require Import Base Ring RingProofs Prog Sched Conc Rng Rel Net BinTrait BitArith BinProofs AddProofs Iris IrisSpec IrisProofs
  Protocol MpcSpec Plain Aby3 ShareSpec Aby3Proofs Aby3Proofs2 SlicedProofs OrProofs EngineProofs Client Jmp JmpProofs Aby3Mal Aby3MalProofs Aby3MalProofs2
  Spdz TripleSpec TripleProofs.
From Coq Require Import ZifyBool ZifyNat.

(** ** Concatenation commutes with bitwise operations *)
Definition bitop (f : Z -> Z -> Z) (b : bool -> bool -> bool) : Prop :=
  b false false = false /\ (forall x y n, Z.testbit (f x y) n = b (Z.testbit x n) (Z.testbit y n)) /\ (forall K x y, 0 <= K -> inr K x -> inr K y -> inr K (f x y)).
Lemma bitop_lxor : bitop Z.lxor xorb.
Proof. split; [reflexivity|]. split; [apply Z.lxor_spec|intros; apply inr_lxor; assumption]. Qed.
Lemma bitop_land : bitop Z.land andb.
Proof. split; [reflexivity|]. split; [apply Z.land_spec|intros; apply inr_land; assumption]. Qed.

Section Bitop.
  Variables (f : Z -> Z -> Z) (b : bool -> bool -> bool).
  Hypothesis F : bitop f b.
  Lemma cat_op g K w w' x x' : 0 < g -> 0 < K -> g + K <= 128 -> inr g w -> inr g w' -> inr K x -> inr K x' ->
    cat K (f w w') (f x x') = f (cat K w x) (cat K w' x').
  Proof using F.
    destruct F as (F0 & F1 & F2). intros Hg HK Hs W W' X X'. apply Z.bits_inj'. intros n Hn.
    rewrite F1, !(cat_bit g) by (try apply F2; auto; lia). destruct (n <? K); apply F1.
  Qed.
  Lemma low_op o x x' : 0 <= o -> low o (f x x') = f (low o x) (low o x').
  Proof using F.
    destruct F as (F0 & F1 & F2). intros Ho. apply Z.bits_inj'. intros n Hn. rewrite F1, !low_eq by lia. 
    destruct (Z_lt_le_dec n o); [rewrite !Z.mod_pow2_bits_low by lia; apply F1|rewrite !Z.mod_pow2_bits_high by lia; auto].
  Qed.
  Lemma high_op o x x' : 0 <= o < 128 -> rshr 128 (f x x') o = f (rshr 128 x o) (rshr 128 x' o).
  Proof using F.
    destruct F as (F0 & F1 & F2). intros Ho. apply Z.bits_inj'. intros n Hn. rewrite F1, !high_bit by lia. apply F1.
  Qed.
  Lemma swap_op i j l l' : length l = length l' -> (i < 128 * length l)%nat -> (j < 128 * length l)%nat ->
    Forall (inr 128) l -> Forall (inr 128) l' -> swap_words (map2 f l l') i j = map2 f (swap_words l i j) (swap_words l' i j).
  Proof using F.
    destruct F as (F0 & F1 & F2). intros HL Hi Hj HF HF'.
    assert (FR : forall a a', Forall (inr 128) a -> Forall (inr 128) a' -> Forall (inr 128) (map2 f a a')).
    { intros a a' Ha. revert a'. induction Ha as [|x a Hx Ha IH]; intros [|y a'] Ha'; cbn; constructor; inversion Ha'; subst; [apply F2; auto; lia|auto]. }
    assert (WB : forall a a' k, length a = length a' -> wbit (map2 f a a') k = b (wbit a k) (wbit a' k)).
    { intros a a' k Ha. unfold wbit. rewrite <- F1. f_equal. apply (map2_nth f a a' _ 0 0 0); [exact Ha|].
      apply Z.bits_inj'. intros m _. rewrite F1, Z.bits_0. exact F0. }
    assert (LM : length (map2 f l l') = length l) by (rewrite map2_length_min; lia).
    apply words_ext.
    - rewrite swap_words_length, !map2_length_min, !swap_words_length. reflexivity.
    - apply swap_words_range; auto.
    - apply FR; apply swap_words_range; auto.
    - intros k Hk. rewrite swap_words_length, LM in Hk. rewrite swap_words_bit by lia. rewrite !WB by (rewrite ?swap_words_length; congruence).
      rewrite !swap_words_bit by lia. reflexivity.
  Qed.
End Bitop.

(** ** Sharings *)
Lemma bin_in K X x : bin_shared K X x -> forall i, share_in K (X i).
Proof. intros (A1 & A2 & _) i. split; [apply A1|rewrite A2; apply A1]. Qed.
Lemma bin_mono K K' X x : K <= K' -> bin_shared K X x -> bin_shared K' X x.
Proof. intros H (A1 & A2 & A3). split; [|split; assumption]. intros i. specialize (A1 i). unfold inr in *. assert (2 ^ K <= 2 ^ K') by (apply Z.pow_le_mono_r; lia). lia. Qed.
Lemma bin_narrow K' X x g : bin_shared K' X x -> (forall i, inr g (sa (X i))) -> bin_shared g X x.
Proof. intros (A1 & A2 & A3) HS. split; [exact HS|split; assumption]. Qed.
Lemma scat_ok g K W w X x : 0 < g -> 0 < K -> g + K <= 128 -> bin_shared g W w -> bin_shared K X x ->
  bin_shared (g + K) (fun i => scat K (W i) (X i)) (cat K w x).
Proof.
  intros Hg HK Hs (A1 & A2 & A3) (B1 & B2 & B3). split; [|split]; intros; cbn [sa sb scat].
  - apply cat_range; auto.
  - rewrite A2, B2. reflexivity.
  - subst w x. rewrite !(cat_op _ _ bitop_lxor g) by (repeat apply inr_lxor; auto; lia). reflexivity.
Qed.
Lemma slow_ok o K X x : 0 <= o -> bin_shared K X x -> bin_shared o (fun i => slow o (X i)) (low o x).
Proof.
  intros Ho (B1 & B2 & B3). split; [|split]; intros; cbn [sa sb slow]; [apply low_range; auto|rewrite B2; reflexivity|].
  subst x. rewrite !(low_op _ _ bitop_lxor) by lia. reflexivity.
Qed.
Lemma shigh_ok o K X x : 0 <= o < K -> K <= 128 -> bin_shared K X x -> bin_shared (K - o) (fun i => shigh o (X i)) (rshr 128 x o).
Proof.
  intros Ho HK (B1 & B2 & B3). split; [|split]; intros; cbn [sa sb shigh]; [apply high_range; auto|rewrite B2; reflexivity|].
  subst x. rewrite !(high_op _ _ bitop_lxor) by lia. reflexivity.
Qed.

(** Column form of a shared vector. *)
Lemma bin_cols_value K X xs : RL (bin_shared K) X xs ->
  xs = map2 Z.lxor (map2 Z.lxor (map sa (X P0)) (map sa (X P1))) (map sa (X P2)).
Proof.
  induction 1 as [X HX|X Y X0 y ys HX (A1 & A2 & A3) HR IH]; rewrite !HX; [reflexivity|]. cbn [map map2]. rewrite <- IH, A3. reflexivity.
Qed.
Lemma bin_cols_intro K n : forall (X : pid -> list share), (forall i, length (X i) = n) -> (forall i, Forall (inr K) (map sa (X i))) ->
  (forall i, map sb (X i) = map sa (X (prev i))) ->
  RL (bin_shared K) X (map2 Z.lxor (map2 Z.lxor (map sa (X P0)) (map sa (X P1))) (map sa (X P2))).
Proof.
  induction n as [|n IH]; intros X HL HF HS.
  - assert (E : forall i, X i = []) by (intros i; specialize (HL i); destruct (X i); [reflexivity|discriminate]).
    rewrite !E. exact (RL_nil _ _ E).
  - assert (E : forall i, X i = hd szero (X i) :: tl (X i)) by (intros i; specialize (HL i); destruct (X i); [discriminate|reflexivity]).
    assert (E' : map2 Z.lxor (map2 Z.lxor (map sa (X P0)) (map sa (X P1))) (map sa (X P2)) =
      Z.lxor (Z.lxor (sa (hd szero (X P0))) (sa (hd szero (X P1)))) (sa (hd szero (X P2))) ::
      map2 Z.lxor (map2 Z.lxor (map sa (tl (X P0))) (map sa (tl (X P1)))) (map sa (tl (X P2)))).
    { rewrite (E P0), (E P1), (E P2). reflexivity. }
    rewrite E'. eapply (RL_cons _ _ (fun i => hd szero (X i)) (fun i => tl (X i))); [exact E| |].
    + split; [|split; [|reflexivity]]; intros i.
      * specialize (HF i). rewrite E in HF. inversion HF; assumption.
      * specialize (HS i). rewrite (E i), (E (prev i)) in HS. cbn [map] in HS. injection HS. auto.
    + apply (IH (fun i => tl (X i))); intros i.
      * specialize (HL i). rewrite E in HL. injection HL. auto.
      * specialize (HF i). rewrite E in HF. inversion HF; assumption.
      * specialize (HS i). rewrite (E i), (E (prev i)) in HS. cbn [map] in HS. injection HS. auto.
Qed.
Lemma swap_bit_ok X xs i j : RL (bin_shared 128) X xs -> (i < 128 * length xs)%nat -> (j < 128 * length xs)%nat ->
  RL (bin_shared 128) (fun p => swap_bit (X p) i j) (swap_words xs i j).
Proof.
  intros HX Hi Hj. destruct (brel_cols _ _ _ HX) as (C1 & C2 & C3).
  assert (LA : forall p, length (map sa (X p)) = length xs) by (intros p; rewrite map_length; apply C3).
  assert (FX : forall a a', Forall (inr 128) a -> Forall (inr 128) a' -> Forall (inr 128) (map2 Z.lxor a a')).
  { intros a a' Ha. revert a'. induction Ha as [|x a Hx Ha IH]; intros [|y a'] Ha'; cbn; constructor; inversion Ha'; subst; [apply inr_lxor; auto; lia|auto]. }
  rewrite (bin_cols_value _ _ _ HX) at 1.
  rewrite !(swap_op _ _ bitop_lxor) by (rewrite ?map2_length_min, ?LA; auto; lia).
  rewrite <- !swap_bit_sa. apply (bin_cols_intro 128 (length xs) (fun p => swap_bit (X p) i j)); intros p.
  - rewrite swap_bit_length. apply C3.
  - rewrite swap_bit_sa. apply swap_words_range, C1.
  - rewrite swap_bit_sa, swap_bit_sb, C2. reflexivity.
Qed.

(** ** Pools held by the three parties: g AND gates, packed into words *)
Definition last_bits (g : Z) : Z := (g - 1) mod 128 + 1.
Definition words_of (g : Z) : Z := (g + 127) / 128.
Definition pcomp (g : Z) (L : pid -> list share) (l : list Z) : Prop :=
  RL (bin_shared 128) L l /\ forall i, inr (last_bits g) (sa (last (L i) szero)).
Definition pool_inv (g : Z) (T : pid -> triples) : Prop :=
  0 <= g /\ (forall i, t_bits (T i) = last_bits g) /\
  exists a b, Z.of_nat (length a) = words_of g /\ length b = length a /\
    pcomp g (fun i => t_a (T i)) a /\ pcomp g (fun i => t_b (T i)) b /\ pcomp g (fun i => t_c (T i)) (map2 Z.land a b).

Lemma pcomp_snoc g L l : pcomp g L l -> l <> [] ->
  exists l' w L' W, l = l' ++ [w] /\ (forall i, L i = L' i ++ [W i]) /\ RL (bin_shared 128) L' l' /\ bin_shared (last_bits g) W w.
Proof.
  intros [HL HB] Hn. destruct (snoc_cases l) as [->|(l' & w & ->)]; [congruence|].
  destruct (RL_inv_snoc _ _ _ _ HL) as (L' & W & E & H1 & H2). exists l', w, L', W.
  split; [reflexivity|]. split; [exact E|]. split; [exact H1|]. apply (bin_narrow 128); [exact H2|].
  intros i. specialize (HB i). rewrite E, last_snoc in HB. exact HB.
Qed.
Lemma pcomp_intro g L l W w : last_bits g <= 128 -> RL (bin_shared 128) L l -> bin_shared (last_bits g) W w -> pcomp g (fun i => L i ++ [W i]) (l ++ [w]).
Proof.
  intros Hg HL HW. split; [|intros i; rewrite last_snoc; apply HW].
  apply RL_app; [exact HL|]. apply RL_cons'; [|apply RL_nil']. apply (bin_mono (last_bits g)); assumption.
Qed.
Lemma pcomp_ext g L L' l : (forall i, L i = L' i) -> pcomp g L l -> pcomp g L' l.
Proof. intros E [H1 H2]. split; [apply (RL_ext _ L); assumption|]. intros i. rewrite <- E. apply H2. Qed.

Lemma add_t_inv K g T X x Y y W : 0 < K <= 128 -> pool_inv g T -> bin_shared K X x -> bin_shared K Y y -> bin_shared K W (Z.land x y) ->
  pool_inv (g + K) (fun i => add_t K (T i) (X i) (Y i) (W i)).
Proof.
  intros HK (Hg & HB & a & b & La & Lb & HA & HBB & HC) HX HY HW.
  assert (Hlb : 0 < last_bits g <= 128) by (unfold last_bits; lia).
  split; [lia|]. unfold add_t, push_t, add_all_t, split_and_add_t.
  destruct (Z.eqb_spec (128 - last_bits g) 0) as [E0|E0].
  { assert (EL : last_bits (g + K) = K) by (unfold last_bits in *; lia).
    assert (EW : words_of (g + K) = words_of g + 1) by (unfold words_of, last_bits in *; lia).
    split. { intros i. rewrite HB. replace (128 - last_bits g =? 0) with true by lia. cbn. congruence. }
    exists (a ++ [x]), (b ++ [y]). rewrite !app_length, map2_app by congruence. cbn [length map2].
    split; [lia|]. split; [lia|]. 
    split; [|split]; (eapply pcomp_ext; [|apply pcomp_intro]);
      try (intros i; rewrite HB; replace (128 - last_bits g =? 0) with true by lia; reflexivity);
      rewrite ?EL; try lia; try assumption; [apply HA|apply HBB|apply HC]. }
  assert (Na : a <> []). { intros ->. cbn in La. assert (g = 0) by (unfold words_of in La; lia). subst g. apply E0. reflexivity. }
  assert (Nb : b <> []) by (destruct b, a; try discriminate; congruence).
  destruct (pcomp_snoc _ _ _ HA Na) as (a' & w1 & A' & W1 & -> & EA & HA' & HW1).
  destruct (pcomp_snoc _ _ _ HBB Nb) as (b' & w2 & B' & W2 & -> & EB & HB' & HW2).
  rewrite !app_length in Lb. cbn [length] in Lb. assert (Lb' : length b' = length a') by lia.
  rewrite map2_app in HC by congruence. cbn [map2] in HC.
  assert (Nc : map2 Z.land a' b' ++ [Z.land w1 w2] <> []) by (destruct (map2 Z.land a' b'); discriminate).
  destruct (pcomp_snoc _ _ _ HC Nc) as (c' & w3 & C' & W3 & Ec & EC & HC' & HW3).
  apply app_inj_tail in Ec. destruct Ec as [<- <-].
  assert (I1 : inr (last_bits g) w1) by (apply (brel_range _ W1); [lia|assumption]).
  assert (I2 : inr (last_bits g) w2) by (apply (brel_range _ W2); [lia|assumption]).
  assert (I3 : inr K x) by (apply (brel_range _ X); [lia|assumption]).
  assert (I4 : inr K y) by (apply (brel_range _ Y); [lia|assumption]).
  assert (G : forall i, 128 - t_bits (T i) =? 0 = false) by (intros i; rewrite HB; lia).
  destruct (Z.leb_spec K (128 - last_bits g)) as [E1|E1].
  - assert (EL : last_bits (g + K) = last_bits g + K) by (unfold last_bits in *; lia).
    assert (EW : words_of (g + K) = words_of g) by (unfold words_of, last_bits in *; lia).
    assert (G1 : forall i, K <=? 128 - t_bits (T i) = true) by (intros i; rewrite HB; lia).
    split. { intros i. rewrite G, G1. cbn [t_bits]. rewrite HB, EL. reflexivity. }
    exists (a' ++ [cat K w1 x]), (b' ++ [cat K w2 y]). rewrite !app_length, map2_app by congruence. cbn [length map2]. rewrite app_length in La. cbn [length] in La.
    split; [lia|]. split; [lia|].
    rewrite <- (cat_op _ _ bitop_land (last_bits g)) by (auto; lia).
    assert (CC : forall L l U w V v, RL (bin_shared 128) L l -> bin_shared (last_bits g) U w -> bin_shared K V v ->
      pcomp (g + K) (fun i => L i ++ [scat K (U i) (V i)]) (l ++ [cat K w v])).
    { intros L l U w V v HL HU HV. apply (pcomp_intro _ L _ (fun i => scat K (U i) (V i))); [lia|exact HL|].
      rewrite EL. apply scat_ok; auto; lia. }
    split; [|split]; (eapply pcomp_ext; [|eapply CC; [eassumption|eassumption|]]);
      try (intros i; rewrite G, G1; cbn [t_a t_b t_c]; rewrite ?EA, ?EB, ?EC, upd_last_snoc; reflexivity); assumption.
  - set (o := 128 - last_bits g) in *. assert (Ho : 0 < o < K) by lia.
    assert (EL : last_bits (g + K) = K - o) by (unfold last_bits in *; lia).
    assert (EW : words_of (g + K) = words_of g + 1) by (unfold words_of, last_bits in *; lia).
    assert (G1 : forall i, K <=? 128 - t_bits (T i) = false) by (intros i; rewrite HB; fold o; lia).
    assert (G2 : forall i, 128 - t_bits (T i) = o) by (intros i; rewrite HB; reflexivity).
    split. { intros i. rewrite G, G1, G2. cbn [t_bits]. congruence. }
    exists ((a' ++ [cat o w1 (low o x)]) ++ [rshr 128 x o]), ((b' ++ [cat o w2 (low o y)]) ++ [rshr 128 y o]).
    rewrite !map2_app by (rewrite ?app_length; cbn [length]; congruence). cbn [map2]. rewrite !app_length in *. cbn [length] in *.
    split; [lia|]. split; [lia|].
    rewrite <- (high_op _ _ bitop_land) by lia. rewrite <- (cat_op _ _ bitop_land (last_bits g)) by (try apply low_range; auto; lia).
    rewrite <- (low_op _ _ bitop_land) by lia.
    assert (CC : forall L l U w V v, RL (bin_shared 128) L l -> bin_shared (last_bits g) U w -> bin_shared K V v ->
      pcomp (g + K) (fun i => (L i ++ [scat o (U i) (slow o (V i))]) ++ [shigh o (V i)]) ((l ++ [cat o w (low o v)]) ++ [rshr 128 v o])).
    { intros L l U w V v HL HU HV. apply (pcomp_intro _ (fun i => L i ++ [scat o (U i) (slow o (V i))]) _ (fun i => shigh o (V i))).
      - lia.
      - apply RL_app; [exact HL|]. apply RL_cons'; [|apply RL_nil']. replace 128 with (last_bits g + o) by lia.
        apply (scat_ok (last_bits g) o U w (fun i => slow o (V i))); auto; try lia. apply (slow_ok o K); [lia|exact HV].
      - rewrite EL. apply shigh_ok; auto; lia. }
    split; [|split]; (eapply pcomp_ext; [|eapply CC; [eassumption|eassumption|]]);
      try (intros i; rewrite G, G1, G2; cbn [t_a t_b t_c]; rewrite ?EA, ?EB, ?EC, upd_last_snoc; reflexivity); assumption.
Qed.
Lemma add_many_t_inv K X xs Y ys W : 0 < K <= 128 -> length xs = length ys -> RL (bin_shared K) X xs -> RL (bin_shared K) Y ys -> RL (bin_shared K) W (map2 Z.land xs ys) ->
  forall g T, pool_inv g T -> pool_inv (g + K * Z.of_nat (length xs)) (fun i => add_many_t K (T i) (X i) (Y i) (W i)).
Proof.
  intros HK HL HX. revert ys HL Y W. unfold add_many_t. induction HX as [X HX|X X1 X0 x xs HX HX1 HR IH]; intros ys HL Y W HY HW g T HT.
  - cbn [length]. rewrite Z.mul_0_r, Z.add_0_r. revert HT. unfold pool_inv. intros HT.
    assert (E : forall i, fold_left (fun t xyz => add_t K t (fst (fst xyz)) (snd (fst xyz)) (snd xyz)) (combine (combine (X i) (Y i)) (W i)) (T i) = T i) by (intros i; rewrite HX; reflexivity).
    destruct HT as (H1 & H2 & a & b & H3 & H4 & H5 & H6 & H7). split; [exact H1|]. split; [intros i; rewrite E; apply H2|].
    exists a, b. split; [exact H3|]. split; [exact H4|].
    split; [|split]; (eapply pcomp_ext; [|eassumption]); intros i; rewrite E; reflexivity.
  - destruct ys as [|y ys]; [discriminate|]. cbn [map2] in HW. apply RL_inv_cons in HY, HW.
    destruct HY as (Y1 & Y0 & EY & HY1 & HY0), HW as (W1 & W0 & EW & HW1 & HW0).
    specialize (IH ys ltac:(cbn in HL; congruence) Y0 W0 HY0 HW0 (g + K) (fun i => add_t K (T i) (X1 i) (Y1 i) (W1 i)) (add_t_inv K g T X1 x Y1 y W1 HK HT HX1 HY1 HW1)).
    cbn [length]. replace (g + K * Z.of_nat (S (length xs))) with (g + K + K * Z.of_nat (length xs)) by lia.
    assert (E : forall i, fold_left (fun t xyz => add_t K t (fst (fst xyz)) (snd (fst xyz)) (snd xyz)) (combine (combine (X i) (Y i)) (W i)) (T i) =
      fold_left (fun t xyz => add_t K t (fst (fst xyz)) (snd (fst xyz)) (snd xyz)) (combine (combine (X0 i) (Y0 i)) (W0 i)) (add_t K (T i) (X1 i) (Y1 i) (W1 i)))
      by (intros i; rewrite HX, EY, EW; reflexivity).
    destruct IH as (H1 & H2 & a & b & H3 & H4 & H5 & H6 & H7). split; [exact H1|]. split; [intros i; rewrite E; apply H2|].
    exists a, b. split; [exact H3|]. split; [exact H4|].
    split; [|split]; (eapply pcomp_ext; [|eassumption]); intros i; rewrite E; reflexivity.
Qed.
