(** Boolean gates of the malicious ABY3 engine run by two honest parties against an arbitrary third one: AND. *)
From Verif Require Import Base Ring RingProofs Prog Sched Conc Rng Rel Net BitArith BinProofs AddProofs IrisProofs MpcSpec Aby3 ShareSpec Aby3Proofs Aby3Proofs2 SlicedProofs Jmp JmpProofs Session SessionProofs
  Aby3Mal Aby3MalProofs Aby3MalProofs2 SacrificeProofs PropLemmas PropLemmas2 SpecProofs Duo DuoProofs MacSpec MacProofs Client ProgMalSpec ProgMalDuo ProgMalOps ProgMalOps2 ProgMalOps3 ProgMalOps4 ProgMalBinSpec ProgMalBin ProgMalBin2.
From Coq Require Import ZifyBool ZifyNat.

Definition and_out (p : pid) (z : share) (abuv : share * share * (Z * Z)) : share := let '(ab, uv) := abuv in
  sh_xor_const p (sh_xor (sh_xor z (sh_andc (snd ab) (fst uv))) (sh_andc (fst ab) (snd uv))) (rand_ (fst uv) (snd uv)).
Definition and_outs (p : pid) (z a b : list share) (u v : list Z) : list share := map2 (and_out p) z (combine (combine a b) (combine u v)).

Lemma ranged_andc K x c : 0 <= K -> ranged K x -> inr K c -> ranged K (sh_andc x c).
Proof. intros HK [A1 A2] B. split; cbn; unfold rand_; apply inr_land; assumption. Qed.
Lemma ranged_xorc K p x c : 0 <= K -> ranged K x -> inr K c -> ranged K (sh_xor_const p x c).
Proof. intros HK [A1 A2] B. destruct p; split; cbn; unfold rxor; try assumption; apply inr_lxor; assumption. Qed.
Lemma and_out_ranged K p z a b u v : 0 <= K -> ranged K z -> ranged K a -> ranged K b -> inr K u -> inr K v -> ranged K (and_out p z (a, b, (u, v))).
Proof. intros. unfold and_out. cbn [fst snd]. apply ranged_xorc; auto; [|apply inr_land; auto]. repeat apply ranged_xor; auto; apply ranged_andc; auto. Qed.
Lemma and_outs_ranged K p n : 0 <= K -> forall z a b u v, length z = n -> length a = n -> length b = n -> length u = n -> length v = n ->
  Forall (ranged K) z -> Forall (ranged K) a -> Forall (ranged K) b -> Forall (inr K) u -> Forall (inr K) v ->
  Forall (ranged K) (and_outs p z a b u v) /\ length (and_outs p z a b u v) = n.
Proof.
  intros HK. unfold and_outs. induction n as [|n IH]; intros [|z0 z] [|a0 a] [|b0 b] [|u0 u] [|v0 v] L1 L2 L3 L4 L5 F1 F2 F3 F4 F5; try discriminate; [split; [constructor|reflexivity]|].
  inversion F1; subst. inversion F2; subst. inversion F3; subst. inversion F4; subst. inversion F5; subst. cbn [combine map2 length] in *.
  destruct (IH z a b u v) as [I1 I2]; try lia; try assumption. split; [constructor; [apply and_out_ranged; assumption|exact I1]|congruence].
Qed.
Lemma and_outs_ok K X xs Y ys A a B b C : In K widths -> length xs = length ys -> length a = length xs -> length b = length xs ->
  RL (brel K) X xs -> RL (brel K) Y ys -> RL (brel K) A a -> RL (brel K) B b -> RL (brel K) C (map2 Z.land a b) ->
  RL (brel K) (fun p => and_outs p (C p) (X p) (Y p) (map2 Z.lxor xs a) (map2 Z.lxor ys b)) (map2 Z.land xs ys).
Proof.
  intros HK Hl La Lb HX HY HA HB HC. pose proof (in_widths_pos K HK) as K0. assert (HK0 : 0 <= K) by lia.
  pose proof (RL_Forall_range K _ _ HK0 HX) as Fx. pose proof (RL_Forall_range K _ _ HK0 HY) as Fy.
  pose proof (RL_Forall_range K _ _ HK0 HA) as Fa. pose proof (RL_Forall_range K _ _ HK0 HB) as Fb.
  assert (Fu : Forall (inr K) (map2 Z.lxor xs a)).
  { clear -Fx Fa HK0. revert a Fa. induction Fx; intros [|? ?] Fa; cbn; constructor; inversion Fa; subst; auto. apply inr_lxor; auto. }
  assert (Fv : Forall (inr K) (map2 Z.lxor ys b)).
  { clear -Fy Fb HK0. revert b Fb. induction Fy; intros [|? ?] Fb; cbn; constructor; inversion Fb; subst; auto. apply inr_lxor; auto. }
  assert (P : forall l, Forall (inr K) l -> RL (fun P (p : Z) => public P p /\ inr K p) (fun _ => l) l).
  { intros l F. induction F; [apply RL_nil'|]. apply (RL_cons' _ (fun _ => x)); [split; [intros i; reflexivity|assumption]|assumption]. }
  pose proof (RL_combine _ _ _ _ _ _ (RL_combine _ _ _ _ _ _ HX HY) (RL_combine _ _ _ _ _ _ (P _ Fu) (P _ Fv))) as HQ.
  pose (gz := fun z (abuv : Z * Z * (Z * Z)) => Z.lxor (Z.lxor (Z.lxor z (Z.land (snd (fst abuv)) (fst (snd abuv)))) (Z.land (fst (fst abuv)) (snd (snd abuv))))
      (Z.land (fst (snd abuv)) (snd (snd abuv)))).
  replace (map2 Z.land xs ys) with (map2 gz (map2 Z.land a b) (combine (combine xs ys) (combine (map2 Z.lxor xs a) (map2 Z.lxor ys b)))).
  - apply (RL_map2 _ _ (brel K) and_out gz) with (2 := HC) (3 := HQ).
    intros C0 c Q [[p q] [u v]] [_ HC0] [[[_ HP1] [_ HP2]] [[HU0 HU1] [HV0 HV1]]]. cbn [fst snd] in *. split; [exact HK|]. unfold gz. cbn [fst snd].
    apply (brel_ext K (fun i => sh_xor_const i (sh_xor (sh_xor (C0 i) (sh_andc (snd (fst (Q i))) u)) (sh_andc (fst (fst (Q i))) v)) (rand_ u v))).
    { intros i. unfold and_out. specialize (HU0 i). specialize (HV0 i). cbn beta in *. destruct (Q i) as [[? ?] [? ?]]. cbn [fst snd] in *. subst. reflexivity. }
    apply (sh_xor_const_ok K HK0); [apply inr_land; auto|].
    apply (sh_xor_ok K HK0); [apply (sh_xor_ok K HK0); [exact HC0|]|]; apply (sh_andc_ok K HK0); assumption.
  - clear -La Lb Hl. revert ys a b Hl La Lb. induction xs as [|x xs IH]; intros [|y ys] [|p a] [|q b] Hl La Lb; try discriminate; [reflexivity|].
    cbn [map2 combine]. rewrite IH by (injection Hl; injection La; injection Lb; auto). f_equal. apply beaver_and.
Qed.

Section D.
  Variables (G : rng) (H : hasher) (i : pid).
  Notation j := (next i).
  Notation ST := (jst G).
  Notation coll := (hash_collision G H).
  Notation synced := (synced2 G).
  Notation clean := (clean G).
  Notation luck := (lucky_bits G H i).
  Notation stp := (stp G).
  Notation duoL := (duoL G H i).
  Notation rep := (rep G i).
  Notation reps := (reps G i).
  Notation bts K l := (wire (map (pair K) l)).

  (** A list of shares in range is what party i holds of some sharing. *)
  Lemma own_fam K xs : 0 <= K -> Forall (ranged K) xs -> exists X vs, RL (arith_shared K) X vs /\ X i = xs /\ length vs = length xs.
  Proof using Type.
    intros HK F. exists (rows_fam i xs (map (fun x => Share 0 (sa x)) xs)), (map2 (joint K) xs (map (fun x => Share 0 (sa x)) xs)).
    split; [|split; [apply rows_fam_i|apply map2_length_eq; rewrite map_length; reflexivity]]. apply rows_fam_RL. induction F as [|x xs [R1 R2] F IH]; cbn; constructor; [|exact IH].
    split; [split; assumption|]. split; [split; cbn; [unfold inr; split; [lia|apply Z.pow_pos_nonneg; lia]|assumption]|reflexivity].
  Qed.
  Lemma RL_ranged K X vs p : RL (brel K) X vs -> Forall (ranged K) (X p).
  Proof. intros R. induction R as [X HX|X Y X' y ys HX [_ (A1 & A2 & _)] HR IH]; rewrite HX; constructor; [split; [apply A1|rewrite A2; apply A1]|exact IH]. Qed.
  Lemma pack_ranged K m xs : In K widths -> length xs = (Z.to_nat K * m)%nat -> Forall (ranged 1) xs -> Forall (ranged K) (pack K xs) /\ length (pack K xs) = m.
  Proof.
    intros HK L F. destruct (own_fam 1 xs ltac:(lia) F) as (X & vs & HX & E & LV). apply RL_arith_bin1 in HX. rewrite L in LV. pose proof (pack_full_ok K _ vs m HK LV HX) as P.
    pose proof (RL_ranged _ _ _ i P) as R. pose proof (RL_length _ _ _ P i) as RLE. cbv beta in *. rewrite E in *. split; [exact R|]. rewrite RLE. apply (vpack_length K vs m HK LV).
  Qed.
  Lemma pack_word_ranged K xs : In K widths -> length xs = Z.to_nat K -> Forall (ranged 1) xs -> ranged K (pack_word K xs).
  Proof.
    intros HK L F. destruct (own_fam 1 xs ltac:(lia) F) as (X & vs & HX & E & LV). apply RL_arith_bin1 in HX. rewrite L in LV.
    destruct (pack_word_full K _ vs HK LV HX) as [_ (A1 & A2 & _)]. rewrite <- E. split; [apply A1|rewrite A2; apply A1].
  Qed.
  Lemma reps_pack b s t K m xs ys vs : In K widths -> length vs = (Z.to_nat K * m)%nat -> reps b s t 1 xs ys vs -> reps b s t K (pack K xs) (pack K ys) (vpack K vs).
  Proof.
    intros HK L (R1 & R2 & L1 & L2 & R). destruct (pack_ranged K m xs HK ltac:(congruence) R1) as [P1 P2]. destruct (pack_ranged K m ys HK ltac:(congruence) R2) as [P3 P4].
    split; [exact P1|]. split; [exact P3|]. rewrite (vpack_length K vs m HK L). split; [exact P2|]. split; [exact P4|]. intros C. destruct (R C) as [?|(X & HX & <- & <-)]; [auto|].
    right. exists (fun p => pack K (X p)). split; [apply (pack_full_ok K X vs m HK L HX)|auto].
  Qed.
  Lemma reps_pack_word b s t K xs ys vs : In K widths -> length vs = Z.to_nat K -> reps b s t 1 xs ys vs -> rep b s t K (pack_word K xs) (pack_word K ys) (pkf K vs).
  Proof.
    intros HK L (R1 & R2 & L1 & L2 & R). split; [apply pack_word_ranged; congruence|]. split; [apply pack_word_ranged; congruence|]. intros C. destruct (R C) as [?|(X & HX & <- & <-)]; [auto|].
    right. exists (fun p => pack_word K (X p)). split; [apply (pack_word_full K X vs HK L HX)|auto].
  Qed.
  Lemma reps_change b s t K xs ys vs vs' : length vs = length vs' -> (clean s t -> goods i K xs ys vs -> vs = vs') -> reps b s t K xs ys vs -> reps b s t K xs ys vs'.
  Proof.
    intros L E (R1 & R2 & L1 & L2 & R). split; [exact R1|]. split; [exact R2|]. split; [congruence|]. split; [congruence|]. intros C. destruct (R C) as [?|GD]; [auto|]. right. rewrite <- (E C GD). exact GD.
  Qed.

  Definition opened_bi (xs : list share) (c : list Z) : list Z := map2 (fun s c => rxor (rxor c (sa s)) (sb s)) xs c.
  Lemma opened_bi_range K xs c : 0 <= K -> Forall (ranged K) xs -> Forall (inr K) c -> length c = length xs -> Forall (inr K) (opened_bi xs c) /\ length (opened_bi xs c) = length xs.
  Proof.
    intros HK F. revert c. unfold opened_bi. induction F as [|x xs [R1 R2] F IH]; intros [|c0 c] Fc L; try discriminate; [split; [constructor|reflexivity]|].
    inversion Fc; subst. cbn in *. destruct (IH c) as [I1 I2]; auto. split; [constructor; [|exact I1]|congruence]. unfold rxor. apply inr_lxor; auto. apply inr_lxor; auto.
  Qed.
  Lemma reconstruct_binary_many_duo K xs ys (s t : ST) (Q : ST -> list Z -> ST -> list Z -> Prop) :
    In K widths -> Forall (ranged K) xs -> Forall (ranged K) ys -> length xs = length ys ->
    (forall c s' t', j_prf G s' = j_prf G s -> j_prf G t' = j_prf G t -> j_log G s' = j_log G s -> j_log G t' = j_log G t ->
       length c = length xs -> Forall (inr K) c -> (clean s' t' -> clean s t /\ c = map sa ys) ->
       Q s' (opened_bi xs c) t' (opened_bi ys (map sb xs))) ->
    duoM i (reconstruct_binary_many G i K xs) (reconstruct_binary_many G j K ys) s t Q.
  Proof.
    intros HU Fx Fy L HQ. unfold reconstruct_binary_many. apply duoM_bind. destruct (ranged_cols _ _ Fx) as [X1 X2]. destruct (ranged_cols _ _ Fy) as [Y1 Y2].
    apply jsrm_duo; [exact HU|exact X2|rewrite !map_length; exact L|]. intros c Fc Lc. rewrite map_length in Lc. apply duoM_ret.
    apply HQ; try reflexivity; [exact Lc|exact Fc|]. unfold ProgMalDuo.clean. cbn [j_rcv j_snd]. intros E.
    apply app_inj_len_r in E; [|apply bts_len; rewrite map_length; congruence]. destruct E as [E E2]. split; [exact E|].
    apply bts_inj in E2; [exact E2|exact HU|rewrite map_length; congruence|exact Fc|exact Y1].
  Qed.
  Lemma open_of_RLb K X xs : RL (brel K) X xs -> opened_bi (X i) (map sa (X j)) = xs /\ opened_bi (X j) (map sb (X i)) = xs.
  Proof.
    intros HX. assert (HB : RL (bin_shared K) X xs) by (eapply RL_mono; [|exact HX]; intros Y y [_ HY]; exact HY).
    pose proof (open_cols_b K _ _ HB i) as Oi. pose proof (open_cols_b K _ _ HB j) as Oj. destruct (brel_cols K _ _ HB) as (J1 & J2 & J3).
    replace (prev j) with i in Oj by (destruct i; reflexivity).
    replace (map sb (X (prev i))) with (map sa (X j)) in Oi by (rewrite J2; destruct i; reflexivity). split; assumption.
  Qed.
  (** Opening: what the two parties get, once nothing has gone wrong. *)
  Lemma open_L b K xs ys vs (s t : ST) : In K widths -> reps b s t K xs ys vs ->
    duoL b (reconstruct_binary_many G i K xs) (reconstruct_binary_many G j K ys) s t (fun b' s' u t' v =>
      Forall (inr K) u /\ Forall (inr K) v /\ length u = length vs /\ length v = length vs /\ (clean s' t' -> b' \/ (u = vs /\ v = vs))).
  Proof.
    intros HK (R1 & R2 & L1 & L2 & R). assert (HK0 : 0 <= K) by (apply in_widths_pos in HK; lia). apply duoL_of. intros Hs. apply reconstruct_binary_many_duo; [exact HK|exact R1|exact R2|congruence|].
    intros c s' t' E1 E2 E3 E4 Lc Fc C b' B1 B2. split.
    { split; [unfold synced2 in *; rewrite E1, E2; exact Hs|]. split; [exists []; rewrite app_nil_r; exact E3|]. split; [exists []; rewrite app_nil_r; exact E4|]. split; [exact B1|]. intros C'. right. apply C, C'. }
    destruct (ranged_cols _ _ R1) as [X1 X2]. destruct (opened_bi_range K xs c HK0 R1 Fc Lc) as [O1 O2]. destruct (opened_bi_range K ys (map sb xs) HK0 R2 X2) as [O3 O4]; [rewrite map_length; congruence|].
    split; [exact O1|]. split; [exact O3|]. split; [congruence|]. split; [congruence|]. intros C'. destruct (C C') as [C0 ->]. destruct (R C0) as [?|(X & HX & <- & <-)]; [auto|]. right. apply (open_of_RLb K X vs HX).
  Qed.

  Lemma triples_pack b s t K m x y z x2 y2 z2 : In K widths -> triples G i b s t (Z.to_nat K * m) (x, y, z) (x2, y2, z2) ->
    exists u v, length u = m /\ length v = m /\ reps b s t K (pack K x) (pack K x2) u /\ reps b s t K (pack K y) (pack K y2) v /\ reps b s t K (pack K z) (pack K z2) (map2 Z.land u v).
  Proof.
    intros HK (a & c & La & Lc & RX & RY & RZ). cbn [fst snd] in *. exists (vpack K a), (vpack K c).
    pose proof (reps_pack b s t K m _ _ _ HK La RX) as PX. pose proof (reps_pack b s t K m _ _ _ HK Lc RY) as PY.
    assert (LL : length (map2 Z.land a c) = (Z.to_nat K * m)%nat) by (rewrite map2_length_eq; congruence).
    pose proof (reps_pack b s t K m _ _ _ HK LL RZ) as PZ.
    assert (V1 := vpack_length K a m HK La). assert (V2 := vpack_length K c m HK Lc). assert (V3 := vpack_length K _ m HK LL).
    split; [exact V1|]. split; [exact V2|]. split; [exact PX|]. split; [exact PY|].
    destruct PZ as (Z1 & Z2 & Z3 & Z4 & Z5). rewrite V3 in Z3, Z4. split; [exact Z1|]. split; [exact Z2|]. rewrite map2_length_eq by congruence. rewrite V1. split; [exact Z3|]. split; [exact Z4|].
    intros C. destruct RX as (_ & _ & _ & _ & RX). destruct RY as (_ & _ & _ & _ & RY). destruct (RX C) as [?|(X & HX & _)]; [auto|]. destruct (RY C) as [?|(Y & HY & _)]; [auto|]. destruct (Z5 C) as [?|GD]; [auto|]. right.
    rewrite <- (vpack_land K a c m HK La Lc (RL_bits_range _ _ HX) (RL_bits_range _ _ HY)). exact GD.
  Qed.

  Lemma firstn_app_n {A} n (l l' : list A) : length l = n -> firstn n (l ++ l') = l.
  Proof. intros <-. apply firstn_length_app. Qed.
  Lemma skipn_app_n {A} n (l l' : list A) : length l = n -> skipn n (l ++ l') = l'.
  Proof. intros <-. apply skipn_length_app. Qed.

  Lemma and_many_L b K xs ys vs xs' ys' vs' (s t : ST) : In K widths -> length vs = length vs' -> reps b s t K xs ys vs -> reps b s t K xs' ys' vs' ->
    duoL b (mal_and_many G H i K xs xs') (mal_and_many G H j K ys ys') s t (fun b' s' w t' w' => reps b' s' t' K w w' (map2 Z.land vs vs')).
  Proof.
    intros HK LV R R'. assert (HK0 : 0 <= K) by (apply in_widths_pos in HK; lia).
    assert (EL : length xs = length xs' /\ length ys = length ys' /\ length xs = length vs /\ length ys = length vs) by (destruct R as (_ & _ & ? & ? & _), R' as (_ & _ & ? & ? & _); repeat split; congruence).
    destruct EL as (E1 & E2 & E3 & E4). unfold mal_and_many. rewrite <- E1, <- E2, !Nat.eqb_refl, E3, E4. cbn [negb].
    apply duoL_bind. eapply duoL_mono; [|apply triples_L]. intros b1 s1 [[x y] z] t1 [[x2 y2] z2] S1 T _.
    apply (reps_stp G i _ _ _ _ _ _ _ _ _ _ S1) in R, R'. destruct (triples_pack _ _ _ K (length vs) _ _ _ _ _ _ HK T) as (u & v & Lu & Lv & RU & RV & RW). clear T S1 s t b. rename s1 into s, t1 into t, b1 into b.
    assert (RO : reps b s t K (map2 sh_xor xs (pack K x) ++ map2 sh_xor xs' (pack K y)) (map2 sh_xor ys (pack K x2) ++ map2 sh_xor ys' (pack K y2)) (map2 Z.lxor vs u ++ map2 Z.lxor vs' v)).
    { apply reps_app; apply reps_xor; try assumption; congruence. }
    assert (L1 : length (map2 Z.lxor vs u) = length vs) by (apply map2_length_eq; congruence). assert (L2 : length (map2 Z.lxor vs' v) = length vs) by (rewrite map2_length_eq; congruence).
    apply duoL_bind. eapply duoL_mono; [|apply (open_L b K _ _ _ s t HK RO)]. intros b1 s1 uv t1 uv' S1 (O1 & O2 & O3 & O4 & O) _. rewrite app_length, L1, L2 in O3, O4.
    apply (reps_stp G i _ _ _ _ _ _ _ _ _ _ S1) in R, R', RU, RV, RW. clear RO.
    apply duoL_ret. intros b2 S2. apply (reps_stp G i _ _ _ _ _ _ _ _ _ _ S2) in R, R', RU, RV, RW. destruct S2 as (_ & _ & _ & B2 & _).
    change (reps b2 s1 t1 K (and_outs i (pack K z) xs xs' (firstn (length vs) uv) (skipn (length vs) uv)) (and_outs j (pack K z2) ys ys' (firstn (length vs) uv') (skipn (length vs) uv')) (map2 Z.land vs vs')).
    destruct R as (A1 & A2 & A3 & A4 & A5), R' as (A1' & A2' & A3' & A4' & A5'), RW as (W1 & W2 & W3 & W4 & W5).
    rewrite map2_length_eq in W3, W4 by congruence.
    assert (HI : Forall (ranged K) (and_outs i (pack K z) xs xs' (firstn (length vs) uv) (skipn (length vs) uv)) /\ length (and_outs i (pack K z) xs xs' (firstn (length vs) uv) (skipn (length vs) uv)) = length vs).
    { apply (and_outs_ranged K); try assumption; try congruence; try (apply Forall_firstn', O1); try (apply Forall_skipn', O1); rewrite ?firstn_length, ?skipn_length; lia. }
    assert (HJ : Forall (ranged K) (and_outs j (pack K z2) ys ys' (firstn (length vs) uv') (skipn (length vs) uv')) /\ length (and_outs j (pack K z2) ys ys' (firstn (length vs) uv') (skipn (length vs) uv')) = length vs).
    { apply (and_outs_ranged K); try assumption; try congruence; try (apply Forall_firstn', O2); try (apply Forall_skipn', O2); rewrite ?firstn_length, ?skipn_length; lia. }
    destruct HI as [HI1 HI2], HJ as [HJ1 HJ2]. split; [exact HI1|]. split; [exact HJ1|]. rewrite map2_length_eq by exact LV. split; [exact HI2|]. split; [exact HJ2|].
    intros C. destruct (O C) as [?|[-> ->]]; [auto|]. rewrite !(firstn_app_n (length vs)), !(skipn_app_n (length vs)) by assumption.
    destruct (A5 C) as [?|(X & HX & <- & <-)]; [auto|]. destruct (A5' C) as [?|(Y & HY & <- & <-)]; [auto|]. destruct (W5 C) as [?|(Z0 & HZ & <- & <-)]; [auto|].
    destruct RU as (_ & _ & _ & _ & U5), RV as (_ & _ & _ & _ & V5). destruct (U5 C) as [?|(U & HU & _)]; [auto|]. destruct (V5 C) as [?|(V & HV & _)]; [auto|].
    right. exists (fun p => and_outs p (Z0 p) (X p) (Y p) (map2 Z.lxor vs u) (map2 Z.lxor vs' v)). split; [|auto]. apply (and_outs_ok K X vs Y vs' U u V v Z0); auto.
  Qed.

  (** A single AND is the same with one word. *)
  Lemma and_L b K x y v x' y' v' (s t : ST) : In K widths -> rep b s t K x y v -> rep b s t K x' y' v' ->
    duoL b (mal_and G H i K x x') (mal_and G H j K y y') s t (fun b' s' w t' w' => rep b' s' t' K w w' (Z.land v v')).
  Proof.
    intros HK R R'. assert (HK0 : 0 <= K) by (apply in_widths_pos in HK; lia). unfold mal_and.
    apply duoL_bind. eapply duoL_mono; [|apply triples_L]. intros b1 s1 [[p q] r] t1 [[p2 q2] r2] S1 T _.
    apply (rep_stp G i _ _ _ _ _ _ _ _ _ _ S1) in R, R'. clear S1 s t b. rename s1 into s, t1 into t, b1 into b.
    destruct T as (a & c & La & Lc & RX & RY & RZ). cbn [fst snd] in *.
    assert (LL : length (map2 Z.land a c) = Z.to_nat K) by (rewrite map2_length_eq; congruence).
    pose proof (reps_pack_word b s t K _ _ _ HK La RX) as PX. pose proof (reps_pack_word b s t K _ _ _ HK Lc RY) as PY. pose proof (reps_pack_word b s t K _ _ _ HK LL RZ) as PZ.
    set (u := pkf K a) in *. set (w := pkf K c) in *.
    assert (PZ' : rep b s t K (pack_word K r) (pack_word K r2) (Z.land u w)).
    { destruct PZ as (Z1 & Z2 & Z5). split; [exact Z1|]. split; [exact Z2|]. intros C. destruct RX as (_ & _ & _ & _ & RX). destruct RY as (_ & _ & _ & _ & RY). destruct (RX C) as [?|(X & HX & _)]; [auto|]. destruct (RY C) as [?|(Y & HY & _)]; [auto|]. destruct (Z5 C) as [?|GD]; [auto|]. right.
      unfold u, w. rewrite <- (pkf_land K a c HK La Lc (RL_bits_range _ _ HX) (RL_bits_range _ _ HY)). exact GD. }
    clear PZ RX RY RZ LL. apply reps_one in PX, PY, PZ', R, R'.
    assert (RO : reps b s t K [sh_xor x (pack_word K p); sh_xor x' (pack_word K q)] [sh_xor y (pack_word K p2); sh_xor y' (pack_word K q2)] [Z.lxor v u; Z.lxor v' w]).
    { apply (reps_app G i b s t K [_] [_] [_] [_] [_] [_]).
      - apply (reps_xor G i b s t K _ _ _ _ _ _ HK (eq_refl : length [v] = length [u]) R PX).
      - apply (reps_xor G i b s t K _ _ _ _ _ _ HK (eq_refl : length [v'] = length [w]) R' PY). }
    apply duoL_bind. eapply duoL_mono; [|apply (open_L b K _ _ _ s t HK RO)]. intros b1 s1 uv t1 uv' S1 (O1 & O2 & O3 & O4 & O) _.
    apply (reps_stp G i _ _ _ _ _ _ _ _ _ _ S1) in R, R', PX, PY, PZ'. clear RO.
    destruct uv as [|u1 [|v1 [|? ?]]]; try discriminate. destruct uv' as [|u2 [|v2 [|? ?]]]; try discriminate.
    eapply duoL_res; [reflexivity..|]. eapply duoL_res; [reflexivity..|].
    apply duoL_ret. intros b2 S2. apply (reps_stp G i _ _ _ _ _ _ _ _ _ _ S2) in R, R', PX, PY, PZ'. destruct S2 as (_ & _ & _ & B2 & _).
    change (rep b2 s1 t1 K (and_out i (pack_word K r) (x, x', (u1, v1))) (and_out j (pack_word K r2) (y, y', (u2, v2))) (Z.land v v')).
    destruct R as (A1 & A2 & _ & _ & A5), R' as (A1' & A2' & _ & _ & A5'), PZ' as (W1 & W2 & _ & _ & W5).
    inversion A1; subst. inversion A2; subst. inversion A1'; subst. inversion A2'; subst. inversion W1; subst. inversion W2; subst. inversion O1; subst. inversion O2; subst.
    split; [apply and_out_ranged; try assumption; match goal with F : Forall (inr K) [_] |- _ => inversion F; subst; assumption end|]. split; [apply and_out_ranged; try assumption; match goal with F : Forall (inr K) [v2] |- _ => inversion F; subst; assumption end|].
    intros C. destruct (O C) as [?|[EU EV]]; [auto|]. injection EU as -> ->. injection EV as -> ->.
    destruct (A5 C) as [?|(X & HX & X1 & X2)]; [auto|]. destruct (A5' C) as [?|(Y & HY & Y1 & Y2)]; [auto|]. destruct (W5 C) as [?|(Z0 & HZ & Z1 & Z2)]; [auto|].
    destruct PX as (_ & _ & _ & _ & U5), PY as (_ & _ & _ & _ & V5). destruct (U5 C) as [?|(U & HU & _)]; [auto|]. destruct (V5 C) as [?|(V & HV & _)]; [auto|].
    pose proof (and_outs_ok K X [v] Y [v'] U [u] V [w] Z0 HK eq_refl eq_refl eq_refl HX HY HU HV HZ) as HR. cbn [map2] in HR.
    apply RL_inv_cons in HR. destruct HR as (R0 & R1 & ER & HR0 & _). right. exists R0. split; [exact HR0|]. pose proof (ER i) as Ei. pose proof (ER j) as Ej. unfold and_outs in Ei, Ej. rewrite X1, Y1, Z1 in Ei. rewrite X2, Y2, Z2 in Ej. cbn [map2 combine] in Ei, Ej. injection Ei as Ei _. injection Ej as Ej _. auto.
  Qed.
End D.
