(** Honest runs of the malicious ABY3 engine: gates, opening, inputs, set-up, and its contracts. *)
From Verif Require Import Base Ring RingProofs Prog Sched Conc Rng Rel Net BinTrait BitArith BinProofs AddProofs Iris IrisSpec IrisProofs
  Protocol MpcSpec Plain Aby3 ShareSpec Aby3Proofs Aby3Proofs2 SlicedProofs OrProofs EngineProofs Client ApiProofs Jmp JmpProofs Aby3Mal Aby3MalProofs.
From Coq Require Import ZifyBool ZifyNat.

Lemma RL_arith_bin1 X xs : RL (arith_shared 1) X xs -> RL (brel 1) X xs.
Proof. apply RL_mono. intros Y y HY. split; [left; reflexivity|]. apply arith_bin1, HY. Qed.
Lemma RL_bits_range X xs : RL (brel 1) X xs -> Forall (inr 1) xs.
Proof.
  induction 1 as [X HX|X Y X0 y ys HX [_ HY] HR IH]; constructor; [|exact IH]. apply (brel_range 1 Y y); [lia|exact HY].
Qed.
Lemma beaver_and a b x y :
  Z.lxor (Z.lxor (Z.lxor (Z.land x y) (Z.land b (Z.lxor a x))) (Z.land a (Z.lxor b y))) (Z.land (Z.lxor a x) (Z.lxor b y)) = Z.land a b.
Proof. bitsolve. Qed.
Lemma map2_mul_land1 a b : Forall (inr 1) a -> Forall (inr 1) b -> map2 (fun x y => (x * y) mod 2 ^ 1) a b = map2 Z.land a b.
Proof.
  intros Ha. revert b. induction Ha as [|x a Hx Ha IH]; intros b Hb; [reflexivity|]. destruct Hb as [|y b Hy Hb]; [reflexivity|].
  cbn [map2]. rewrite IH, mul_land1 by assumption. reflexivity.
Qed.
Lemma RL_Forall_range K X xs : 0 <= K -> RL (brel K) X xs -> Forall (inr K) xs.
Proof.
  intros HK. induction 1 as [X HX|X Y X0 y ys HX [_ HY] HR IH]; constructor; [|exact IH]. apply (brel_range K Y y); [lia|exact HY].
Qed.

Section Mal.
  Variable G : rng.
  Variable H : hasher.
  Notation ST := (jst G).
  Notation inv := (jmp_inv G).

  Lemma mal_mul_ok K X x Y y (s : pid -> ST) : In K widths -> 40 <= verif_width K - K -> inv s ->
    arith_shared K X x -> arith_shared K Y y ->
    wpM (fun i => mal_mul G H i K (X i) (Y i)) s (fun s' W => inv s' /\ arith_shared K W ((x * y) mod 2 ^ K)).
  Proof.
    intros HK HU Hs HX HY. pose proof (in_widths_pos K HK) as K0. assert (HK0 : 0 <= K) by lia. unfold mal_mul.
    wbind. eapply wpM_mono; [|apply get_mul_triple_ok; assumption]. intros s1 T (Hs1 & a & b & HA & HB & HC).
    apply (wpM_ext (fun i => bindM (reconstruct_many G i K [sh_sub K (X i) (fst (fst (T i))); sh_sub K (Y i) (snd (fst (T i)))])
       (fun uv => bindM (resM (index uv 0)) (fun u => bindM (resM (index uv 1)) (fun v =>
          retM (sh_sub_const i K (sh_add K (sh_add K (snd (T i)) (sh_mulc K (Y i) u)) (sh_mulc K (X i) v)) (rmul K u v))))))).
    { intros i. destruct (T i) as [[? ?] ?]. reflexivity. }
    wbind. eapply wpM_mono; [|apply (reconstruct_many_ok G K _ [(x - a) mod 2 ^ K; (y - b) mod 2 ^ K] s1 HK); [|exact Hs1]].
    2:{ apply (RL_cons' _ (fun i => sh_sub K (X i) (fst (fst (T i))))); [apply sh_sub_ok; assumption|].
        apply (RL_cons' _ (fun i => sh_sub K (Y i) (snd (fst (T i))))); [apply sh_sub_ok; assumption|]. apply RL_nil'. }
    intros s2 uv [Hs2 Huv].
    wbind. apply (wpM_res _ (fun _ => (x - a) mod 2 ^ K)). { intros i. rewrite Huv. reflexivity. }
    wbind. apply (wpM_res _ (fun _ => (y - b) mod 2 ^ K)). { intros i. rewrite Huv. reflexivity. }
    apply wpM_ret. split; [exact Hs2|].
    set (u := (x - a) mod 2 ^ K). set (v := (y - b) mod 2 ^ K).
    replace ((x * y) mod 2 ^ K) with (((((a * b) mod 2 ^ K + (y * u) mod 2 ^ K) mod 2 ^ K + (x * v) mod 2 ^ K) mod 2 ^ K - rmul K u v) mod 2 ^ K).
    { apply (sh_sub_const_ok K HK0), (sh_add_ok K HK0); [apply (sh_add_ok K HK0); [exact HC|]|]; apply (sh_mulc_ok K HK0); assumption. }
    unfold u, v. modring.
  Qed.

  Lemma mal_dot_ok K X xs Y ys (s : pid -> ST) : In K widths -> 40 <= verif_width K - K -> inv s ->
    RL (arith_shared K) X xs -> RL (arith_shared K) Y ys -> length xs = length ys ->
    wpM (fun i => mal_dot G H i K (X i) (Y i)) s (fun s' W => inv s' /\ arith_shared K W (dotp xs ys mod 2 ^ K)).
  Proof.
    intros HK HU Hs HX HY Hl. apply (wpM_ext (fun i => dot_sacrifice G H i K (X i) (Y i))).
    { intros i. unfold mal_dot. rewrite (RL_length _ _ _ HX), (RL_length _ _ _ HY), Hl, Nat.eqb_refl. reflexivity. }
    apply dot_sacrifice_ok; assumption.
  Qed.
  Lemma mal_dot_many_ok K X xs Y ys (s : pid -> ST) : In K widths -> 40 <= verif_width K - K -> inv s ->
    RL (RL (arith_shared K)) X xs -> RL (RL (arith_shared K)) Y ys -> Forall2 (fun x y => length x = length y) xs ys ->
    wpM (fun i => mal_dot_many G H i K (X i) (Y i)) s
      (fun s' W => inv s' /\ RL (arith_shared K) W (map2 (fun x y => dotp x y mod 2 ^ K) xs ys)).
  Proof.
    intros HK HU Hs HX HY Hl. apply (wpM_ext (fun i => dot_sacrifice_many G H i K (X i) (Y i))).
    { intros i. unfold mal_dot_many. rewrite (RL_length _ _ _ HX), (RL_length _ _ _ HY), (Forall2_len _ _ _ Hl), Nat.eqb_refl. reflexivity. }
    apply dot_sacrifice_many_ok; assumption.
  Qed.

  (** *** Binary gates: a bit triple per bit, packed into words *)
  Lemma bit_triples_ok K m (s : pid -> ST) : In K widths -> inv s ->
    wpM (fun i => get_mul_triple_many G H i 1 (Z.to_nat K * m)) s (fun s' T => inv s' /\ exists x y,
      length x = m /\ length y = m /\
      RL (brel K) (fun i => pack K (fst (fst (T i)))) x /\ RL (brel K) (fun i => pack K (snd (fst (T i)))) y /\
      RL (brel K) (fun i => pack K (snd (T i))) (map2 Z.land x y)).
  Proof.
    intros HK Hs. eapply wpM_mono; [|apply get_mul_triple_many_ok; [left; reflexivity|cbn; lia|exact Hs]].
    intros s1 T (Hs1 & a & b & La & Lb & HA & HB & HC). split; [exact Hs1|].
    apply RL_arith_bin1 in HA, HB, HC. pose proof (RL_bits_range _ _ HA) as Fa. pose proof (RL_bits_range _ _ HB) as Fb.
    rewrite map2_mul_land1 in HC by assumption.
    exists (vpack K a), (vpack K b). split; [apply (vpack_length K a m HK La)|]. split; [apply (vpack_length K b m HK Lb)|].
    split; [apply (pack_full_ok K _ a m HK La HA)|]. split; [apply (pack_full_ok K _ b m HK Lb HB)|].
    rewrite <- (vpack_land K a b m) by assumption. apply (pack_full_ok K _ _ m HK); [|exact HC].
    rewrite map2_length_eq; congruence.
  Qed.
  Lemma bit_triple_ok K (s : pid -> ST) : In K widths -> inv s ->
    wpM (fun i => get_mul_triple_many G H i 1 (Z.to_nat K)) s (fun s' T => inv s' /\ exists x y,
      brel K (fun i => pack_word K (fst (fst (T i)))) x /\ brel K (fun i => pack_word K (snd (fst (T i)))) y /\
      brel K (fun i => pack_word K (snd (T i))) (Z.land x y)).
  Proof.
    intros HK Hs. eapply wpM_mono; [|apply get_mul_triple_many_ok; [left; reflexivity|cbn; lia|exact Hs]].
    intros s1 T (Hs1 & a & b & La & Lb & HA & HB & HC). split; [exact Hs1|].
    apply RL_arith_bin1 in HA, HB, HC. pose proof (RL_bits_range _ _ HA) as Fa. pose proof (RL_bits_range _ _ HB) as Fb.
    rewrite map2_mul_land1 in HC by assumption.
    exists (pkf K a), (pkf K b).
    split; [apply (pack_word_full K _ a HK La HA)|]. split; [apply (pack_word_full K _ b HK Lb HB)|].
    rewrite <- (pkf_land K a b) by assumption. apply (pack_word_full K _ _ HK); [|exact HC].
    rewrite map2_length_eq; congruence.
  Qed.

  Lemma mal_and_ok K X x Y y (s : pid -> ST) : In K widths -> inv s -> brel K X x -> brel K Y y ->
    wpM (fun i => mal_and G H i K (X i) (Y i)) s (fun s' W => inv s' /\ brel K W (Z.land x y)).
  Proof.
    intros HK Hs [_ HX] [_ HY]. pose proof (in_widths_pos K HK) as K0. assert (HK0 : 0 <= K) by lia. unfold mal_and.
    wbind. eapply wpM_mono; [|apply bit_triple_ok; assumption]. intros s1 T (Hs1 & a & b & [_ HA] & [_ HB] & [_ HC]).
    apply (wpM_ext (fun i => bindM (reconstruct_binary_many G i K [sh_xor (X i) (pack_word K (fst (fst (T i)))); sh_xor (Y i) (pack_word K (snd (fst (T i))))])
       (fun uv => bindM (resM (index uv 0)) (fun u => bindM (resM (index uv 1)) (fun v =>
          retM (sh_xor_const i (sh_xor (sh_xor (pack_word K (snd (T i))) (sh_andc (Y i) u)) (sh_andc (X i) v)) (rand_ u v))))))).
    { intros i. destruct (T i) as [[? ?] ?]. reflexivity. }
    wbind. eapply wpM_mono; [|apply (reconstruct_binary_many_ok G K _ [Z.lxor x a; Z.lxor y b] s1 HK); [|exact Hs1]].
    2:{ apply (RL_cons' _ (fun i => sh_xor (X i) (pack_word K (fst (fst (T i)))))); [apply sh_xor_ok; assumption|].
        apply (RL_cons' _ (fun i => sh_xor (Y i) (pack_word K (snd (fst (T i)))))); [apply sh_xor_ok; assumption|]. apply RL_nil'. }
    intros s2 uv [Hs2 Huv].
    wbind. apply (wpM_res _ (fun _ => Z.lxor x a)). { intros i. rewrite Huv. reflexivity. }
    wbind. apply (wpM_res _ (fun _ => Z.lxor y b)). { intros i. rewrite Huv. reflexivity. }
    apply wpM_ret. split; [exact Hs2|]. split; [exact HK|].
    pose proof (brel_range K X x HK0 HX). pose proof (brel_range K Y y HK0 HY).
    pose proof (brel_range K _ a HK0 HA). pose proof (brel_range K _ b HK0 HB).
    rewrite <- (beaver_and x y a b). unfold rand_.
    apply (sh_xor_const_ok K HK0); [apply inr_land; auto; apply inr_lxor; auto|].
    apply (sh_xor_ok K HK0); [apply (sh_xor_ok K HK0); [exact HC|]|]; apply (sh_andc_ok K HK0); try assumption; apply inr_lxor; auto.
  Qed.

  Lemma mal_and_many_ok K X xs Y ys (s : pid -> ST) : In K widths -> inv s -> RL (brel K) X xs -> RL (brel K) Y ys -> length xs = length ys ->
    wpM (fun i => mal_and_many G H i K (X i) (Y i)) s (fun s' W => inv s' /\ RL (brel K) W (map2 Z.land xs ys)).
  Proof.
    intros HK Hs HX HY Hl. pose proof (in_widths_pos K HK) as K0. assert (HK0 : 0 <= K) by lia. unfold mal_and_many.
    pose (g := fun (i : pid) (z : share) (abuv : share * share * (Z * Z)) => let '(ab, uv) := abuv in
                    sh_xor_const i (sh_xor (sh_xor z (sh_andc (snd ab) (fst uv))) (sh_andc (fst ab) (snd uv)))
                      (rand_ (fst uv) (snd uv))).
    apply (wpM_ext (fun i => bindM (get_mul_triple_many G H i 1 (Z.to_nat K * length xs)) (fun t => let '(x, y, z) := t in
       bindM (reconstruct_binary_many G i K (map2 sh_xor (X i) (pack K x) ++ map2 sh_xor (Y i) (pack K y)))
        (fun uv => retM (map2 (g i) (pack K z) (combine (combine (X i) (Y i)) (combine (firstn (length xs) uv) (skipn (length xs) uv)))))))).
    { intros i. rewrite (RL_length _ _ _ HX), (RL_length _ _ _ HY), Hl, Nat.eqb_refl. reflexivity. }
    wbind. eapply wpM_mono; [|apply bit_triples_ok; assumption]. intros s1 T (Hs1 & a & b & La & Lb & HA & HB & HC).
    apply (wpM_ext (fun i => bindM (reconstruct_binary_many G i K (map2 sh_xor (X i) (pack K (fst (fst (T i)))) ++ map2 sh_xor (Y i) (pack K (snd (fst (T i))))))
       (fun uv => retM (map2 (g i) (pack K (snd (T i))) (combine (combine (X i) (Y i)) (combine (firstn (length xs) uv) (skipn (length xs) uv))))))).
    { intros i. destruct (T i) as [[? ?] ?]. reflexivity. }
    assert (HXA : RL (bin_shared K) (fun i => map2 sh_xor (X i) (pack K (fst (fst (T i))))) (map2 Z.lxor xs a)).
    { apply (RL_map2 (brel K) (brel K) (bin_shared K) (fun _ => sh_xor)); auto. intros P p P' p' [_ HP] [_ HP']. apply (sh_xor_ok K HK0); assumption. }
    assert (HYB : RL (bin_shared K) (fun i => map2 sh_xor (Y i) (pack K (snd (fst (T i))))) (map2 Z.lxor ys b)).
    { apply (RL_map2 (brel K) (brel K) (bin_shared K) (fun _ => sh_xor)); auto. intros P p P' p' [_ HP] [_ HP']. apply (sh_xor_ok K HK0); assumption. }
    wbind. eapply wpM_mono; [|apply (reconstruct_binary_many_ok G K _ _ s1 HK (RL_app _ _ _ _ _ HXA HYB) Hs1)].
    intros s2 uv [Hs2 Huv]. apply wpM_ret. split; [exact Hs2|].
    assert (Lxa : length (map2 Z.lxor xs a) = length xs) by (apply map2_length_eq; congruence).
    pose proof (RL_Forall_range K _ _ HK0 HX) as Fx. pose proof (RL_Forall_range K _ _ HK0 HY) as Fy.
    pose proof (RL_Forall_range K _ _ HK0 HA) as Fa. pose proof (RL_Forall_range K _ _ HK0 HB) as Fb.
    assert (Fu : Forall (inr K) (map2 Z.lxor xs a)).
    { clear -Fx Fa HK0. revert a Fa. induction Fx; intros [|? ?] Fa; cbn; constructor; inversion Fa; subst; auto. apply inr_lxor; auto. }
    assert (Fv : Forall (inr K) (map2 Z.lxor ys b)).
    { clear -Fy Fb HK0. revert b Fb. induction Fy; intros [|? ?] Fb; cbn; constructor; inversion Fb; subst; auto. apply inr_lxor; auto. }
    assert (E1 : forall i, firstn (length xs) (uv i) = map2 Z.lxor xs a) by (intros i; rewrite Huv, <- Lxa; apply firstn_length_app).
    assert (E2 : forall i, skipn (length xs) (uv i) = map2 Z.lxor ys b) by (intros i; rewrite Huv, <- Lxa; apply skipn_length_app).
    assert (PU : RL (fun P (p : Z) => public P p /\ inr K p) (fun i => firstn (length xs) (uv i)) (map2 Z.lxor xs a)).
    { apply (RL_ext _ (fun _ => map2 Z.lxor xs a)); [intros i; rewrite E1; reflexivity|]. clear -Fu. induction Fu; [apply RL_nil'|].
      apply (RL_cons' _ (fun _ => x)); [split; [intros i; reflexivity|assumption]|assumption]. }
    assert (PV : RL (fun P (p : Z) => public P p /\ inr K p) (fun i => skipn (length xs) (uv i)) (map2 Z.lxor ys b)).
    { apply (RL_ext _ (fun _ => map2 Z.lxor ys b)); [intros i; rewrite E2; reflexivity|]. clear -Fv. induction Fv; [apply RL_nil'|].
      apply (RL_cons' _ (fun _ => x)); [split; [intros i; reflexivity|assumption]|assumption]. }
    pose proof (RL_combine _ _ _ _ _ _ (RL_combine _ _ _ _ _ _ HX HY) (RL_combine _ _ _ _ _ _ PU PV)) as HQ.
    pose (gz := fun z (abuv : Z * Z * (Z * Z)) => Z.lxor (Z.lxor (Z.lxor z (Z.land (snd (fst abuv)) (fst (snd abuv)))) (Z.land (fst (fst abuv)) (snd (snd abuv))))
        (Z.land (fst (snd abuv)) (snd (snd abuv)))).
    replace (map2 Z.land xs ys) with (map2 gz (map2 Z.land a b) (combine (combine xs ys) (combine (map2 Z.lxor xs a) (map2 Z.lxor ys b)))).
    - apply (RL_map2 _ _ (brel K) g gz) with (2 := HC) (3 := HQ).
      intros C c P [[p q] [u v]] [_ HC0] [[[_ HP1] [_ HP2]] [[HU0 HU1] [HV0 HV1]]]. cbn [fst snd] in *. split; [exact HK|]. unfold gz. cbn [fst snd].
      apply (brel_ext K (fun i => sh_xor_const i (sh_xor (sh_xor (C i) (sh_andc (snd (fst (P i))) u)) (sh_andc (fst (fst (P i))) v)) (rand_ u v))).
      { intros i. unfold g. specialize (HU0 i). specialize (HV0 i). cbn beta in *. destruct (P i) as [[? ?] [? ?]]. cbn [fst snd] in *. subst. reflexivity. }
      apply (sh_xor_const_ok K HK0); [apply inr_land; auto|].
      apply (sh_xor_ok K HK0); [apply (sh_xor_ok K HK0); [exact HC0|]|]; apply (sh_andc_ok K HK0); assumption.
    - clear -La Lb Hl. revert ys a b Hl La Lb. induction xs as [|x xs IH]; intros [|y ys] [|p a] [|q b] Hl La Lb; try discriminate; [reflexivity|].
      cbn [map2 combine]. rewrite IH by (injection Hl; injection La; injection Lb; auto). f_equal. apply beaver_and.
  Qed.

  Lemma mal_bin_ok : bin_ok (fun i K => mal_bin G H i K) brel (fun (_ : unit) s => inv s) (fun _ _ g => g).
  Proof.
    constructor.
    - reflexivity.
    - intros K X x [HK HX]. eapply brel_range; [|exact HX]. apply in_widths_pos in HK. lia.
    - intros K X X' x E [HK HX]. split; [exact HK|]. eapply brel_ext; eassumption.
    - intros K X x Y y HK [_ HX] [_ HY]. split; [exact HK|]. apply sh_xor_ok; auto. apply in_widths_pos in HK. lia.
    - intros K X x n HK [_ HX] Hn. split; [exact HK|]. apply sh_shl_ok; auto. apply in_widths_pos in HK. lia.
    - intros. apply mal_and_ok; assumption.
    - intros. apply mal_and_many_ok; assumption.
  Qed.

  Lemma mal_a2b_ok K X x (s : pid -> ST) : In K widths -> inv s -> arith_shared K X x ->
    wpM (fun i => mal_a2b G H i K (X i)) s (fun s' W => inv s' /\ brel K W x).
  Proof.
    intros HK Hs HX. destruct (a2b_pre_ok K X x HK HX) as (x1 & x2 & x3 & H1 & H2 & H3 & E).
    apply (wpM_ext (fun i => binary_add_3 (mal_bin G H i K) (fst (fst (a2b_pre i (X i)))) (snd (fst (a2b_pre i (X i)))) (snd (a2b_pre i (X i))))).
    { intros i. unfold mal_a2b. destruct (a2b_pre i (X i)) as [[u v] w]. reflexivity. }
    eapply wpM_mono; [|apply (binary_add_3_ok _ _ _ _ mal_bin_ok K HK tt s _ x1 _ x2 _ x3 Hs H1 H2 H3)].
    intros s' W [Hs' HW]. rewrite E in HW. split; [exact Hs'|apply HW].
  Qed.
  Lemma mal_a2b_many_ok K X xs (s : pid -> ST) : In K widths -> inv s -> RL (arith_shared K) X xs ->
    wpM (fun i => mal_a2b_many G H i K (X i)) s (fun s' W => inv s' /\ RL (brel K) W xs).
  Proof.
    intros HK Hs HX. destruct (a2b_pre_many_ok K X xs HK HX) as (x1 & x2 & x3 & H1 & H2 & H3 & E & L1 & L2 & L3).
    unfold mal_a2b_many.
    eapply wpM_mono; [|apply (binary_add_3_many_ok _ _ _ _ mal_bin_ok K HK tt s _ x1 _ x2 _ x3 Hs H1 H2 H3); congruence].
    intros s' W [Hs' HW]. rewrite E in HW. split; [exact Hs'|exact HW].
  Qed.
  Lemma mal_get_msb_ok K X x (s : pid -> ST) : In K widths -> inv s -> arith_shared K X x ->
    wpM (fun i => mal_get_msb G H i K (X i)) s (fun s' W => inv s' /\ aby3_bit W (Z.testbit x (K - 1))).
  Proof.
    intros HK Hs HX. unfold mal_get_msb. wbind. eapply wpM_mono; [|apply mal_a2b_ok; eassumption].
    intros s' W [Hs' [_ HW]]. apply wpM_ret. split; [exact Hs'|]. apply sh_get_msb_ok; assumption.
  Qed.
  Lemma mal_get_msb_many_ok K X xs (s : pid -> ST) : In K widths -> inv s -> RL (arith_shared K) X xs ->
    wpM (fun i => mal_get_msb_many G H i K (X i)) s (fun s' W => inv s' /\ RL aby3_bit W (map (fun x => Z.testbit x (K - 1)) xs)).
  Proof.
    intros HK Hs HX. unfold mal_get_msb_many. wbind. eapply wpM_mono; [|apply mal_a2b_many_ok; eassumption].
    intros s' W [Hs' HW]. apply wpM_ret. split; [exact Hs'|].
    apply (RL_map (brel K) aby3_bit (fun _ => sh_get_msb K)); [|exact HW]. intros Y y [_ HY]. apply sh_get_msb_ok; assumption.
  Qed.
  Lemma orl_b2z bs : orl (map Z.b2z bs) = Z.b2z (existsb (fun b => b) bs).
  Proof.
    induction bs as [|b bs IH]; [reflexivity|]. cbn [map existsb]. unfold orl in *. cbn [fold_right]. rewrite IH. apply or_b2z.
  Qed.
  Lemma mal_reduce_or_ok X bs chunk (s : pid -> ST) : inv s -> (0 < chunk)%nat -> (0 < length bs)%nat -> RL aby3_bit X bs ->
    wpM (fun i => mal_reduce_binary_or G H i (X i) chunk) s (fun s' W => inv s' /\ aby3_bit W (existsb (fun b => b) bs)).
  Proof.
    intros Hs Hc Hl HX. apply RL_bits in HX. apply RL_brel in HX; [|left; reflexivity]. unfold mal_reduce_binary_or.
    eapply wpM_mono; [|apply (or_tree_ok _ _ _ _ mal_bin_ok 1 (or_introl eq_refl) (chunk * 128) X _ tt s) with (4 := HX); [lia| |exact Hs]].
    - intros s' W [Hs' [_ HW]]. split; [exact Hs'|]. rewrite orl_b2z in HW. exact HW.
    - rewrite map_length. exact Hl.
  Qed.

  (** *** Opening: verification of everything received, then a verified exchange *)
  Lemma mal_open_ok K X x (s : pid -> ST) : In K widths -> inv s -> arith_shared K X x ->
    wpM (fun i => mal_open G H i K (X i)) s (fun s' v => inv s' /\ forall i, v i = x).
  Proof.
    intros HK Hs (A1 & A2 & A3). unfold mal_open.
    wbind. eapply wpM_mono; [|apply (jmp_verify_ok G H s Hs)]. intros s1 ? [Hs1 _].
    wbind. eapply wpM_mono; [|apply (jmp_send_receive_ok G K (fun i => sb (X i)) (fun i => sa (X i)) s1 HK); auto].
    - intros s2 v [Hs2 Hv]. wbind. eapply wpM_mono; [|apply (jmp_verify_ok G H s2 Hs2)]. intros s3 ? [Hs3 _].
      apply wpM_ret. split; [exact Hs3|]. intros i. rewrite Hv, !A2, prev_prev. subst x. destruct i; cbn [prev next]; modring.
    - intros i. cbn beta. rewrite A2. apply A1.
    - intros i. cbn beta. rewrite A2, prev_prev. reflexivity.
  Qed.
  Lemma mal_open_many_ok K X xs (s : pid -> ST) : In K widths -> inv s -> RL (arith_shared K) X xs ->
    wpM (fun i => mal_open_many G H i K (X i)) s (fun s' v => inv s' /\ forall i, v i = xs).
  Proof.
    intros HK Hs HX. destruct (arel_cols _ _ _ HX) as (C1 & C2 & C3). unfold mal_open_many.
    wbind. eapply wpM_mono; [|apply (jmp_verify_ok G H s Hs)]. intros s1 ? [Hs1 _].
    wbind. eapply wpM_mono; [|apply (jmp_send_receive_many_ok G K (fun i => map sb (X i)) (fun i => map sa (X i)) (length xs) s1 HK); auto].
    - intros s2 v [Hs2 Hv]. wbind. eapply wpM_mono; [|apply (jmp_verify_ok G H s2 Hs2)]. intros s3 ? [Hs3 _].
      apply wpM_ret. split; [exact Hs3|]. intros i. rewrite Hv. apply (open_cols_a K), HX.
    - intros i. cbn beta. rewrite C2. apply C1.
    - intros i. rewrite map_length. apply C3.
    - intros i. cbn beta. rewrite C2, prev_prev. reflexivity.
  Qed.
  Lemma mal_open_bit_many_ok X bs (s : pid -> ST) : inv s -> RL aby3_bit X bs ->
    wpM (fun i => mal_open_bit_many G H i (X i)) s (fun s' v => inv s' /\ forall i, v i = bs).
  Proof.
    intros Hs HX. apply RL_bits in HX. destruct (brel_cols _ _ _ HX) as (C1 & C2 & C3). unfold mal_open_bit_many.
    wbind. eapply wpM_mono; [|apply (jmp_verify_ok G H s Hs)]. intros s1 ? [Hs1 _].
    wbind. eapply wpM_mono; [|apply (jmp_send_receive_many_ok G 1 (fun i => map sb (X i)) (fun i => map sa (X i)) (length (map Z.b2z bs)) s1 (or_introl eq_refl)); auto].
    - intros s2 v [Hs2 Hv]. wbind. eapply wpM_mono; [|apply (jmp_verify_ok G H s2 Hs2)]. intros s3 ? [Hs3 _].
      apply wpM_ret. split; [exact Hs3|]. intros i. rewrite Hv.
      pose proof (open_cols_b 1 X _ HX i) as E.
      replace (map2 (fun s c => rxor (rxor c (sa s)) (sb s) =? 1) (X i) (map sb (X (prev i)))) with
        (map (fun z => z =? 1) (map2 (fun s c => rxor (rxor c (sa s)) (sb s)) (X i) (map sb (X (prev i))))).
      { rewrite E, map_map. rewrite <- (map_id bs) at 2. apply map_ext. intros []; reflexivity. }
      generalize (X i) as l. intros l. generalize (map sb (X (prev i))) as l'. induction l as [|? l IH]; intros [|? l']; cbn; try reflexivity. rewrite IH. reflexivity.
    - intros i. cbn beta. rewrite C2. apply C1.
    - intros i. rewrite map_length. apply C3.
    - intros i. cbn beta. rewrite C2, prev_prev. reflexivity.
  Qed.
  Lemma mal_open_bit_ok X b (s : pid -> ST) : inv s -> aby3_bit X b ->
    wpM (fun i => mal_open_bit G H i (X i)) s (fun s' v => inv s' /\ forall i, v i = b).
  Proof.
    intros Hs (A1 & A2 & A3). unfold mal_open_bit.
    wbind. eapply wpM_mono; [|apply (jmp_verify_ok G H s Hs)]. intros s1 ? [Hs1 _].
    wbind. eapply wpM_mono; [|apply (jmp_send_receive_ok G 1 (fun i => sb (X i)) (fun i => sa (X i)) s1 (or_introl eq_refl)); auto].
    - intros s2 v [Hs2 Hv]. wbind. eapply wpM_mono; [|apply (jmp_verify_ok G H s2 Hs2)]. intros s3 ? [Hs3 _].
      apply wpM_ret. split; [exact Hs3|]. intros i. rewrite Hv, !A2, prev_prev. unfold rxor.
      replace (Z.lxor (Z.lxor (sa (X i)) (sa (X (prev i)))) (sa (X (next i)))) with (Z.b2z b).
      { destruct b; reflexivity. }
      rewrite A3. destruct i; cbn [prev next]; bitsolve.
    - intros i. cbn beta. rewrite A2. apply A1.
    - intros i. cbn beta. rewrite A2, prev_prev. reflexivity.
  Qed.

  (** *** Input *)
  Lemma mal_input_ok K (v : pid -> option Z) p x (s : pid -> ST) : In K widths -> inr K x -> v p = Some x -> inv s ->
    wpM (fun i => mal_input G i K (v i) (pid_num p)) s (fun s' W => inv s' /\ arith_shared K W x).
  Proof.
    intros HK Hx Hv Hs. assert (HK0 : 0 <= K) by (apply in_widths_pos in HK; lia).
    unfold mal_input.
    match goal with |- wpM (fun i => if _ then _ else bindM (@?P i) (@?F i)) _ _ => apply (wpM_ext (fun i => bindM (P i) (F i))) end.
    { intros i. replace (3 <=? pid_num p) with false by (destruct p; reflexivity). reflexivity. }
    wbind. eapply wpM_mono; [|apply gen_rand_mal_ok; [exact HK0|exact Hs]]. cbn beta. intros s1 X (Hs1 & r & A1 & A2 & A3).
    assert (F : forall z, inr K z -> from_bytes K (to_bytes K z) = Ok z) by (intros; apply from_to_bytes; assumption).
    assert (B1 : forall i, inr K (sb (X i))) by (intros i; rewrite A2; apply A1).
    unfold wpM. apply wp_cwp.
    destruct p; cbn [pid_num next prev reconstruct_id Z.leb Z.eqb Z.compare Pos.compare Pos.compare_cont Z.add Pos.add Z.modulo Z.div_eucl Pos.eqb]; rewrite Hv.
    all: cbv [bindM retM liftM reconstruct_id jmp_receive jmp_send jmp_buffer send_value receive_value pid_num next prev getM putM failM resM].
    all: cbn -[to_bytes from_bytes radd rsub add_to_bytes cwp].
    all: assert (IV : forall o, inr K (rsub K x o)) by (intros o; apply (inr_mod K _ HK0)).
    all: repeat (cstep; qnorm; cbv beta; rewrite ?F by auto; cbn -[to_bytes from_bytes radd rsub add_to_bytes cwp]; rewrite ?Z.eqb_refl;
                 cbn -[to_bytes from_bytes radd rsub add_to_bytes cwp]).
    all: eapply (cwp_ret _ _ _ _ (fun i => match i with P0 => _ | P1 => _ | P2 => _ end)); try reflexivity.
    all: destruct Hs1 as [Hp Hq]; split; [split; [intros i; destruct i; cbn; apply Hp|
       intros i; destruct i; cbn [fst j_rcv j_snd next]; rewrite ?Hq, ?A2; reflexivity]|].
    all: split; [intros i; destruct i; cbn [snd sa sb]; auto; apply (inr_mod K _ HK0)|].
    all: split; [intros i; destruct i; cbn [snd sa sb prev]; rewrite ?A2; reflexivity|].
    all: cbn [snd sa sb]; rewrite !A2; cbn [prev].
    all: rewrite <- (Z.mod_small x (2 ^ K)) at 1 by exact Hx; modring.
  Qed.

  (** *** Key set-up: commit to two seeds, open them, combine them with the neighbours' *)
  Lemma bytes_id l : Forall (inr 8) l -> ring_slice_to_bytes 8 l = l.
  Proof.
    intros HF. rewrite ring_slice_to_bytes_eq. induction HF as [|x l Hx HF IH]; [reflexivity|]. cbn [map concat]. rewrite IH.
    rewrite to_bytes_eq. unfold inr in Hx. change (nbytes 8) with 1%nat. cbn [to_be app]. rewrite Z.mod_small by exact Hx. reflexivity.
  Qed.
  Lemma wp_two_way (m1 m2 : pid -> msg) (Q : (pid -> msg * msg) -> Prop) :
    Q (fun i => (m2 (next i), m1 (prev i))) ->
    wp (fun i => Send (next i) (m1 i) (Send (prev i) (m2 i) (Recv (next i) (fun a => Recv (prev i) (fun b => Ret (a, b)))))) Q.
  Proof.
    intros HQ. apply wp_cwp. cbn [prev next]. crun. eapply cwp_ret; [..|exact HQ]; reflexivity.
  Qed.

  Lemma setup_prf_mal_ok (sd1 sd2 rd1 rd2 : pid -> list Z) (s : pid -> ST) :
    (forall i, length (sd1 i) = 32%nat /\ length (sd2 i) = 32%nat /\ length (rd1 i) = 32%nat /\ length (rd2 i) = 32%nat) ->
    (forall i, Forall (inr 8) (sd1 i) /\ Forall (inr 8) (sd2 i)) ->
    (forall i, j_rcv G (s i) = j_snd G (s (next i))) ->
    wpM (fun i => setup_prf_mal G H i (sd1 i) (sd2 i) (rd1 i) (rd2 i)) s
      (fun s' _ => inv s' /\ forall i, my_prf G (j_prf G (s' i)) = rseed G (map2 Z.lxor (sd1 i) (sd2 (next i)))).
  Proof.
    intros HL HR Hq. unfold setup_prf_mal.
    assert (L1 : forall i, length (sd1 i) = 32%nat) by (intros; apply HL). assert (L2 : forall i, length (sd2 i) = 32%nat) by (intros; apply HL).
    assert (L3 : forall i, length (rd1 i) = 32%nat) by (intros; apply HL). assert (L4 : forall i, length (rd2 i) = 32%nat) by (intros; apply HL).
    assert (B1 : forall i, ring_slice_to_bytes 8 (sd1 i) = sd1 i) by (intros; apply bytes_id, HR).
    assert (B2 : forall i, ring_slice_to_bytes 8 (sd2 i) = sd2 i) by (intros; apply bytes_id, HR).
    cbn [c_open commit_with_rand o_values o_rand c_values c_rand c_comm].
    wbind. apply wpM_lift. apply wp_two_way. cbn [fst snd].
    match goal with |- wpM (fun i => if @?C i then _ else bindM (@?P i) (@?F i)) _ _ => apply (wpM_ext (fun i => bindM (P i) (F i))) end.
    { intros i. rewrite !(hlen H). reflexivity. }
    wbind. apply wpM_lift.
    apply (wp_two_way (fun i => ring_slice_to_bytes 8 (sd1 i) ++ rd1 i) (fun i => ring_slice_to_bytes 8 (sd2 i) ++ rd2 i)). cbn [fst snd].
    apply (wpM_ext (fun i => bindM getM (fun t => putM (JSt G (prf_new G (map2 (fun a b => rxor b a) (sd1 i) (sd2 (next i)))
        (map2 (fun a b => rxor b a) (sd2 i) (sd1 (prev i)))) (j_snd G t) (j_rcv G t) (j_log G t))))).
    { intros i. rewrite !B1, !B2, !app_length, !L1, !L2, !L3, !L4. cbn [Nat.add Nat.eqb negb orb].
      replace (firstn 32 (sd2 (next i) ++ rd2 (next i))) with (sd2 (next i)) by (rewrite <- (L2 (next i)), firstn_length_app; reflexivity).
      replace (skipn 32 (sd2 (next i) ++ rd2 (next i))) with (rd2 (next i)) by (rewrite <- (L2 (next i)), skipn_length_app; reflexivity).
      replace (firstn 32 (sd1 (prev i) ++ rd1 (prev i))) with (sd1 (prev i)) by (rewrite <- (L1 (prev i)), firstn_length_app; reflexivity).
      replace (skipn 32 (sd1 (prev i) ++ rd1 (prev i))) with (rd1 (prev i)) by (rewrite <- (L1 (prev i)), skipn_length_app; reflexivity).
      unfold o_verify. cbn [o_values o_rand]. rewrite !B1, !B2, !bytes_eqb_refl. reflexivity. }
    assert (XC : forall a b, map2 (fun x y => rxor y x) a b = map2 Z.lxor a b).
    { intros a. induction a as [|x a IH]; intros [|y b]; cbn; try reflexivity. rewrite IH, (Z.lxor_comm y x : rxor y x = _). reflexivity. }
    assert (XC' : forall a b, map2 Z.lxor a b = map2 Z.lxor b a).
    { intros a. induction a as [|x a IH]; intros [|y b]; cbn; try reflexivity. rewrite IH, Z.lxor_comm. reflexivity. }
    wbind. apply wpM_get.
    apply (wpM_put s (fun i => JSt G (prf_new G (map2 (fun a b => rxor b a) (sd1 i) (sd2 (next i)))
        (map2 (fun a b => rxor b a) (sd2 i) (sd1 (prev i)))) (j_snd G (s i)) (j_rcv G (s i)) (j_log G (s i)))). 
    split; [split|].
    - intros i. cbn. rewrite !XC, XC'. f_equal. f_equal. destruct i; reflexivity.
    - intros i. cbn. apply Hq.
    - intros i. cbn. rewrite XC. reflexivity.
  Qed.
End Mal.

(** *** The contracts *)
Section Contracts.
  Variables (G : rng) (H : hasher) (K : Z).
  Hypothesis (HW : In K widths) (HU : 40 <= verif_width K - K).
  Let HK : 0 <= K. Proof. apply in_widths_pos in HW. lia. Qed.

  Lemma mal_mpc_ok : 3 <= K -> mpc_ok (fun i => mal_engine G H i K) K (arith_shared K) aby3_bit (fun (_ : unit) s => jmp_inv G s)
    (fun _ g => g) (fun _ g => g) (fun _ g => g) (fun _ _ g => g) (fun _ => True) (fun g => g).
  Proof using HW HU.
    intros HK3. constructor; cbn [mal_engine m_K m_precompute m_masked_dot_many m_filter_reduce_add_twice m_add m_sub m_mul_const m_sub_const m_get_msb_many m_reduce_binary_or m_verify m_open_bit].
    - reflexivity.
    - intros g s n Hs. apply wpM_ret. exact Hs.
    - intros g s X xs Y yss masks Hs HX HY Lx Ly Hm Hl Hlm.
      apply (default_masked_dot_many_ok (arith_shared K)) with (Inv := fun (_ : unit) s => jmp_inv G s) (g_dot := fun _ g => g) (zero := fun _ => szero) (g := g); try assumption.
      + intros; eapply arel_ext; eassumption.
      + apply szero_arel, HK.
      + intros g0 s0 X0 xs0 Y0 ys0 Hs0 HX0 HY0 HF _. apply mal_dot_many_ok; try assumption.
        clear - HF. induction HF as [|? ? ? ? [E1 E2] ? IH]; constructor; [congruence|assumption].
    - intros X xs Y ys m HX HY Lx Ly _ _ Hm. apply aby3_filter_ok; assumption.
    - intros. apply sh_add_ok; assumption.
    - intros. apply sh_sub_ok; assumption.
    - intros. apply sh_mulc_ok; assumption.
    - intros. apply sh_sub_const_ok; assumption.
    - intros g s X xs Hs Hl HX. apply mal_get_msb_many_ok; assumption.
    - intros g s X bs chunk Hs Hc Hl HX. apply mal_reduce_or_ok; assumption.
    - intros g s Hs _. apply wpM_ret. exact Hs.
    - intros g s X b Hs HX. apply mal_open_bit_ok; assumption.
  Qed.

  Lemma mal_api_ok : api_ok (fun i => mal_api G H i K) K (arith_shared K) aby3_bit (fun s => jmp_inv G s).
  Proof using HW HU.
    constructor; cbn [mal_api mal_engine m_add m_sub m_mul_const m_sub_const m_get_msb_many m_reduce_binary_or m_open_bit a_mpc a_input a_open a_open_many a_open_bit_many a_add_const a_mul a_dot a_dot_many a_get_msb a_binary_or].
    - intros X x HX. apply (arel_range K X x HK HX).
    - intros. eapply arel_ext; eassumption.
    - intros. eapply brel_ext; eassumption.
    - intros s p x v Hs Hx Hv. apply mal_input_ok; assumption.
    - intros. apply mal_open_ok; assumption.
    - intros. apply mal_open_many_ok; assumption.
    - intros. apply mal_open_bit_ok; assumption.
    - intros. apply mal_open_bit_many_ok; assumption.
    - intros. apply sh_add_ok; assumption.
    - intros. apply sh_sub_ok; assumption.
    - intros. apply sh_mulc_ok; assumption.
    - intros. apply sh_add_const_ok; assumption.
    - intros. apply sh_sub_const_ok; assumption.
    - intros. apply mal_mul_ok; assumption.
    - intros. apply mal_dot_ok; assumption.
    - intros s X xs Y ys Hs HX HY HF _. apply mal_dot_many_ok; try assumption.
      clear - HF. induction HF as [|a b l l' [E1 E2] ? IH]; constructor; assumption.
    - intros. apply mal_get_msb_ok; assumption.
    - intros. apply mal_get_msb_many_ok; assumption.
    - intros s X x Y y Hs HX HY.
      eapply wpM_mono; [|eapply (or_ok _ _ _ _ (mal_bin_ok G H) 1 (or_introl eq_refl) tt s X _ Y _ Hs); (split; [left; reflexivity|eassumption])].
      intros s' W [Hs' [_ HWs]]. split; [exact Hs'|]. unfold aby3_bit. rewrite <- or_b2z. exact HWs.
    - intros s X bs ch Hs Hc Hl HX. apply mal_reduce_or_ok; assumption.
  Qed.
End Contracts.
