(** Plain integer facts behind the adders. *)
From Verif Require Import Base Ring RingProofs BinTrait IrisProofs.

Lemma in_widths_cases K : In K widths -> K = 1 \/ K = 8 \/ K = 16 \/ K = 32 \/ K = 64 \/ K = 128.
Proof. unfold widths. simpl. intuition lia. Qed.
Lemma in_widths_pos K : In K widths -> 0 < K.
Proof. intros H. apply in_widths_cases in H. lia. Qed.

Lemma inr_lxor K a b : 0 <= K -> inr K a -> inr K b -> inr K (Z.lxor a b).
Proof. unfold inr. intros. apply lxor_range; assumption. Qed.
Lemma inr_land K a b : 0 <= K -> inr K a -> inr K b -> inr K (Z.land a b).
Proof. unfold inr. intros. apply land_range; assumption. Qed.
Lemma inr_lor K a b : 0 <= K -> inr K a -> inr K b -> inr K (Z.lor a b).
Proof. unfold inr. intros. apply lor_range; assumption. Qed.
Lemma inr_norm K a : 0 <= K -> inr K (norm K a).
Proof. intros H. unfold inr, norm. apply Z.mod_pos_bound. apply Z.pow_pos_nonneg; lia. Qed.
Lemma norm_inr K a : inr K a -> norm K a = a.
Proof. intros H. apply Z.mod_small, H. Qed.

Lemma inr_bits_eq K a b : 0 <= K -> inr K a -> inr K b ->
  (forall n, 0 <= n < K -> Z.testbit a n = Z.testbit b n) -> a = b.
Proof.
  intros HK Ha Hb H. apply Z.bits_inj'. intros n Hn. destruct (Z.lt_ge_cases n K).
  - apply H. lia.
  - rewrite (bits_range a K n), (bits_range b K n) by (unfold inr in *; lia). reflexivity.
Qed.

(** x + y = (x xor y) + 2 (x and y) *)
Lemma add_lxor_land x y : 0 <= x -> 0 <= y -> x + y = Z.lxor x y + 2 * Z.land x y.
Proof.
  assert (H : forall n x y, 0 <= x < 2 ^ Z.of_nat n -> 0 <= y < 2 ^ Z.of_nat n -> x + y = Z.lxor x y + 2 * Z.land x y).
  { induction n as [|n IH]; intros a b Ha Hb.
    - change (2 ^ Z.of_nat 0) with 1 in *. replace a with 0 by lia. replace b with 0 by lia. reflexivity.
    - rewrite Nat2Z.inj_succ, Z.pow_succ_r in Ha, Hb by lia.
      assert (Hd : forall z, z = 2 * (z / 2) + Z.b2z (Z.odd z)).
      { intros z. rewrite (Z.div_mod z 2) at 1 by lia. rewrite Zmod_odd. destruct (Z.odd z); reflexivity. }
      rewrite (Hd a) at 1. rewrite (Hd b) at 1. rewrite (Hd (Z.lxor a b)), (Hd (Z.land a b)).
      assert (E1 : Z.lxor a b / 2 = Z.lxor (a / 2) (b / 2)).
      { rewrite <- !Z.div2_div, !Z.div2_spec. apply Z.shiftr_lxor. }
      assert (E2 : Z.land a b / 2 = Z.land (a / 2) (b / 2)).
      { rewrite <- !Z.div2_div, !Z.div2_spec. apply Z.shiftr_land. }
      rewrite E1, E2, <- !Z.bit0_odd, Z.lxor_spec, Z.land_spec, !Z.bit0_odd.
      specialize (IH (a / 2) (b / 2)).
      assert (0 <= a / 2 < 2 ^ Z.of_nat n) by (split; [apply Z.div_pos; lia|apply Z.div_lt_upper_bound; lia]).
      assert (0 <= b / 2 < 2 ^ Z.of_nat n) by (split; [apply Z.div_pos; lia|apply Z.div_lt_upper_bound; lia]).
      specialize (IH ltac:(assumption) ltac:(assumption)).
      destruct (Z.odd a), (Z.odd b); cbn [xorb andb Z.b2z]; lia. }
  intros Hx Hy. apply (H (Z.to_nat (Z.max x y))).
  - split; [lia|]. rewrite Z2Nat.id by lia. pose proof (Z.pow_gt_lin_r 2 (Z.max x y)). lia.
  - split; [lia|]. rewrite Z2Nat.id by lia. pose proof (Z.pow_gt_lin_r 2 (Z.max x y)). lia.
Qed.

(** The full adder of binary_add_3 / msb_adder_many. *)
Definition maj3 (x1 x2 x3 : Z) : Z := Z.lxor (Z.land (Z.lxor x1 x3) (Z.lxor x2 x3)) x3.
Definition sum3 (x1 x2 x3 : Z) : Z := Z.lxor x1 (Z.lxor x2 x3).
Definition majb (a b c : bool) : bool := xorb (xorb a c && xorb b c) c.
Lemma maj3_spec x1 x2 x3 n : Z.testbit (maj3 x1 x2 x3) n = majb (Z.testbit x1 n) (Z.testbit x2 n) (Z.testbit x3 n).
Proof. unfold maj3, majb. rewrite Z.lxor_spec, Z.land_spec, !Z.lxor_spec. reflexivity. Qed.
Lemma csa x1 x2 x3 : 0 <= x1 -> 0 <= x2 -> 0 <= x3 -> x1 + x2 + x3 = sum3 x1 x2 x3 + 2 * maj3 x1 x2 x3.
Proof.
  intros H1 H2 H3.
  assert (Hl : 0 <= Z.lxor x2 x3) by (apply Z.lxor_nonneg; lia).
  assert (E : x1 + (x2 + x3) = sum3 x1 x2 x3 + 2 * (Z.land x1 (Z.lxor x2 x3) + Z.land x2 x3)).
  { rewrite (add_lxor_land x2 x3) by assumption. unfold sum3.
    pose proof (add_lxor_land x1 (Z.lxor x2 x3) H1 Hl). lia. }
  rewrite <- Z.add_assoc, E. f_equal. f_equal.
  rewrite Z.add_nocarry_lxor.
  - apply Z.bits_inj'. intros n Hn. rewrite maj3_spec, Z.lxor_spec, !Z.land_spec, Z.lxor_spec.
    unfold majb. destruct (Z.testbit x1 n), (Z.testbit x2 n), (Z.testbit x3 n); reflexivity.
  - apply Z.bits_inj'. intros n Hn. rewrite !Z.land_spec, Z.lxor_spec, Z.bits_0.
    destruct (Z.testbit x1 n), (Z.testbit x2 n), (Z.testbit x3 n); reflexivity.
Qed.

(** ** Shifts *)
Lemma inr_rshl K x s : 0 < K -> inr K x -> inr K (rshl K x s).
Proof.
  intros HK Hx. unfold rshl. destruct (K =? 1) eqn:E1.
  - destruct (s =? 0); [exact Hx|]. unfold inr. pose proof (Z.pow_pos_nonneg 2 K). lia.
  - apply (inr_norm K). lia.
Qed.
Lemma testbit_rshl K x s n : 0 < K -> inr K x -> 0 <= s -> (s < K \/ K = 1) -> 0 <= n < K ->
  Z.testbit (rshl K x s) n = Z.testbit x (n - s).
Proof.
  intros HK Hx Hs Hsk Hn. unfold rshl. destruct (Z.eqb_spec K 1) as [->|HK1].
  - destruct (Z.eqb_spec s 0) as [->|Hs0]; [f_equal; lia|].
    rewrite Z.bits_0, Z.testbit_neg_r by lia. reflexivity.
  - rewrite Z.mod_pow2_bits_low by lia. rewrite (Z.mod_small s K) by lia. apply Z.shiftl_spec. lia.
Qed.

(** ** Carries *)
Lemma carry_exists a b : exists c, (forall n, 0 <= n -> Z.testbit (a + b) n = xorb (xorb (Z.testbit a n) (Z.testbit b n)) (Z.testbit c n)) /\
  Z.testbit c 0 = false /\
  (forall n, 0 <= n -> Z.testbit c (n + 1) = majb (Z.testbit a n) (Z.testbit b n) (Z.testbit c n)).
Proof.
  destruct (Z.add_carry_bits a b false) as (c & E & Hc & H0).
  exists c. split; [|split].
  - intros n Hn. replace (a + b) with (a + b + Z.b2z false) by (simpl; lia). rewrite E.
    rewrite !Z.lxor_spec. reflexivity.
  - exact H0.
  - intros n Hn. assert (Hd : Z.testbit c (n + 1) = Z.testbit (Z.div2 c) n).
    { rewrite Z.div2_spec, Z.shiftr_spec by lia. reflexivity. }
    rewrite Hd, Z.div2_div, Hc. rewrite !Z.lor_spec, !Z.land_spec, Z.lor_spec.
    unfold majb. destruct (Z.testbit a n), (Z.testbit b n), (Z.testbit c n); reflexivity.
Qed.

(** ** Kogge-Stone *)
Section KS.
  Variables pb gb : Z -> bool.
  Hypothesis Hneg : forall n, n < 0 -> pb n = false /\ gb n = false.
  Hypothesis Hex : forall n, pb n && gb n = false.
  Fixpoint gen (d : nat) (n : Z) : bool :=
    match d with O => false | S d' => gb n || (pb n && gen d' (n - 1)) end.
  Fixpoint pall (d : nat) (n : Z) : bool :=
    match d with O => true | S d' => pb n && pall d' (n - 1) end.
  Lemma gen_split d e n : gen (d + e) n = gen d n || (pall d n && gen e (n - Z.of_nat d)).
  Proof using Type.
    clear Hneg Hex. revert n. induction d as [|d IH]; intros n.
    - simpl. f_equal. lia.
    - cbn [gen pall Nat.add]. rewrite IH. replace (n - 1 - Z.of_nat d) with (n - Z.of_nat (S d)) by lia.
      destruct (gb n), (pb n), (gen d (n - 1)), (pall d (n - 1)); reflexivity.
  Qed.
  Lemma pall_split d e n : pall (d + e) n = pall d n && pall e (n - Z.of_nat d).
  Proof using Type.
    clear Hneg Hex gb. revert n. induction d as [|d IH]; intros n.
    - simpl. f_equal. lia.
    - cbn [pall Nat.add]. rewrite IH. replace (n - 1 - Z.of_nat d) with (n - Z.of_nat (S d)) by lia.
      apply andb_assoc.
  Qed.
  Lemma pall_gen d n : pall d n = true -> gen d n = false.
  Proof.
    revert n. induction d as [|d IH]; intros n H; [reflexivity|]. cbn [pall gen] in *.
    apply andb_true_iff in H. destruct H as [H1 H2]. pose proof (Hex n) as E. rewrite H1 in *. simpl in E.
    rewrite E, IH by exact H2. reflexivity.
  Qed.
  Lemma gen_neg d n : n < 0 -> gen d n = false.
  Proof. intros H. destruct d; [reflexivity|]. cbn [gen]. destruct (Hneg n H) as [-> ->]. reflexivity. Qed.
  Lemma pall_neg d n : n < 0 -> (0 < d)%nat -> pall d n = false.
  Proof. intros H Hd. destruct d; [lia|]. cbn [pall]. destruct (Hneg n H) as [-> _]. reflexivity. Qed.
End KS.

(** One round and the whole loop of binary_add_3 on plain values. *)
Definition ks_plain (K : Z) (pg : Z * Z) (i : nat) : Z * Z :=
  let '(p, g) := pg in
  (Z.land p (rshl K p (2 ^ Z.of_nat i)), Z.lxor g (Z.land p (rshl K g (2 ^ Z.of_nat i)))).
Definition add_plain (K a b : Z) : Z :=
  Z.lxor (Z.lxor a b)
    (rshl K (snd (fold_left (ks_plain K) (seq 0 (ceil_log2 K)) (Z.lxor a b, Z.land a b))) 1).

Section KSplain.
  Variables K a b : Z.
  Hypotheses (HK : 0 < K) (Ha : inr K a) (Hb : inr K b).
  Let pb n := Z.testbit (Z.lxor a b) n.
  Let gb n := Z.testbit (Z.land a b) n.
  Let Hneg : forall n, n < 0 -> pb n = false /\ gb n = false.
  Proof. intros n Hn. unfold pb, gb. rewrite !Z.testbit_neg_r by exact Hn. auto. Qed.
  Let Hex : forall n, pb n && gb n = false.
  Proof. intros n. unfold pb, gb. rewrite Z.lxor_spec, Z.land_spec. destruct (Z.testbit a n), (Z.testbit b n); reflexivity. Qed.

  Lemma ks_loop j : (j = O \/ 2 ^ (Z.of_nat j - 1) < K) ->
    let r := fold_left (ks_plain K) (seq 0 j) (Z.lxor a b, Z.land a b) in
    inr K (fst r) /\ inr K (snd r) /\
    forall n, 0 <= n < K -> Z.testbit (fst r) n = pall pb (2 ^ j) n /\ Z.testbit (snd r) n = gen pb gb (2 ^ j) n.
  Proof.
    induction j as [|j IH]; intros Hj.
    - cbn [seq fold_left fst snd]. split; [apply inr_lxor; (lia || assumption)|].
      split; [apply inr_land; (lia || assumption)|]. intros n Hn.
      change (2 ^ 0)%nat with 1%nat. cbn [pall gen]. rewrite andb_true_r, andb_false_r, orb_false_r. auto.
    - destruct Hj as [Hj|Hj]; [lia|].
      replace (Z.of_nat (S j) - 1) with (Z.of_nat j) in Hj by lia.
      rewrite seq_S, fold_left_app. cbn [fold_left Nat.add].
      assert (Hj' : j = O \/ 2 ^ (Z.of_nat j - 1) < K).
      { destruct j as [|j]; [left; reflexivity|right].
        pose proof (Z.pow_le_mono_r 2 (Z.of_nat (S j) - 1) (Z.of_nat (S j))). lia. }
      specialize (IH Hj'). cbv zeta in IH.
      destruct (fold_left (ks_plain K) (seq 0 j) (Z.lxor a b, Z.land a b)) as [p g].
      cbn [fst snd] in IH. destruct IH as (Hp & Hg & IH). cbn [ks_plain fst snd].
      assert (H2 : 0 < 2 ^ Z.of_nat j) by (apply Z.pow_pos_nonneg; lia).
      split; [apply inr_land; [lia|exact Hp|apply inr_rshl; assumption]|].
      split; [apply inr_lxor; [lia|exact Hg|apply inr_land; [lia|exact Hp|apply inr_rshl; assumption]]|].
      intros n Hn. rewrite Z.lxor_spec, !Z.land_spec, !testbit_rshl by (assumption || lia).
      destruct (IH n Hn) as [IHp IHg].
      assert (HN : Z.of_nat (2 ^ j) = 2 ^ Z.of_nat j) by (rewrite Nat2Z.inj_pow; reflexivity).
      replace (2 ^ S j)%nat with (2 ^ j + 2 ^ j)%nat by (cbn [Nat.pow]; lia).
      rewrite gen_split, pall_split, HN.
      assert (E : Z.testbit p (n - 2 ^ Z.of_nat j) = pall pb (2 ^ j) (n - 2 ^ Z.of_nat j) /\
                  Z.testbit g (n - 2 ^ Z.of_nat j) = gen pb gb (2 ^ j) (n - 2 ^ Z.of_nat j)).
      { destruct (Z.lt_ge_cases (n - 2 ^ Z.of_nat j) 0) as [Hl|Hl].
        - rewrite !Z.testbit_neg_r by exact Hl. rewrite (gen_neg pb gb Hneg), (pall_neg pb gb Hneg); auto. lia.
        - apply IH. lia. }
      destruct E as [E1 E2]. rewrite E1, E2, IHp, IHg. split; [reflexivity|].
      destruct (pall pb (2 ^ j) n) eqn:Ep.
      + rewrite (pall_gen pb gb Hex _ _ Ep). simpl. destruct (gen pb gb (2 ^ j) (n - 2 ^ Z.of_nat j)); reflexivity.
      + simpl. rewrite xorb_false_r, orb_false_r. reflexivity.
  Qed.

  Lemma gen_carry c : Z.testbit c 0 = false ->
    (forall n, 0 <= n -> Z.testbit c (n + 1) = majb (Z.testbit a n) (Z.testbit b n) (Z.testbit c n)) ->
    forall d n, 0 <= n -> n < Z.of_nat d -> gen pb gb d n = Z.testbit c (n + 1).
  Proof.
    intros H0 Hc. induction d as [|d IH]; intros n Hn Hd; [lia|].
    cbn [gen]. rewrite Hc by exact Hn. unfold pb, gb at 1. rewrite Z.lxor_spec, Z.land_spec.
    assert (E : gen pb gb d (n - 1) = Z.testbit c n).
    { destruct (Z.eq_dec n 0) as [->|Hn0].
      - rewrite H0. apply gen_neg; [exact Hneg|lia].
      - rewrite IH by lia. f_equal. lia. }
    unfold pb, gb in E |- *. rewrite E. unfold majb. destruct (Z.testbit a n), (Z.testbit b n), (Z.testbit c n); reflexivity.
  Qed.
End KSplain.

Lemma ceil_log2_widths K : In K widths ->
  (ceil_log2 K = O \/ 2 ^ (Z.of_nat (ceil_log2 K) - 1) < K) /\ K <= Z.of_nat (2 ^ ceil_log2 K).
Proof.
  intros H. apply in_widths_cases in H.
  destruct H as [->|[->|[->|[->|[->| ->]]]]]; vm_compute; split; try (right; reflexivity); try (left; reflexivity); discriminate.
Qed.

Lemma add_plain_spec K a b : In K widths -> inr K a -> inr K b -> add_plain K a b = norm K (a + b).
Proof.
  intros HK Ha Hb. pose proof (in_widths_pos K HK) as HK0.
  destruct (ceil_log2_widths K HK) as [Hl1 Hl2].
  destruct (ks_loop K a b HK0 Ha Hb (ceil_log2 K) Hl1) as (Hp & Hg & Hr).
  destruct (carry_exists a b) as (c & Hadd & H0 & Hc).
  apply (inr_bits_eq K); [lia| |apply inr_norm; lia|].
  - unfold add_plain. apply inr_lxor; [lia|apply inr_lxor; (lia || assumption)|]. apply inr_rshl; assumption.
  - intros n Hn. unfold add_plain, norm.
    rewrite Z.mod_pow2_bits_low by lia. rewrite Hadd by lia.
    rewrite Z.lxor_spec, testbit_rshl by (assumption || lia). rewrite Z.lxor_spec. f_equal.
    destruct (Z.eq_dec n 0) as [->|Hn0].
    + rewrite H0. apply Z.testbit_neg_r. lia.
    + rewrite (proj2 (Hr (n - 1) ltac:(lia))).
      rewrite (gen_carry a b c H0 Hc) by lia. f_equal. lia.
Qed.

Lemma norm_shl1 K x : In K widths -> inr K x -> norm K (rshl K x 1) = norm K (2 * x).
Proof.
  intros HK Hx. pose proof (in_widths_pos K HK). unfold rshl, norm. destruct (Z.eqb_spec K 1) as [->|H1].
  - change (2 ^ 1) with 2. rewrite Z.mul_comm, Z.mod_mul by lia. reflexivity.
  - rewrite Z.mod_mod by (apply Z.pow_nonzero; lia).
    assert (1 < K) by lia. rewrite (Z.mod_small 1 K) by lia. rewrite Z.shiftl_mul_pow2 by lia.
    f_equal. lia.
Qed.

(** binary_add_3 as a whole. *)
Definition add3_plain (K x1 x2 x3 : Z) : Z :=
  add_plain K (sum3 x1 x2 x3) (rshl K (maj3 x1 x2 x3) 1).
Lemma inr_sum3 K a b c : 0 <= K -> inr K a -> inr K b -> inr K c -> inr K (sum3 a b c).
Proof. intros. unfold sum3. auto using inr_lxor. Qed.
Lemma inr_maj3 K a b c : 0 <= K -> inr K a -> inr K b -> inr K c -> inr K (maj3 a b c).
Proof. intros. unfold maj3. auto using inr_lxor, inr_land. Qed.
Lemma add3_plain_spec K x1 x2 x3 : In K widths -> inr K x1 -> inr K x2 -> inr K x3 ->
  add3_plain K x1 x2 x3 = norm K (x1 + x2 + x3).
Proof.
  intros HK H1 H2 H3. pose proof (in_widths_pos K HK). unfold add3_plain.
  assert (HM : inr K (maj3 x1 x2 x3)) by (apply inr_maj3; (lia || assumption)).
  rewrite add_plain_spec; [|exact HK|apply inr_sum3; (lia || assumption)|apply inr_rshl; [lia|exact HM]].
  rewrite csa by (unfold inr in *; lia). unfold norm.
  rewrite Z.add_mod by (apply Z.pow_nonzero; lia).
  pose proof (norm_shl1 K _ HK HM) as E. unfold norm in E. rewrite E.
  rewrite <- Z.add_mod by (apply Z.pow_nonzero; lia). reflexivity.
Qed.
