(** GF(2)[x] is a commutative ring, long division, certificates of irreducibility. *)
From Coq Require Import Ring Setoid Morphisms.
From Verif Require Import Base Gf2.
Local Open Scope N_scope.

Declare Scope gf2_scope.
Notation "a +! b" := (N.lxor a b) (at level 50, left associativity) : gf2_scope.
Notation "a ** b" := (clmul a b) (at level 38, left associativity) : gf2_scope.
Local Open Scope gf2_scope.

(** ** Ring laws *)
Lemma double_lxor a b : N.double (a +! b) = N.double a +! N.double b.
Proof. destruct a as [|p], b as [|q]; reflexivity. Qed.
Lemma succ_double_lxor a : N.succ_double a = 1 +! N.double a.
Proof. destruct a; reflexivity. Qed.
Lemma clmul_0_r a : a ** 0 = 0. Proof. reflexivity. Qed.
Lemma clmul_double a b : a ** N.double b = N.double (a ** b).
Proof. destruct b; reflexivity. Qed.
Lemma clmul_succ_double a b : a ** N.succ_double b = a +! N.double (a ** b).
Proof. destruct b; [cbn; rewrite N.lxor_0_r; reflexivity|reflexivity]. Qed.
Lemma clmul_0_l b : 0 ** b = 0.
Proof. induction b as [|b IH|b IH] using N.binary_ind; [reflexivity|rewrite clmul_double, IH; reflexivity|rewrite clmul_succ_double, IH; reflexivity]. Qed.
Lemma xor4 a b c d : (a +! b) +! (c +! d) = (a +! c) +! (b +! d).
Proof. rewrite !N.lxor_assoc. f_equal. rewrite <- !N.lxor_assoc. f_equal. apply N.lxor_comm. Qed.
Lemma clmul_dist_l a a' b : (a +! a') ** b = (a ** b) +! (a' ** b).
Proof.
  induction b as [|b IH|b IH] using N.binary_ind; [reflexivity|rewrite !clmul_double, IH; apply double_lxor|].
  rewrite !clmul_succ_double, IH, double_lxor. apply xor4.
Qed.
Lemma clmul_double_l a b : N.double a ** b = N.double (a ** b).
Proof.
  induction b as [|b IH|b IH] using N.binary_ind; [reflexivity|rewrite !clmul_double, IH; reflexivity|].
  rewrite !clmul_succ_double, IH, double_lxor. reflexivity.
Qed.
Lemma clmul_1_l b : 1 ** b = b.
Proof.
  induction b as [|b IH|b IH] using N.binary_ind; [reflexivity|rewrite clmul_double, IH; reflexivity|].
  rewrite clmul_succ_double, IH. symmetry. apply succ_double_lxor.
Qed.
Lemma clmul_1_r a : a ** 1 = a. Proof. reflexivity. Qed.
Lemma clmul_comm a b : a ** b = b ** a.
Proof.
  revert a. induction b as [|b IH|b IH] using N.binary_ind; intros a; [symmetry; apply clmul_0_l|rewrite clmul_double, clmul_double_l, IH; reflexivity|].
  rewrite clmul_succ_double, succ_double_lxor, clmul_dist_l, clmul_1_l, clmul_double_l, IH. reflexivity.
Qed.
Lemma clmul_dist_r a b b' : a ** (b +! b') = (a ** b) +! (a ** b').
Proof. rewrite !(clmul_comm a). apply clmul_dist_l. Qed.
Lemma clmul_assoc a b c : a ** (b ** c) = a ** b ** c.
Proof.
  induction c as [|c IH|c IH] using N.binary_ind; [reflexivity|rewrite !clmul_double, <- IH; reflexivity|].
  rewrite !clmul_succ_double, clmul_dist_r, clmul_double, IH. reflexivity.
Qed.
Lemma gf2_ring : ring_theory 0 1 N.lxor clmul N.lxor (fun a => a) (@eq N).
Proof.
  constructor; intros.
  - apply N.lxor_0_l.
  - apply N.lxor_comm.
  - symmetry. apply N.lxor_assoc.
  - apply clmul_1_l.
  - apply clmul_comm.
  - apply clmul_assoc.
  - apply clmul_dist_l.
  - reflexivity.
  - apply N.lxor_nilpotent.
Qed.
Add Ring gf2 : gf2_ring.

(** ** Degrees *)
Lemma size_le a n : N.size a <= n <-> a < 2 ^ n.
Proof.
  destruct a as [|p]; [cbn; split; intros; [apply N.neq_0_lt_0, N.pow_nonzero; discriminate|lia]|].
  rewrite N.size_log2 by discriminate. rewrite N.le_succ_l. symmetry. apply N.log2_lt_pow2. lia.
Qed.
Lemma size_0 a : N.size a = 0 <-> a = 0.
Proof. destruct a; split; intros E; try reflexivity; discriminate. Qed.
Lemma size_double a : a <> 0 -> N.size (N.double a) = N.succ (N.size a).
Proof. destruct a; [congruence|reflexivity]. Qed.
Lemma size_shiftl a n : a <> 0 -> N.size (N.shiftl a n) = N.size a + n.
Proof.
  intros Ha. assert (N.shiftl a n <> 0) by (rewrite N.shiftl_eq_0_iff; exact Ha).
  rewrite !N.size_log2, N.log2_shiftl by assumption. lia.
Qed.
Lemma lt_pow_bits a n : a < 2 ^ n <-> forall k, n <= k -> N.testbit a k = false.
Proof.
  split.
  - intros H k Hk. destruct (N.eq_dec a 0) as [->|Ha]; [apply N.bits_0|]. apply N.bits_above_log2. apply N.log2_lt_pow2 in H; lia.
  - intros H. destruct (N.eq_dec a 0) as [->|Ha]; [apply N.neq_0_lt_0, N.pow_nonzero; discriminate|].
    destruct (N.lt_ge_cases a (2 ^ n)) as [L|L]; [exact L|]. exfalso.
    pose proof (N.bit_log2 a Ha) as B. rewrite H in B; [discriminate|]. apply N.log2_le_pow2; lia.
Qed.
Lemma lxor_lt a b n : a < 2 ^ n -> b < 2 ^ n -> N.lxor a b < 2 ^ n.
Proof. rewrite !lt_pow_bits. intros Ha Hb k Hk. rewrite N.lxor_spec, Ha, Hb by exact Hk. reflexivity. Qed.
Lemma bit_top a : a <> 0 -> N.testbit a (N.size a - 1) = true.
Proof. intros Ha. rewrite N.size_log2 by exact Ha. replace (N.succ (N.log2 a) - 1) with (N.log2 a) by lia. apply N.bit_log2, Ha. Qed.
(** Cancelling the top bits. *)
Lemma size_cancel a b : a <> 0 -> N.size a = N.size b -> N.size (a +! b) < N.size a.
Proof.
  intros Ha E. assert (Hb : b <> 0) by (intros ->; cbn in E; apply Ha, size_0, E).
  assert (S0 : N.size a <> 0) by (rewrite size_0; exact Ha).
  enough (N.size (a +! b) <= N.size a - 1) by lia. apply size_le, lt_pow_bits. intros k Hk. rewrite N.lxor_spec.
  destruct (N.eq_dec k (N.size a - 1)) as [->|Hn]; [rewrite bit_top, E, bit_top by assumption; reflexivity|].
  rewrite !(proj1 (lt_pow_bits _ (N.size a))); [reflexivity|apply size_le; lia|lia|apply size_le; lia|lia].
Qed.
Lemma shiftl_clmul b s : N.shiftl b s = N.shiftl 1 s ** b.
Proof.
  induction s as [|s IH] using N.peano_ind; [rewrite !N.shiftl_0_r, clmul_1_l; reflexivity|].
  rewrite !N.shiftl_succ_r, IH, clmul_double_l. reflexivity.
Qed.
Lemma size_clmul a b : a <> 0 -> b <> 0 -> N.size (a ** b) + 1 = N.size a + N.size b.
Proof.
  intros Ha Hb. revert Hb. induction b as [|b IH|b IH] using N.binary_ind; [congruence| |]; intros Hb.
  - assert (H0 : b <> 0) by (intros ->; apply Hb; reflexivity). specialize (IH H0).
    assert (Hp : a ** b <> 0) by (intros E; rewrite E in IH; cbn in IH; pose proof (proj1 (size_0 a)); pose proof (proj1 (size_0 b)); lia).
    rewrite clmul_double, !size_double by assumption. lia.
  - rewrite clmul_succ_double. destruct (N.eq_dec b 0) as [->|H0]; [rewrite clmul_0_r; cbn [N.double]; rewrite N.lxor_0_r; cbn; lia|]. specialize (IH H0).
    assert (Hp : a ** b <> 0) by (intros E; rewrite E in IH; cbn in IH; pose proof (proj1 (size_0 a)); pose proof (proj1 (size_0 b)); lia).
    assert (S1 : N.size (N.double (a ** b)) = N.size a + N.size b) by (rewrite size_double by exact Hp; lia).
    assert (S2 : N.size (N.succ_double b) = N.size b + 1) by (destruct b; [congruence|cbn; lia]). rewrite S2.
    assert (Hb0 : N.size b <> 0) by (rewrite size_0; exact H0).
    assert (U : N.size (a +! N.double (a ** b)) <= N.size a + N.size b).
    { apply size_le, lxor_lt; apply size_le; lia. }
    assert (L : ~ N.size (a +! N.double (a ** b)) <= N.size a + N.size b - 1).
    { intros L. apply size_le in L. rewrite lt_pow_bits in L. specialize (L (N.size a + N.size b - 1) ltac:(lia)).
      rewrite N.lxor_spec in L. assert (A0 : N.testbit a (N.size a + N.size b - 1) = false) by (apply (proj1 (lt_pow_bits a (N.size a))); [apply size_le|]; lia).
      rewrite A0 in L.
      rewrite <- S1, bit_top in L by (destruct (a ** b); [congruence|discriminate]). discriminate. }
    lia.
Qed.
Lemma clmul_eq_0 a b : a ** b = 0 -> a = 0 \/ b = 0.
Proof.
  intros E. destruct (N.eq_dec a 0); [auto|]. destruct (N.eq_dec b 0); [auto|]. pose proof (size_clmul a b) as S. rewrite E in S. cbn in S.
  pose proof (proj1 (size_0 a)). pose proof (proj1 (size_0 b)). lia.
Qed.

(** ** Long division *)
Lemma cldivmod_spec fuel a b : b <> 0 -> (N.to_nat (N.size a) <= fuel)%nat ->
  a = (fst (cldivmod fuel a b) ** b) +! snd (cldivmod fuel a b) /\ N.size (snd (cldivmod fuel a b)) < N.size b /\
  N.size (fst (cldivmod fuel a b)) <= N.size a - (N.size b - 1).
Proof.
  intros Hb. assert (B0 : N.size b <> 0) by (rewrite size_0; exact Hb). revert a. induction fuel as [|f IH]; intros a Hf; cbn [cldivmod].
  - assert (Ea : N.size a = 0) by lia. apply (proj1 (size_0 a)) in Ea. subst a. cbn. rewrite ?clmul_0_l. split; [reflexivity|]. lia.
  - destruct (N.ltb_spec (N.size a) (N.size b)) as [L|L]; cbn [fst snd].
    + rewrite clmul_0_l, N.lxor_0_l. split; [reflexivity|]. cbn. lia.
    + set (s := N.size a - N.size b). assert (Ha : a <> 0) by (rewrite <- size_0; lia).
      assert (Ss : N.size (N.shiftl b s) = N.size a) by (rewrite size_shiftl by exact Hb; unfold s; lia).
      pose proof (size_cancel a (N.shiftl b s) Ha ltac:(congruence)) as SC.
      specialize (IH (a +! N.shiftl b s) ltac:(lia)). destruct (cldivmod f _ b) as [q r]. cbn [fst snd] in *. destruct IH as (E & R & Q).
      split; [|split; [exact R|]].
      * rewrite clmul_dist_l, <- shiftl_clmul, N.lxor_assoc, <- E, (N.lxor_comm a), <- N.lxor_assoc, N.lxor_nilpotent, N.lxor_0_l. reflexivity.
      * apply size_le, lxor_lt; apply size_le; [rewrite size_shiftl by discriminate; change (N.size 1) with 1; unfold s; lia|lia].
Qed.
Lemma cldiv_spec a b : b <> 0 -> a = (cldiv a b ** b) +! clmod a b /\ N.size (clmod a b) < N.size b /\ N.size (cldiv a b) <= N.size a - (N.size b - 1).
Proof. intros Hb. apply cldivmod_spec; [exact Hb|lia]. Qed.
