(** GF(2^64) as a coefficient ring; inverses. *)
From Coq Require Import Ring Setoid Morphisms.
From Verif Require Import Base Ring Gf2 Gf2Proofs Gf2Field Gf2Certs Poly PolyProofs.
Local Open Scope N_scope.
Local Open Scope gf2_scope.

Notation gf_eq := (cong GF_MODULUS).
Definition gf_wf (a : N) : Prop := a < 2 ^ 64.
Lemma gf_mod_nz : GF_MODULUS <> 0. Proof. discriminate. Qed.
Lemma gf_mod_size : N.size GF_MODULUS = 65. Proof. reflexivity. Qed.
Lemma gf_wf_size a : gf_wf a <-> N.size a < N.size GF_MODULUS.
Proof. rewrite gf_mod_size. unfold gf_wf. split; intros H. - apply size_le in H. lia. - apply size_le. lia. Qed.
Lemma gf_mul_wf a b : gf_wf (gf_mul a b).
Proof. apply gf_wf_size. apply cldiv_spec, gf_mod_nz. Qed.
Lemma gf_mul_cong a b : gf_eq (gf_mul a b) (a ** b).
Proof. symmetry. apply cong_mod, gf_mod_nz. Qed.
Lemma gf_eq_eq a b : gf_wf a -> gf_wf b -> gf_eq a b -> a = b.
Proof. intros Ha Hb. apply cong_eq; apply gf_wf_size; assumption. Qed.

Lemma gf_ring_ok : ring_ok gf_ops gf_eq gf_wf.
Proof.
  pose proof (cong_ring GF_MODULUS) as R. pose proof (cong_ext GF_MODULUS) as X.
  constructor.
  - apply cong_equiv.
  - constructor; cbn [o0 o1 oadd omul osub oneg gf_ops]; intros; unfold gf_add; rewrite ?gf_mul_cong; try apply R.
  - constructor; cbn [o0 o1 oadd omul osub oneg gf_ops]; unfold gf_add.
    + apply X.
    + intros a a' Ea b b' Eb. rewrite !gf_mul_cong, Ea, Eb. reflexivity.
    + intros a a' Ea. exact Ea.
  - cbn. intros a E. apply N.eqb_eq in E. rewrite E. reflexivity.
  - reflexivity.
  - reflexivity.
  - cbn. intros a b Ha Hb. apply lxor_lt; assumption.
  - cbn. intros a b Ha Hb. apply lxor_lt; assumption.
  - intros a b _ _. apply gf_mul_wf.
  - intros a Ha. exact Ha.
Qed.

Lemma gf_cert : certified GF_MODULUS 64 cert64 = true. Proof. vm_compute. reflexivity. Qed.
(** recip: a^(2^64 - 2) *)
Fixpoint onesp (k : nat) (p : positive) : positive := match k with O => p | S k => xI (onesp k p) end.
Lemma gf_pow_cong a k : gf_eq (gf_pow a (onesp k xH)) (ones a (S k)).
Proof.
  induction k as [|k IH].
  - cbn [onesp gf_pow ones]. change (sq 1) with 1. rewrite clmul_1_r. reflexivity.
  - cbn [onesp gf_pow]. change (ones a (S (S k))) with (a ** sq (ones a (S k))). rewrite !gf_mul_cong, IH. reflexivity.
Qed.
Lemma exponent : (2 ^ 64 - 2)%positive = xO (onesp 62 xH). Proof. vm_compute. reflexivity. Qed.
Lemma gf_pow_xO a p : gf_pow a (xO p) = gf_mul (gf_pow a p) (gf_pow a p). Proof. reflexivity. Qed.
Lemma sq_def a : sq a = a ** a. Proof. reflexivity. Qed.
Lemma gf_inverse_ok a : gf_wf a -> a <> 0 -> exists b, gf_inverse a = Ok b /\ gf_wf b /\ gf_mul a b = 1.
Proof.
  intros Ha Hz. unfold gf_inverse. replace (a =? 0) with false by (symmetry; apply N.eqb_neq, Hz). eexists. split; [reflexivity|].
  rewrite exponent. rewrite gf_pow_xO. split; [apply gf_mul_wf|].
  assert (I : gf_eq (a ** sq (ones a (64 - 1))) 1).
  { apply (ones_inverse GF_MODULUS 64 cert64 gf_cert); [|lia]. intros E. apply Hz. apply gf_eq_eq; [exact Ha|reflexivity|exact E]. }
  replace (64 - 1)%nat with 63%nat in I by reflexivity. rewrite sq_def in I. apply gf_eq_eq; [apply gf_mul_wf|reflexivity|]. rewrite !gf_mul_cong, !gf_pow_cong. exact I.
Qed.
Lemma gf_field : is_field GF_MODULUS.
Proof. apply (certified_field _ 64 cert64 gf_cert). lia. Qed.
