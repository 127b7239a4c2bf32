(** C45, C46: the finite field and the Galois rings underneath the zero-knowledge proofs. *)
From Verif Require Import Base Ring Gf2 Gf2Proofs Gf2Field GfRing Poly Dzkp DzkpSpec GaloisSpec Galois FieldProofs Properties10.
Local Open Scope N_scope.

(** Polynomials over GF(2) are numbers, bit i the coefficient of x^i; the coefficient of x^n in a product is
    the sum of the a_i b_(n-i) (spec: [clcoef]); products in GF(2^64) are remainders modulo
    x^64 + x^4 + x^3 + x + 1. *)
Theorem C45_product : forall a b n, N.testbit (clmul a b) (N.of_nat n) = clcoef a b n.
Proof. intros a b n. apply clmul_bit. Qed.
Print Assumptions C45_product.
Theorem C45_reduction : forall a b, u64 (gf_mul a b) /\ (exists k, clmul a b = N.lxor (clmul k (2 ^ 64 + 2 ^ 4 + 2 ^ 3 + 2 + 1)) (gf_mul a b)) /\
  forall c k, u64 c -> clmul a b = N.lxor (clmul k (2 ^ 64 + 2 ^ 4 + 2 ^ 3 + 2 + 1)) c -> c = gf_mul a b.
Proof. exact gf_reduction. Qed.
Print Assumptions C45_reduction.
(** GF(2^64) is a field. *)
Theorem C45_field : forall a b c, u64 a -> u64 b -> u64 c ->
  gf_mul a b = gf_mul b a /\ gf_mul a (gf_mul b c) = gf_mul (gf_mul a b) c /\ gf_mul a (gf_add b c) = gf_add (gf_mul a b) (gf_mul a c) /\
  gf_mul 1 a = a /\ gf_add a a = 0 /\ (gf_mul a b = 0 -> a = 0 \/ b = 0) /\
  (a <> 0 -> exists v, gf_inverse a = Ok v /\ u64 v /\ gf_mul a v = 1) /\ gf_inverse 0 = Err EPanic.
Proof. exact gf_is_field. Qed.
Print Assumptions C45_field.
Example C45_example : gf_mul (2 ^ 63) 2 = 27 /\ gf_inverse (2 ^ 63 + 5) = Ok 8608480567731124083 /\ gf_mul (2 ^ 63 + 5) 8608480567731124083 = 1.
Proof. vm_compute. repeat split. Qed.

(** The table of moduli: for every degree from 40 to 63 a polynomial of that degree that is irreducible
    modulo 2; the code panics for other degrees. *)
Theorem C46_irreducible : forall d, 
  ((40 <= d <= 63)%nat -> exists v, irreducible d = Ok v /\ 2 ^ N.of_nat d <= v < 2 ^ (N.of_nat d + 1) /\ forall a b, clmul a b = v -> a = 1 \/ b = 1) /\
  (~ (40 <= d <= 63)%nat -> irreducible d = Err EPanic).
Proof. exact moduli. Qed.
Print Assumptions C46_irreducible.
Close Scope N_scope.
(** In the ring Z/2^K[x]/f every element that is not zero modulo 2 is inverted. *)
Theorem C46_inverse : forall K d f a, In K [8; 16; 32] -> irreducible_poly d = Ok f ->
  Forall (inr K) a -> (length a <= d)%nat -> (exists i, Z.odd (nth i a 0) = true) ->
  exists v, mod_inverse K a f = Ok v /\ Forall (inr K) v /\ p_rem K (p_mul (zk_ops K) a v) f = Ok [1].
Proof. intros K d f a HS Hf. exact (galois_inverse K HS d f Hf a). Qed.
Print Assumptions C46_inverse.
(** An element that is zero modulo 2 is not a unit, but the code returns a value for it without an error. *)
Theorem C46_nonunit_refuted : ~ (forall a f v, irreducible_poly 41 = Ok f -> Forall (inr 8) a -> (length a <= 41)%nat -> mod_inverse 8 a f = Ok v ->
  p_rem 8 (p_mul (zk_ops 8) a v) f = Ok [1]).
Proof.
  intros H. specialize (H [2] (ok_or [] (irreducible_poly 41)) (ok_or [] (mod_inverse 8 [2] (ok_or [] (irreducible_poly 41))))).
  assert (X : p_rem 8 (p_mul (zk_ops 8) [2] (ok_or [] (mod_inverse 8 [2] (ok_or [] (irreducible_poly 41))))) (ok_or [] (irreducible_poly 41)) = Ok [1]).
  { apply H; [vm_compute; reflexivity|repeat constructor; cbv; congruence|cbn; lia|vm_compute; reflexivity]. }
  vm_compute in X. discriminate X.
Qed.
Print Assumptions C46_nonunit_refuted.
Example C46_example : irreducible 41 = Ok 2199023255561%N /\
  let f := ok_or [] (irreducible_poly 41) in let v := ok_or [] (mod_inverse 16 [65535; 2; 3] f) in (40 < length v)%nat /\ p_rem 16 (p_mul (zk_ops 16) [65535; 2; 3] v) f = Ok [1].
Proof. split; [reflexivity|]. vm_compute. split; [repeat constructor|reflexivity]. Qed.
