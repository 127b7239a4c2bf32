(** What it means for three parties to hold a Swift3 sharing.  Specification file: independent of the
    protocols. *)
From Verif Require Import Base Ring Swift3.

(** x = c - (a_0 + a_1 + a_2) modulo 2^K; party i holds (a_i, a_{i-1}, c). *)
Definition arith3 (K : Z) (X : pid -> share3) (x : Z) : Prop :=
  (forall i, inr K (ta (X i)) /\ inr K (tc (X i))) /\
  (forall i, tb (X i) = ta (X (prev i)) /\ tc (X i) = tc (X (prev i))) /\
  x = (tc (X P0) - (ta (X P0) + ta (X P1) + ta (X P2))) mod 2 ^ K.

(** x = c xor a_0 xor a_1 xor a_2, a word of K bits. *)
Definition bin3 (K : Z) (X : pid -> share3) (x : Z) : Prop :=
  (forall i, inr K (ta (X i)) /\ inr K (tc (X i))) /\
  (forall i, tb (X i) = ta (X (prev i)) /\ tc (X i) = tc (X (prev i))) /\
  x = Z.lxor (tc (X P0)) (Z.lxor (Z.lxor (ta (X P0)) (ta (X P1))) (ta (X P2))).

(** The condition a registered gate has to satisfy (what the zero-knowledge proofs prove):
    and_proof.rs:166-178, mul_proof.rs:162-173. *)
Definition and_c (p : pinput bool) : bool :=
  xorb (xorb (xorb (xorb (p_a0 p && p_b0 p) (p_a0 p && p_b1 p)) (p_a1 p && p_b0 p)) (p_r p)) (p_s p).
Definition mul_c (p : pinput Z) : Z := p_a0 p * p_b0 p + p_a0 p * p_b1 p + p_a1 p * p_b0 p + p_r p - p_s p.

Definition pin_map2 {A B C} (f : A -> B -> C) (p : pinput A) (q : pinput B) : pinput C :=
  PIn (f (p_a0 p) (p_a0 q)) (f (p_a1 p) (p_a1 q)) (f (p_b0 p) (p_b0 q)) (f (p_b1 p) (p_b1 q))
      (f (p_r p) (p_r q)) (f (p_s p) (p_s q)).
