(** Specification vocabulary for the zero-knowledge proofs of AND gates. *)
From Verif Require Import Base Gf2 Poly Swift3 Dzkp.

(** One AND gate as a prover states it. *)
Definition and_correct (g : pinput bool) : Prop :=
  p_s g = xorb (xorb (xorb (p_a0 g && p_b0 g) (p_a0 g && p_b1 g)) (p_a1 g && p_b0 g)) (p_r g).
(** The statement whose two additive shares the verifiers hold. *)
Definition and_join (g h : pinput bool) : pinput bool :=
  PIn (xorb (p_a0 g) (p_a0 h)) (xorb (p_a1 g) (p_a1 h)) (xorb (p_b0 g) (p_b0 h)) (xorb (p_b1 g) (p_b1 h)) (xorb (p_r g) (p_r h)) (xorb (p_s g) (p_s h)).
Definition gates_joined (gates gates1 gates2 : list (pinput bool)) : Prop :=
  length gates1 = length gates /\ length gates2 = length gates /\
  forall k, nth k gates pin_false = and_join (nth k gates1 pin_false) (nth k gates2 pin_false).
(** Values of the 64-bit type that carries field elements. *)
Definition u64 (x : N) : Prop := (x < 2 ^ 64)%N.
Definition u64s (k : nat) (xs : list N) : Prop := length xs = k /\ Forall u64 xs.
(** A proof share of the size the verifiers insist on. *)
Definition and_proof_share (l m : nat) (p : dproof N) : Prop := u64s (6 * l) (dp_w p) /\ u64s (2 * m + 1) (dp_a p).

(** The prover, from its statements: the coefficients it puts into the proof. *)
Definition and_prover (l m : nat) (gates : list (pinput bool)) (thetas w : list N) : res (list N) :=
  rbind (gf_lagrange (and_points (m + 1))) (fun lag => and_prove l m (map and_inputs gates) thetas lag w).
(** The two verifiers, each with its shares of the statements and of the proof, and the final comparison. *)
Definition and_check (l m : nat) (gates1 gates2 : list (pinput bool)) (thetas betas : list N) (r : N) (p1 p2 : dproof N) : res unit :=
  rbind (gf_lagrange (and_points (m + 1))) (fun lag =>
  rbind (and_verify_pi l m betas r lag (and_points (m + 1)) (map and_inputs gates1) p1) (fun s1 =>
  rbind (and_verify_pi l m betas r lag (and_points (m + 1)) (map and_inputs gates2) p2) (fun s2 =>
  and_combine l thetas s1 s2))).
(** A list with one entry replaced. *)
Definition replaced {A} (k : nat) (x : A) (l : list A) : list A := firstn k l ++ x :: skipn (S k) l.
(** The gates with some of the outputs the prover announced inverted. *)
Definition flip_output (e : bool) (g : pinput bool) : pinput bool := PIn (p_a0 g) (p_a1 g) (p_b0 g) (p_b1 g) (p_r g) (xorb (p_s g) e).
Definition flip_outputs (es : list bool) (gates : list (pinput bool)) : list (pinput bool) := map2 flip_output es gates.
