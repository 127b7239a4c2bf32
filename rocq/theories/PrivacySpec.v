(** Specification vocabulary for what the verification of a proof discloses. *)
From Verif Require Import Base Ring Prog Rng Gf2 Poly Swift3 Dzkp DzkpSpec GaloisSpec.
Local Open Scope list_scope.

(** What the verifier holding the explicit share sends to the other verifier, when the prover has followed the
    protocol with random values w: [gates] are the prover's statements, [gates1] the sending verifier's shares of
    them, p2 the proof share that the receiving verifier regenerates from its seed. *)
Definition and_message (l m : nat) (gates gates1 : list (pinput bool)) (thetas betas : list N) (r : N) (w : list N) (p2 : dproof N) : res (dshare N) :=
  rbind (and_prover l m gates thetas w) (fun g =>
  rbind (gf_lagrange (and_points (m + 1))) (fun lag =>
  and_verify_pi l m betas r lag (and_points (m + 1)) (map and_inputs gates1) (explicit_share gf_ops w g p2))).
Definition gr_message (K : Z) (f : list Z) (n : nat) (cf : forall B : Type, rops B -> list B -> B) (l m : nat) (V V1 : list (list (list Z)))
    (thetas betas : list (list Z)) (r : list Z) (w : list (list Z)) (p2 : dproof (list Z)) : res (dshare (list Z)) :=
  rbind (gr_prover K f n cf l m V thetas w) (fun g =>
  rbind (gr_lagrange K (mul_points (m + 1)) f) (fun lag =>
  gr_verify_pi K f n l m betas r lag (mul_points (m + 1)) V1 (explicit_share (pz_ops K) w g p2))).
Definition mul_message (K : Z) (f : list Z) (l m : nat) (gates gates1 : list (pinput Z)) := gr_message K f 6 c_mul l m (map mul_inputs gates) (map mul_inputs gates1).
Definition dot_message (K : Z) (f : list Z) (dot l m : nat) (gates gates1 : list dinput) := gr_message K f (4 * dot + 2) (c_dot dot) l m (map dot_inputs gates) (map dot_inputs gates1).

(** Coefficient by coefficient sums of elements. *)
Definition elements_add (K : Z) (ps qs : list (list Z)) : list (list Z) := map2 (map2 (radd K)) ps qs.
(** Not congruent modulo 2 to any of the points 1, ..., m at which the statements are put. *)
Definition avoids_points (m : nat) (r : list Z) : Prop := forall k, (1 <= k <= m)%nat -> ~ same_mod2 r (point_bits k).

(** The q-th element drawn from a generator in state s, counting from 0. *)
Definition nth_draw {S A} (draw_el : S -> S * A) (s : S) (q : nat) : A := snd (draw_el (Nat.iter q (fun t => fst (draw_el t)) s)).
Definition number (j : pid) : nat := match j with P0 => 0 | P1 => 1 | P2 => 2 end.
