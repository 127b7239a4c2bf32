(** Specification vocabulary for the zero-knowledge proofs of multiplications and inner products. *)
From Verif Require Import Base Ring Poly Swift3 Dzkp.
Local Open Scope list_scope.

(** mul_proof.rs:123-129, dot_proof.rs:186-192 *)
Definition mul_points (num : nat) : list (list Z) := map point_bits (seq 0 num).
(** mul_proof.rs:202-252, 261-316, 340-370 and the same text in dot_proof.rs; f is the modulus *)
Definition gr_prove (K : Z) (f : list Z) (n : nat) (cf : forall B : Type, rops B -> list B -> B) :=
  prove (pz_ops K) (fun c => p_rem K c f) n cf.
Definition gr_verify_pi (K : Z) (f : list Z) (n : nat) := verify_pi (pz_ops K) (fun c => p_rem K c f) n.
Definition gr_combine (K : Z) (f : list Z) (n : nat) (cf : forall B : Type, rops B -> list B -> B) :=
  combine_verifications (pz_ops K) (fun c => p_rem K c f) zlist_eqb n cf.

(** The prover, from its statements. *)
Definition gr_prover (K : Z) (f : list Z) (n : nat) (cf : forall B : Type, rops B -> list B -> B) (l m : nat) (V : list (list (list Z))) (thetas w : list (list Z)) : res (list (list Z)) :=
  rbind (gr_lagrange K (mul_points (m + 1)) f) (fun lag => gr_prove K f n cf l m V thetas lag w).
(** The two verifications, and the final comparison. *)
Definition gr_verdicts (K : Z) (f : list Z) (n : nat) (l m : nat) (V1 V2 : list (list (list Z))) (betas : list (list Z)) (r : list Z) (p1 p2 : dproof (list Z)) : res (dshare (list Z) * dshare (list Z)) :=
  rbind (gr_lagrange K (mul_points (m + 1)) f) (fun lag =>
  rbind (gr_verify_pi K f n l m betas r lag (mul_points (m + 1)) V1 p1) (fun s1 =>
  rbind (gr_verify_pi K f n l m betas r lag (mul_points (m + 1)) V2 p2) (fun s2 => Ok (s1, s2)))).
Definition gr_check (K : Z) (f : list Z) (n : nat) (cf : forall B : Type, rops B -> list B -> B) (l m : nat) (V1 V2 : list (list (list Z))) (thetas betas : list (list Z)) (r : list Z) (p1 p2 : dproof (list Z)) : res unit :=
  rbind (gr_verdicts K f n l m V1 V2 betas r p1 p2) (fun s => gr_combine K f n cf l thetas (fst s) (snd s)).

(** ** Multiplications *)
Definition mul_wf (K : Z) (g : pinput Z) : Prop := Forall (inr K) [p_a0 g; p_a1 g; p_b0 g; p_b1 g; p_r g; p_s g].
Definition mul_correct (K : Z) (g : pinput Z) : Prop :=
  p_s g mod 2 ^ K = (p_a0 g * p_b0 g + p_a0 g * p_b1 g + p_a1 g * p_b0 g + p_r g) mod 2 ^ K.
Definition mul_join (K : Z) (g h : pinput Z) : pinput Z :=
  PIn (radd K (p_a0 g) (p_a0 h)) (radd K (p_a1 g) (p_a1 h)) (radd K (p_b0 g) (p_b0 h)) (radd K (p_b1 g) (p_b1 h)) (radd K (p_r g) (p_r h)) (radd K (p_s g) (p_s h)).
Definition mul_joined (K : Z) (gates gates1 gates2 : list (pinput Z)) : Prop :=
  Forall (mul_wf K) gates1 /\ Forall (mul_wf K) gates2 /\ length gates1 = length gates /\ length gates2 = length gates /\
  forall k, (k < length gates)%nat -> nth k gates pin_zero = mul_join K (nth k gates1 pin_zero) (nth k gates2 pin_zero).
Definition mul_prover (K : Z) (f : list Z) (l m : nat) (gates : list (pinput Z)) := gr_prover K f 6 c_mul l m (map mul_inputs gates).
Definition mul_verdicts (K : Z) (f : list Z) (l m : nat) (gates1 gates2 : list (pinput Z)) := gr_verdicts K f 6 l m (map mul_inputs gates1) (map mul_inputs gates2).
Definition mul_check (K : Z) (f : list Z) (l m : nat) (gates1 gates2 : list (pinput Z)) := gr_check K f 6 c_mul l m (map mul_inputs gates1) (map mul_inputs gates2).

(** ** Inner products of vectors of length dot *)
Definition dot_wf (K : Z) (dot : nat) (g : dinput) : Prop :=
  Forall (fun v => length v = dot /\ Forall (inr K) v) [d_a0 g; d_a1 g; d_b0 g; d_b1 g] /\ inr K (d_r g) /\ inr K (d_s g).
Definition zdot (a b : list Z) : Z := fold_right Z.add 0 (map2 Z.mul a b).
Definition dot_correct (K : Z) (g : dinput) : Prop :=
  d_s g mod 2 ^ K = (zdot (d_a0 g) (d_b0 g) + zdot (d_a0 g) (d_b1 g) + zdot (d_a1 g) (d_b0 g) + d_r g) mod 2 ^ K.
Definition dot_join (K : Z) (g h : dinput) : dinput :=
  DIn (map2 (radd K) (d_a0 g) (d_a0 h)) (map2 (radd K) (d_a1 g) (d_a1 h)) (map2 (radd K) (d_b0 g) (d_b0 h)) (map2 (radd K) (d_b1 g) (d_b1 h))
    (radd K (d_r g) (d_r h)) (radd K (d_s g) (d_s h)).
Definition din_nil : dinput := DIn [] [] [] [] 0 0.
Definition dot_joined (K : Z) (dot : nat) (gates gates1 gates2 : list dinput) : Prop :=
  Forall (dot_wf K dot) gates1 /\ Forall (dot_wf K dot) gates2 /\ length gates1 = length gates /\ length gates2 = length gates /\
  forall k, (k < length gates)%nat -> nth k gates din_nil = dot_join K (nth k gates1 din_nil) (nth k gates2 din_nil).
Definition dot_prover (K : Z) (f : list Z) (dot l m : nat) (gates : list dinput) := gr_prover K f (4 * dot + 2) (c_dot dot) l m (map dot_inputs gates).
Definition dot_verdicts (K : Z) (f : list Z) (dot l m : nat) (gates1 gates2 : list dinput) := gr_verdicts K f (4 * dot + 2) l m (map dot_inputs gates1) (map dot_inputs gates2).
Definition dot_check (K : Z) (f : list Z) (dot l m : nat) (gates1 gates2 : list dinput) := gr_check K f (4 * dot + 2) (c_dot dot) l m (map dot_inputs gates1) (map dot_inputs gates2).

(** ** Elements *)
(** k polynomials with coefficients in Z/2^K *)
Definition polys (K : Z) (k : nat) (ps : list (list Z)) : Prop := length ps = k /\ Forall (Forall (inr K)) ps.
(** An element as the code draws it: d coefficients. *)
Definition element (K : Z) (d : nat) (p : list Z) : Prop := length p = d /\ Forall (inr K) p.
Definition elements (K : Z) (d k : nat) (ps : list (list Z)) : Prop := length ps = k /\ Forall (element K d) ps.
Definition gr_share (K : Z) (n l m : nat) (p : dproof (list Z)) : Prop := polys K (n * l) (dp_w p) /\ polys K (2 * m + 1) (dp_a p).
(** The last coefficient is not zero, or there is only one. *)
Definition leading (p : list Z) : Prop := exists q c, p = q ++ [c] /\ (c <> 0 \/ q = []).
(** The same element modulo 2. *)
Definition same_mod2 (p q : list Z) : Prop := forall i, Z.odd (nth i p 0) = Z.odd (nth i q 0).
Fixpoint different_mod2 (ps : list (list Z)) : Prop := match ps with [] => True | p :: ps => (forall q, In q ps -> ~ same_mod2 q p) /\ different_mod2 ps end.

(** The sum of the products p_j * q_(i - j). *)
Fixpoint conv (p q : list Z) (i : nat) : Z :=
  match p with [] => 0 | a :: p => a * nth i q 0 + match i with O => 0 | S i => conv p q i end end.
