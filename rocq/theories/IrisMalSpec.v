(** Specification vocabulary for property C60: the iris-code protocol on the maliciously secure ABY3 engine. *)
From Verif Require Import Base Ring Prog Conc Rng MpcSpec Client Aby3 Jmp Aby3Mal Duo DuoProofs MacProofs ProgMalSpec.

Section Dots.
  Variables (G : rng) (H : hasher) (K : Z).
  (** Party p is about to start the check (protocol.rs:577-651) of a batch of inner products: q, what p still has
      to do, starts with that check, on the rows and the alleged products x, in state s. *)
  Definition at_dots {A} (p : pid) (q : prog A) (s : jst G) (x : sac) : Prop :=
    exists k, peq q (bind (dot_sacrifice_check_many G H p K (length (sac_a x)) (sac_a x) (sac_a' x) (sac_b x) (sac_c x) s) k).
  (** The same number of rows, of the same lengths. *)
  Definition same_rows (a b : list (list share)) : Prop := Forall2 (fun u v => length u = length v) a b.
  (** During the execution of p by party i (actions ti) and q by i+1 (tj), they check inner products of the same
      rows, one of them is wrong and the challenge misses it. *)
  Definition lucky_dots {A B} (i : pid) (p : prog A) (q : prog B) (ti tj : list act) : Prop :=
    exists ti1 ti2 tj1 tj2 p' q' s x t y n,
      ti = ti1 ++ ti2 /\ tj = tj1 ++ tj2 /\ lrun p ti1 p' /\ lrun q tj1 q' /\
      at_dots i p' s x /\ at_dots (next i) q' t y /\
      same_rows (sac_a x) (sac_b x) /\ same_rows (sac_a' x) (sac_b x) /\ length (sac_c x) = (length (sac_b x) + length (sac_b x))%nat /\
      same_rows (sac_b y) (sac_b x) /\ same_rows (sac_a y) (sac_b x) /\ same_rows (sac_a' y) (sac_b x) /\ length (sac_c y) = length (sac_c x) /\
      lucky K (challenge G (verif_width K) (duo_seed G s t)) x y n.
End Dots.
