(** Specification vocabulary for property C59: programs with comparisons and Boolean operations. *)
From Verif Require Import Base Ring Prog Conc Rng MpcSpec Client Aby3 Jmp Aby3Mal Duo DuoProofs MacProofs ProgMalSpec.

Section Bits.
  Variables (G : rng) (H : hasher).
  (** Party p is about to start the check (protocol.rs:348-431) of a batch of bit triples: q, what p still has
      to do, starts with that check, on the factors a, a' and b and the alleged products cs, in state s. *)
  Definition at_check {A} (p : pid) (q : prog A) (s : jst G) (a a' b cs : list share) : Prop :=
    exists k, peq q (bind (mul_triple_check_many G H p 1 (length b) a a' b cs s) k).
  (** Bit triples as rows of one factor. *)
  Definition bit_sac (a a' b cs : list share) : sac := Sac (map (fun x => [x]) a) (map (fun x => [x]) a') (map (fun x => [x]) b) cs.
  (** During the execution of p by party i (actions ti) and q by i+1 (tj), they check the same number of bit
      triples, one of them is wrong and the challenge misses it. *)
  Definition lucky_bits {A B} (i : pid) (p : prog A) (q : prog B) (ti tj : list act) : Prop :=
    exists ti1 ti2 tj1 tj2 p' q' s a1 a1' b1 c1 t a2 a2' b2 c2 n,
      ti = ti1 ++ ti2 /\ tj = tj1 ++ tj2 /\ lrun p ti1 p' /\ lrun q tj1 q' /\
      at_check i p' s a1 a1' b1 c1 /\ at_check (next i) q' t a2 a2' b2 c2 /\
      length a1 = length b1 /\ length a1' = length b1 /\ length c1 = (length b1 + length b1)%nat /\
      length a2 = length b1 /\ length a2' = length b1 /\ length b2 = length b1 /\ length c2 = (length b1 + length b1)%nat /\
      lucky 1 (challenge G (verif_width 1) (duo_seed G s t)) (bit_sac a1 a1' b1 c1) (bit_sac a2 a2' b2 c2) n.
End Bits.
