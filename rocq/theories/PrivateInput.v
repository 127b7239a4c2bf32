(** input_all leaks nothing about the other parties' inputs. *)
From Verif Require Import Base Ring RingProofs BitArith Prog Sched Rel Rng Net Iris Aby3 ShareSpec Aby3Proofs ViewSpec Private PrivateOps PrivateAby3.

Lemma pp_input_all i K (HW : In K widths) : ppriv i (inr K) (fun j x => input_all tape j K x) (fun _ r => okL K 3 r).
Proof.
  pose proof (HK0 K HW) as HK.
  pose proof (pp_many i K (radd K) (rsub K) 3 (inr K) (fun _ => [0; 1; 2]) (fun _ => [tt; tt; tt])
    (fun j x id _ => if id =? pid_num j then x else 0)
    (fun j x id _ r => retM (if id =? pid_num j then radd K r x else r)) HW (maskop_add K HK)) as H.
  assert (Z0 : inr K 0) by (pose proof (pow2_pos K HK); unfold inr; lia).
  specialize (H (fun _ _ => conj eq_refl eq_refl)).
  apply H. intros j x a b Hx _. split.
  - destruct (a =? pid_num j); assumption.
  - intros r s Hr. unfold retM. destruct (a =? pid_num j); f_equal; f_equal; unfold radd.
    + f_equal. apply Z.add_comm.
    + rewrite Z.add_0_l. symmetry. apply Z.mod_small, Hr.
Qed.
