(** Specification vocabulary for property C58: programs with inputs. *)
From Verif Require Import Base Ring Prog Conc Rng MpcSpec Client Aby3 Jmp Aby3Mal Duo DuoProofs ProgMalSpec.

(** The programs of C57 and inputs (traits/mpc_trait.rs:22, aby3_mal/protocol.rs:1000-1041). *)
Definition sharing (c : cmd) : bool := match c with CInput _ _ => true | _ => arithmetic c end.
(** How many ring values a call adds to those computed so far. *)
Definition produced (c : cmd) : nat :=
  match c with
  | CInput _ _ | CAdd _ _ | CSub _ _ | CAddConst _ _ | CSubConst _ _ | CMulConst _ _ | CMul _ _ | CDot _ _ => 1
  | CDotMany ms _ => length ms
  | _ => 0
  end.
(** The program with, for the inputs of party k, the values that the shares ri and rj of two other parties (all the
    values they hold at the end, in the order in which they were computed; n of them before the first call)
    stand for. *)
Definition third_input (k : pid) (K : Z) (ri rj : list share) (n : nat) (c : cmd) : cmd :=
  match c with
  | CInput p x => if pid_eqb p k then CInput p (joint K (nth n ri szero) (nth n rj szero)) else c
  | _ => c
  end.
Fixpoint third_inputs (k : pid) (K : Z) (ri rj : list share) (n : nat) (cs : list cmd) : list cmd :=
  match cs with
  | [] => []
  | c :: cs => third_input k K ri rj n c :: third_inputs k K ri rj (n + produced c) cs
  end.
