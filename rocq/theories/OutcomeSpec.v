(** Specification vocabulary for runs in which the parties may end differently. *)
From Verif Require Import Base Prog.

(** The honest run ends in every schedule, after a bounded number of steps and with no message left over, with
    party i returning F i: its final state and result, or an error. *)
Definition honest_outcome {S A} (P : pid -> M S A) (s : pid -> S) (F : pid -> res (S * A)) : Prop :=
  let final := Cfg (tabulate (fun i => of_res (F i))) noq in
  exists n : nat, forall sched c, steps sched (start (fun i => P i (s i))) c ->
    (length sched <= n)%nat /\
    (exists sched', steps sched' c final /\ (length sched + length sched' = n)%nat) /\
    (stuck c -> c = final).

(** In every schedule of the honest run: it ends after a bounded number of steps; a party that returns, returns
    its value of a; and if no party can move, then all three have returned, with no message left over, or some
    party has stopped with an error. *)
Definition right_or_stopped {S A} (P : pid -> M S A) (s : pid -> S) (a : pid -> A) : Prop :=
  exists n : nat, forall sched c, steps sched (start (fun i => P i (s i))) c ->
    (length sched <= n)%nat /\
    (forall i x, get (progs c) i = Ret x -> snd x = a i) /\
    (stuck c -> (exists s', c = finished (fun i => (s' i, a i))) \/ exists i e, get (progs c) i = Fail e).
