(** Specification: what a run with connections being closed and processes being killed may end in. *)
From Verif Require Import Base Prog Shutdown.

Section Ending.
  Context {S A : Type}.
  Variables crashes orderly : bool.
  Variables (P : pid -> M S A) (s : pid -> S).
  Definition reached (k : nat) (c : ncfg (S * A)) : Prop := fsteps crashes orderly k (fstart (fun i => P i (s i))) c.

  (** Whoever returns a value returns the one of the undisturbed run; without crashes the only error there
      is is the lost connection; nobody runs or waits for ever. *)
  Definition ends_safely (Q : (pid -> S) -> (pid -> A) -> Prop) : Prop := exists s' a n, Q s' a /\
    forall k c, reached k c ->
      (k <= n)%nat /\
      (forall i t v, at_ c i = Ret (t, v) -> t = s' i /\ v = a i) /\
      (forall i e, at_ c i = Fail e -> e = EIO \/ crashes = true) /\
      (fstuck crashes orderly c -> forall i, over (at_ c i) /\ n_closed c i = true).
  (** Everybody always gets the result. *)
  Definition all_return (Q : (pid -> S) -> (pid -> A) -> Prop) : Prop := exists s' a n, Q s' a /\
    forall k c, reached k c ->
      (k <= n)%nat /\ (forall i e, at_ c i <> Fail e) /\ (fstuck crashes orderly c -> forall i, at_ c i = Ret (s' i, a i)).
  (** In some run party i returns the right value while party j stops with a lost connection. *)
  Definition can_miss (Q : (pid -> S) -> (pid -> A) -> Prop) : Prop := exists s' a k c i j, Q s' a /\
    reached k c /\ at_ c i = Ret (s' i, a i) /\ at_ c j = Fail EIO.
End Ending.

(** Undisturbed, party i can be done while something it has sent has not been received. *)
Definition done_early {S A} (P : pid -> M S A) (s : pid -> S) : Prop :=
  exists sched d i j, steps sched (start (fun i => P i (s i))) d /\ over (get (progs d) i) /\ qget (qs d) i j <> [].
