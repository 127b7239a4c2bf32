(** What it means for three parties to hold a sharing.  Specification file: independent of the
    protocols. *)
From Verif Require Import Base Ring Aby3.

(** Replicated additive sharing of x modulo 2^K: x = x_0 + x_1 + x_2 and party i holds
    (x_i, x_{i-1}). *)
Definition arith_shared (K : Z) (X : pid -> share) (x : Z) : Prop :=
  (forall i, inr K (sa (X i))) /\
  (forall i, sb (X i) = sa (X (prev i))) /\
  x = (sa (X P0) + sa (X P1) + sa (X P2)) mod 2 ^ K.

(** Replicated xor sharing of a K-bit word x. *)
Definition bin_shared (K : Z) (X : pid -> share) (x : Z) : Prop :=
  (forall i, inr K (sa (X i))) /\
  (forall i, sb (X i) = sa (X (prev i))) /\
  x = Z.lxor (Z.lxor (sa (X P0)) (sa (X P1))) (sa (X P2)).

(** The parties' generators are pairwise in the same state. *)
Definition prf_synced {G} (s : pid -> prf G) : Prop :=
  forall i, next_prf G (s i) = my_prf G (s (prev i)).

(** Each party holds a vector; position by position the three vectors share [xs]. *)
Definition vec_shared {A B} (R : (pid -> A) -> B -> Prop) (X : pid -> list A) (xs : list B) : Prop :=
  (forall i, length (X i) = length xs) /\
  (forall n x, nth_error xs n = Some x ->
     exists Y, (forall i, nth_error (X i) n = Some (Y i)) /\ R Y x).

(** In the honest run of the three parties' programs from private states [s], every schedule
    terminates, without deadlock and with no message left over, in the same private states s' and
    results a, and these satisfy Q. *)
From Verif Require Import Prog.
Definition honest_run {S A} (P : pid -> M S A) (s : pid -> S) (Q : (pid -> S) -> (pid -> A) -> Prop) : Prop :=
  exists s' a, always_evals (fun i => P i (s i)) (fun i => (s' i, a i)) /\ Q s' a.

(** The program never delivers a result, whatever messages it receives. *)
Inductive no_result {A} : prog A -> Prop :=
| nr_fail e : no_result (Fail e)
| nr_send to m k : no_result k -> no_result (Send to m k)
| nr_recv from k : (forall m, no_result (k m)) -> no_result (Recv from k).

(** The honest run ends in every schedule, after a bounded number of steps and with no message left
    over, with all three parties stopped by the error e. *)
Definition honest_failure {S A} (P : pid -> M S A) (s : pid -> S) (e : err) : Prop :=
  let failed := Cfg (tabulate (fun _ => Fail e)) noq in
  exists n : nat, forall sched c, steps sched (start (fun i => P i (s i))) c ->
    (length sched <= n)%nat /\
    (exists sched', steps sched' c failed /\ (length sched + length sched' = n)%nat) /\
    (stuck c -> c = failed).
