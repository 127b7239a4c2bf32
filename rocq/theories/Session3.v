(** Sessions of Swift3's joint message passing, for stating what its verification guarantees against a
    malicious party.  Specification file. *)
From Verif Require Import Base Ring Prog Rng Net Aby3 Jmp Session Swift3.

(** What an honest party does: send values to a party, remember values that it vouches for towards a party
    (somebody else sends them), receive values from a party, verify. *)
Inductive wop : Type :=
| WSend (K v : Z) (to : pid) | WSendMany (K : Z) (vs : list Z) (to : pid)
| WQueue (K v : Z) (to : pid) | WQueueMany (K : Z) (vs : list Z) (to : pid)
| WReceive (K : Z) (from : pid) | WReceiveMany (K : Z) (n : nat) (from : pid)
| WVerify.

Section Session3.
  Variables (G : rng) (H : hasher) (i : pid).
  Local Open Scope M_scope.
  (** Executes the operations; returns, per verification, the values received since the one before: each with
      its sender and the width of its type. *)
  Fixpoint session3 (ops : list wop) (cur : list (pid * (Z * Z))) : M (sst G) (list (list (pid * (Z * Z)))) :=
    match ops with
    | [] => retM []
    | WSend K v to :: ops => w_send G K v to ;;; session3 ops cur
    | WSendMany K vs to :: ops => w_send_many G K vs to ;;; session3 ops cur
    | WQueue K v to :: ops => w_queue G i K v to ;;; session3 ops cur
    | WQueueMany K vs to :: ops => w_queue_many G i K vs to ;;; session3 ops cur
    | WReceive K from :: ops => v <- w_receive G i K from ;; session3 ops (cur ++ [(from, (K, v))])
    | WReceiveMany K n from :: ops => vs <- w_receive_many G i K from n ;; session3 ops (cur ++ map (fun v => (from, (K, v))) vs)
    | WVerify :: ops => w_verify G H i ;;; l <- session3 ops [] ;; retM (cur :: l)
    end.
End Session3.

(** The values that a sequence of receptions got from party k. *)
Definition got_from (k : pid) (l : list (pid * (Z * Z))) : list (Z * Z) := map snd (filter (fun x => pid_eqb (fst x) k) l).
(** The values vouched for towards party i between consecutive verifications. *)
Fixpoint vouched (i : pid) (ops : list wop) (cur : list (Z * Z)) : list (list (Z * Z)) :=
  match ops with
  | [] => []
  | WQueue K v to :: ops => vouched i ops (if pid_eqb to i then cur ++ [(K, v)] else cur)
  | WQueueMany K vs to :: ops => vouched i ops (if pid_eqb to i then cur ++ map (pair K) vs else cur)
  | WVerify :: ops => cur :: vouched i ops []
  | _ :: ops => vouched i ops cur
  end.
(** The messages a session sends to i, and those it expects from j: false for values, true for the digest
    that belongs to a verification. *)
Definition sends_to (i : pid) (ops : list wop) : list bool :=
  flat_map (fun o => match o with WSend _ _ to | WSendMany _ _ to => if pid_eqb to i then [false] else [] | WVerify => [true] | _ => [] end) ops.
Definition expects_from (j : pid) (ops : list wop) : list bool :=
  flat_map (fun o => match o with WReceive _ from | WReceiveMany _ _ from => if pid_eqb from j then [false] else [] | WVerify => [true] | _ => [] end) ops.

(** Joint messages among honest parties.  In a round, [from] and a third party know the values; [from] sends them to [to] and
    the third party vouches for them. *)
Record round := Round { r_width : Z; r_from : pid; r_to : pid; r_vals : list Z }.
Definition round_ok (r : round) : Prop := In (r_width r) widths /\ r_from r <> r_to r /\ Forall (inr (r_width r)) (r_vals r).
Definition round_op (i : pid) (r : round) : wop :=
  if pid_eqb i (r_from r) then WSendMany (r_width r) (r_vals r) (r_to r)
  else if pid_eqb i (r_to r) then WReceiveMany (r_width r) (length (r_vals r)) (r_from r)
  else WQueueMany (r_width r) (r_vals r) (r_to r).
(** Rounds, each group followed by a verification. *)
Definition rounds_ops (i : pid) (segs : list (list round)) : list wop := flat_map (fun seg => map (round_op i) seg ++ [WVerify]) segs.
(** What party i gets in a group of rounds. *)
Definition gets (i : pid) (seg : list round) : list (pid * (Z * Z)) :=
  flat_map (fun r => if pid_eqb i (r_to r) then map (fun v => (r_from r, (r_width r, v))) (r_vals r) else []) seg.
