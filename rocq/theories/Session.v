(** Sessions of joint message passing, for stating what verification guarantees against a malicious
    party.  Specification file. *)
From Verif Require Import Base Ring Prog Rng Net Aby3 Jmp.

(** What an honest party does: hand values to its successor, remember values for the hash it owes its
    predecessor, receive values from its predecessor, verify. *)
Inductive jop : Type :=
| OSend (K v : Z) | OBuffer (K v : Z) | OReceive (K : Z)
| OSendMany (K : Z) (vs : list Z) | OBufferMany (K : Z) (vs : list Z) | OReceiveMany (K : Z) (n : nat)
| OVerify.

Section Session.
  Variables (G : rng) (H : hasher) (i : pid).
  Local Open Scope M_scope.
  (** Executes the operations; returns, per verification, the values received since the one before
      (each with the width of its type). *)
  Fixpoint session (ops : list jop) (cur : list (Z * Z)) : M (jst G) (list (list (Z * Z))) :=
    match ops with
    | [] => retM []
    | OSend K v :: ops => jmp_send G i K v ;;; session ops cur
    | OBuffer K v :: ops => jmp_buffer G K v ;;; session ops cur
    | OReceive K :: ops => v <- jmp_receive G i K ;; session ops (cur ++ [(K, v)])
    | OSendMany K vs :: ops => jmp_send_many G i K vs ;;; session ops cur
    | OBufferMany K vs :: ops => jmp_buffer_many G K vs ;;; session ops cur
    | OReceiveMany K n :: ops => vs <- jmp_receive_many G i K n ;; session ops (cur ++ map (pair K) vs)
    | OVerify :: ops => jmp_verify G H i ;;; l <- session ops [] ;; retM (cur :: l)
    end.
End Session.

(** The values buffered between consecutive verifications. *)
Fixpoint buffered (ops : list jop) (cur : list (Z * Z)) : list (list (Z * Z)) :=
  match ops with
  | [] => []
  | OBuffer K v :: ops => buffered ops (cur ++ [(K, v)])
  | OBufferMany K vs :: ops => buffered ops (cur ++ map (pair K) vs)
  | OVerify :: ops => cur :: buffered ops []
  | _ :: ops => buffered ops cur
  end.

(** The wire representation of a sequence of typed values. *)
Definition wire (l : list (Z * Z)) : list Z := flat_map (fun Kv => to_bytes (fst Kv) (snd Kv)) l.

(** Two different inputs with the same hash. *)
Definition collision (H : hasher) (a b : list Z) : Prop := a <> b /\ hfun H a = hfun H b.
