(** What a user of the network expects of its set-up.  Specification file. *)
From Coq Require Import Permutation.
From Verif Require Import Base Channel Establish.

(** The processes have different ids that fit into a u32 (the code sends ids as u32). *)
Definition distinct_ids (w : world) : Prop := NoDup (w_ids w) /\ forall p, In p (w_ids w) -> 0 <= p < 2 ^ 32.
(** ids are unsigned *)
Definition unsigned_conf (w : world) : Prop := forall p e, In e (w_conf w p) -> 0 <= e_id e.

(** Every process's configuration lists all processes, in an order of its own, under addresses that lead to
    them and names their certificates are valid for. *)
Definition configured (w : world) : Prop :=
  distinct_ids w /\ forall p, In p (w_ids w) ->
    Permutation (map e_id (w_conf w p)) (w_ids w) /\
    forall e, In e (w_conf w p) -> w_host w (e_addr e) = Some (e_id e) /\ w_tls w p (e_id e) (e_name e) = true.

(** Connection n has been opened by one of p, q to the other. *)
Definition between (s : net) (n : nat) (p q : Z) : Prop :=
  (c_client (n_conn s n) = p /\ c_server (n_conn s n) = q) \/ (c_client (n_conn s n) = q /\ c_server (n_conn s n) = p).

(** Everybody has one channel to each of the others, the two ends of which are with the two of them. *)
Definition wired (w : world) (s : net) : Prop := forall p, In p (w_ids w) ->
  exists ch, n_at s p = Ready ch /\ NoDup (map fst ch) /\
    (forall q, In q (map fst ch) <-> In q (w_ids w) /\ q <> p) /\
    forall q n, In (q, n) ch -> between s n p q /\ exists ch', n_at s q = Ready ch' /\ In (p, n) ch'.
