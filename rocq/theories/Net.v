(** aby3/utils.rs:53-224: sending and receiving ring elements. *)
From Verif Require Import Base Ring Prog.
Local Open Scope prog_scope.

(** utils.rs:62-68 *)
Definition send_and_receive_value (i : pid) (K v : Z) : prog Z :=
  m <- send_and_receive i (to_bytes K v) ;; of_res (from_bytes K m).
(** utils.rs:70-77 *)
Definition send_slice_and_receive_vec (i : pid) (K : Z) (vs : list Z) : prog (list Z) :=
  m <- send_and_receive i (ring_slice_to_bytes K vs) ;; of_res (ring_vec_from_bytes K m (length vs)).
(** utils.rs:98-105, 126-133 (the returned iterator is drained by the caller) *)
Definition send_slice_and_receive_iter (i : pid) (K : Z) (vs : list Z) : prog (list Z) :=
  m <- send_and_receive i (ring_slice_to_bytes K vs) ;; of_res (ring_iter_from_bytes K m (length vs)).
(** utils.rs:79-96: both messages are sent before anything is received *)
Definition send_slices_and_receive_iters (i : pid) (K : Z) (v1 v2 : list Z) : prog (list Z * list Z) :=
  Send (next i) (ring_slice_to_bytes K v1)
    (Send (next i) (ring_slice_to_bytes K v2)
       (Recv (prev i) (fun m1 => Recv (prev i) (fun m2 =>
          r1 <- of_res (ring_iter_from_bytes K m1 (length v1)) ;;
          r2 <- of_res (ring_iter_from_bytes K m2 (length v2)) ;;
          Ret (r1, r2))))).

(** utils.rs:135-166: send_value, send_value_next, send_value_prev *)
Definition send_value (to : pid) (K v : Z) : prog unit := Send to (to_bytes K v) (Ret tt).
(** utils.rs:168-187 receive_value, receive_value_prev, receive_value_next *)
Definition receive_value (from : pid) (K : Z) : prog Z := Recv from (fun m => of_res (from_bytes K m)).
(** utils.rs:189-209 send_vec, send_vec_next, send_vec_prev *)
Definition send_vec (to : pid) (K : Z) (vs : list Z) : prog unit := Send to (ring_slice_to_bytes K vs) (Ret tt).
(** utils.rs:211-224 receive_vec, ... *)
Definition receive_vec (from : pid) (K : Z) (n : nat) : prog (list Z) :=
  Recv from (fun m => of_res (ring_vec_from_bytes K m n)).

(** utils.rs:22-32 *)
Definition bytes_to_seed (m : msg) : res (list Z) :=
  if Nat.eqb (length m) 32 then Ok m else Err EOther.
