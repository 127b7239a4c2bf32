(** Hash function, commitments, broadcast, joint message passing, coins and the hash-based zero check:
    code shared (with identical bodies) by aby3_mal/protocol.rs and spdzwise/protocol.rs. *)
From Verif Require Import Base Ring Prog Rng Net Aby3.

(** sha2::Sha512 as an arbitrary function with 64-byte output; consecutive [update]s hash the
    concatenation. *)
Record hasher := Hasher { hfun : list Z -> list Z; hlen : forall m, length (hfun m) = 64%nat }.

Fixpoint bytes_eqb (a b : list Z) : bool :=
  match a, b with
  | [], [] => true
  | x :: a, y :: b => (x =? y) && bytes_eqb a b
  | _, _ => false
  end.

(** ** commitment/mod.rs *)
Record commitment := Commitment { c_values : list Z; c_rand : list Z; c_comm : list Z }.
Record opening := Opening { o_values : list Z; o_rand : list Z }.
(** mod.rs:40-48; [K] is the width of the ring type R *)
Definition commit_with_rand (H : hasher) (K : Z) (values rand : list Z) : commitment :=
  Commitment values rand (hfun H (ring_slice_to_bytes K values ++ rand)).
(** mod.rs:50-55 *)
Definition c_open (c : commitment) : opening := Opening (c_values c) (c_rand c).
(** mod.rs:58-68 *)
Definition o_verify (H : hasher) (K : Z) (o : opening) (comm : list Z) : bool :=
  bytes_eqb comm (hfun H (ring_slice_to_bytes K (o_values o) ++ o_rand o)).

(** ** aby3/network.rs:141-156, traits/test_network.rs:167-182: broadcast *)
Fixpoint send_all (i : pid) (ids : list pid) (d : msg) {A} (k : prog A) : prog A :=
  match ids with
  | [] => k
  | j :: t => if pid_eqb j i then send_all i t d k else Send j d (send_all i t d k)
  end.
Fixpoint recv_all (i : pid) (ids : list pid) (d : msg) : prog (list msg) :=
  match ids with
  | [] => Ret []
  | j :: t => if pid_eqb j i then bind (recv_all i t d) (fun l => Ret (d :: l))
              else Recv j (fun m => bind (recv_all i t d) (fun l => Ret (m :: l)))
  end.
Definition broadcast (i : pid) (d : msg) : prog (list msg) :=
  send_all i [P0; P1; P2] d (recv_all i [P0; P1; P2] d).

(** Run an operation on one component of the state ([&mut self.field]). *)
Definition zoom {S T A} (get : T -> S) (set : T -> S -> T) (p : M S A) : M T A :=
  fun t => bind (p (get t)) (fun r => Ret (set t (fst r), snd r)).

Section Jmp.
  Variable G : rng.
  Variable H : hasher.
  Variable i : pid.
  Local Open Scope M_scope.

  (** aby3_mal/protocol.rs:24-29: prf, send_queue_prev, rcv_queue_next
      (spdzwise/protocol.rs:26-36 has the same three among its fields) *)
  Record jst := JSt { j_prf : prf G; j_snd : list Z; j_rcv : list Z; j_log : list (list Z) }.
  (** ghost: remember the strings fed to the hash function by the verification steps *)
  Definition j_hashed (ms : list (list Z)) (s : jst) : jst := JSt (j_prf s) (j_snd s) (j_rcv s) (j_log s ++ ms).
  Definition on_prf {A} (p : M (prf G) A) : M jst A :=
    zoom j_prf (fun s p => JSt p (j_snd s) (j_rcv s) (j_log s)) p.

  (** aby3_mal 47-50, spdzwise 163-166 *)
  Definition jmp_send (K v : Z) : M jst unit := liftM (send_value (next i) K v).
  (** 52-55 / 168-171 *)
  Definition jmp_buffer (K v : Z) : M jst unit :=
    s <- getM ;; putM (JSt (j_prf s) (add_to_bytes K v (j_snd s)) (j_rcv s) (j_log s)).
  (** 57-60 / 173-176 *)
  Definition jmp_send_many (K : Z) (vs : list Z) : M jst unit := liftM (send_vec (next i) K vs).
  (** 62-66 / 178-182 *)
  Definition jmp_buffer_many (K : Z) (vs : list Z) : M jst unit :=
    s <- getM ;; putM (JSt (j_prf s) (fold_left (fun out v => add_to_bytes K v out) vs (j_snd s)) (j_rcv s) (j_log s)).
  (** 68-72 / 184-188 *)
  Definition jmp_receive (K : Z) : M jst Z :=
    v <- liftM (receive_value (prev i) K) ;;
    s <- getM ;;
    putM (JSt (j_prf s) (j_snd s) (add_to_bytes K v (j_rcv s)) (j_log s)) ;;;
    retM v.
  (** 74-82 / 190-198 *)
  Definition jmp_receive_many (K : Z) (n : nat) : M jst (list Z) :=
    vs <- liftM (receive_vec (prev i) K n) ;;
    s <- getM ;;
    putM (JSt (j_prf s) (j_snd s) (fold_left (fun out v => add_to_bytes K v out) vs (j_rcv s)) (j_log s)) ;;;
    retM vs.
  (** 84-92 / 200-208 *)
  Definition jmp_send_receive (K snd buf : Z) : M jst Z :=
    jmp_buffer K buf ;;; jmp_send K snd ;;; jmp_receive K.
  (** 94-103 / 210-219 *)
  Definition jmp_send_receive_many (K : Z) (snd buf : list Z) : M jst (list Z) :=
    jmp_buffer_many K buf ;;; jmp_send_many K snd ;;; jmp_receive_many K (length snd).
  (** 105-120, 1327-1334 / 221-246 *)
  Definition jmp_verify : M jst unit :=
    s <- getM ;;
    let send_prev := hfun H (j_snd s) in
    let hash_next := hfun H (j_rcv s) in
    putM (JSt (j_prf s) [] [] (j_log s ++ [j_snd s; j_rcv s])) ;;;
    rcv <- liftM (Send (prev i) send_prev (Recv (next i) Ret)) ;;
    if bytes_eqb rcv hash_next then retM tt else failM EJmpVerify.

  (** prf.gen_rands::<[u8; 32]>() *)
  Definition gen_rands_seed : M (prf G) (list Z * list Z) := fun p =>
    let '(m, a) := draw_bytes G 32 (my_prf G p) in
    let '(n, b) := draw_bytes G 32 (next_prf G p) in
    Ret (Prf G m n, (a, b)).
  (** 122-145 / 248-272 *)
  Definition coin : M jst (list Z) :=
    ab <- on_prf gen_rands_seed ;;
    seed3 <- jmp_send_receive_many 8 (snd ab) (fst ab) ;;
    retM (map2 (fun s1 s23 => rxor s1 (rxor (snd s23) (fst s23))) (fst ab) (combine (snd ab) seed3)).

  (** The triple of summands a party feeds to the hasher for a share of (supposedly) zero:
      aby3_mal 254-275, spdzwise 91-112. *)
  Definition zero_bytes (U : Z) (w : share) : list Z :=
    let wa := sa w in let wb := sb w in
    let w_neg := rsub U (rneg U wa) wb in
    match i with
    | P0 => hash_bytes U wa ++ hash_bytes U w_neg ++ hash_bytes U wb
    | P1 => hash_bytes U wb ++ hash_bytes U wa ++ hash_bytes U w_neg
    | P2 => hash_bytes U w_neg ++ hash_bytes U wb ++ hash_bytes U wa
    end.
  (** Comparing the three broadcast digests: aby3_mal 276-284, 410-419, 509-516, 644-651;
      spdzwise 113-128 *)
  Definition zero_verify (U : Z) (ws : list share) : M jst unit :=
    s <- getM ;;
    putM (j_hashed [flat_map (zero_bytes U) ws] s) ;;;
    hs <- liftM (broadcast i (hfun H (flat_map (zero_bytes U) ws))) ;;
    h0 <- resM (index hs 0) ;; h1 <- resM (index hs 1) ;; h2 <- resM (index hs 2) ;;
    if negb (bytes_eqb h0 h1) || negb (bytes_eqb h0 h2) then failM EVerify else retM tt.

  (** aby3_mal 872-878: open without jmp_verify *)
  Definition reconstruct (K : Z) (x : share) : M jst Z :=
    c <- jmp_send_receive K (sb x) (sa x) ;; retM (radd K (radd K (sa x) (sb x)) c).
  (** aby3_mal 880-906 *)
  Definition reconstruct_many (K : Z) (xs : list share) : M jst (list Z) :=
    cs <- jmp_send_receive_many K (map sb xs) (map sa xs) ;;
    retM (map2 (fun s c => radd K (radd K c (sa s)) (sb s)) xs cs).
  (** aby3_mal 908-934, spdzwise 555-586 *)
  Definition reconstruct_binary_many (K : Z) (xs : list share) : M jst (list Z) :=
    cs <- jmp_send_receive_many K (map sb xs) (map sa xs) ;;
    retM (map2 (fun s c => rxor (rxor c (sa s)) (sb s)) xs cs).
End Jmp.
