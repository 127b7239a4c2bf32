(** Managed channels (mpc-net/src/channel.rs) and network configuration (mpc-net/src/config.rs,
    aby3/network.rs). *)
From Verif Require Import Base Ring Prog.

(** ** Framing: tokio_util LengthDelimitedCodec::new() (a dependency; lib.rs:172 uses its defaults:
    4-byte big-endian length, at most 8 MiB per frame). *)
Definition max_frame : Z := 8 * 1024 * 1024.
Definition fits (m : msg) : bool := Z.of_nat (length m) <=? max_frame.
Definition frame (m : msg) : list Z := to_be 4 (Z.of_nat (length m)) ++ m.
(** The next complete frame in a read buffer, if any. *)
Definition decode (buf : list Z) : option (msg * list Z) :=
  if Nat.ltb (length buf) 4 then None
  else
    let n := Z.to_nat (of_be (firstn 4 buf)) in
    let rest := skipn 4 buf in
    if Nat.ltb (length rest) n then None else Some (firstn n rest, skipn n rest).

(** ** One direction of a connection: the sending end's write side and the receiving end's read side.
    channel.rs:129-135 (ChannelHandle), 137-190 (manage: two queues of capacity 8, one task for each).
    Jobs carry the number of the call that submitted them, in place of their oneshot sender. *)
Definition capacity : nat := 8.
Record chan := Chan {
  c_wsub : nat;                          (* send calls so far *)
  c_wq : list (nat * msg);               (* write_job_queue *)
  c_wcur : option (nat * list Z);        (* the job in write.send(..), and its bytes not yet written *)
  c_wret : list (nat * bool);            (* results returned to send calls *)
  c_net : list Z;                        (* bytes in flight *)
  c_buf : list Z;                        (* FramedRead's buffer *)
  c_rsub : nat;                          (* recv calls so far *)
  c_rq : list nat;                       (* read_job_queue *)
  c_rcur : option nat;                   (* the job in read.next() *)
  c_rret : list (nat * option msg);      (* results returned to recv calls; None: an error *)
  c_alive : bool                         (* the connection is up *)
}.
Definition chan0 : chan := Chan 0 [] None [] [] [] 0 [] None [] true.

(** What can happen next.  [Submit*]: a client calls send / recv (blocks while the queue is full,
    channel.rs:192-254); the other moves belong to the two tasks, to the network, or are a failure. *)
Inductive move := MSend (m : msg) | MRecv | MTakeW | MWrite | MDoneW | MDeliver | MTakeR | MDoneR | MCut | MFailW | MFailR.

Inductive cmove : move -> chan -> chan -> Prop :=
(** channel.rs:192-206, 223-237 *)
| mv_send m ws wq wc wr nt bf rs rq rc rr al : (length wq < capacity)%nat ->
    cmove (MSend m) (Chan ws wq wc wr nt bf rs rq rc rr al) (Chan (S ws) (wq ++ [(ws, m)]) wc wr nt bf rs rq rc rr al)
(** channel.rs:208-222, 239-253 *)
| mv_recv ws wq wc wr nt bf rs rq rc rr al : (length rq < capacity)%nat ->
    cmove MRecv (Chan ws wq wc wr nt bf rs rq rc rr al) (Chan ws wq wc wr nt bf (S rs) (rq ++ [rs]) rc rr al)
(** channel.rs:171-173: take the oldest job; the codec rejects oversized messages, nothing is written *)
| mv_take ws n m wq wr nt bf rs rq rc rr al :
    cmove MTakeW (Chan ws ((n, m) :: wq) None wr nt bf rs rq rc rr al)
      (if fits m then Chan ws wq (Some (n, frame m)) wr nt bf rs rq rc rr al
       else Chan ws wq None (wr ++ [(n, false)]) nt bf rs rq rc rr al)
(** bytes leave one by one (any grouping is a sequence of these) *)
| mv_write ws wq n b bs wr nt bf rs rq rc rr :
    cmove MWrite (Chan ws wq (Some (n, b :: bs)) wr nt bf rs rq rc rr true) (Chan ws wq (Some (n, bs)) wr (nt ++ [b]) bf rs rq rc rr true)
(** channel.rs:174-184 *)
| mv_done ws wq n wr nt bf rs rq rc rr al :
    cmove MDoneW (Chan ws wq (Some (n, [])) wr nt bf rs rq rc rr al) (Chan ws wq None (wr ++ [(n, true)]) nt bf rs rq rc rr al)
(** and arrive in order (QUIC stream) *)
| mv_deliver ws wq wc wr b nt bf rs rq rc rr :
    cmove MDeliver (Chan ws wq wc wr (b :: nt) bf rs rq rc rr true) (Chan ws wq wc wr nt (bf ++ [b]) rs rq rc rr true)
(** channel.rs:152 *)
| mv_taker ws wq wc wr nt bf rs r rq rr al :
    cmove MTakeR (Chan ws wq wc wr nt bf rs (r :: rq) None rr al) (Chan ws wq wc wr nt bf rs rq (Some r) rr al)
(** channel.rs:153-166: a frame is complete *)
| mv_doner ws wq wc wr nt bf rs rq r rr al m rest : decode bf = Some (m, rest) ->
    cmove MDoneR (Chan ws wq wc wr nt bf rs rq (Some r) rr al) (Chan ws wq wc wr nt rest rs rq None (rr ++ [(r, Some m)]) al)
(** the connection breaks: bytes in flight are lost *)
| mv_cut ws wq wc wr nt bf rs rq rc rr :
    cmove MCut (Chan ws wq wc wr nt bf rs rq rc rr true) (Chan ws wq wc wr [] bf rs rq rc rr false)
(** afterwards writing fails, and so does reading once no complete frame is left (channel.rs:153-156) *)
| mv_failw ws wq n bs wr nt bf rs rq rc rr :
    cmove MFailW (Chan ws wq (Some (n, bs)) wr nt bf rs rq rc rr false) (Chan ws wq None (wr ++ [(n, false)]) nt bf rs rq rc rr false)
| mv_failr ws wq wc wr nt bf rs rq r rr : decode bf = None ->
    cmove MFailR (Chan ws wq wc wr nt bf rs rq (Some r) rr false) (Chan ws wq wc wr nt bf rs rq None (rr ++ [(r, None)]) false).

Inductive moves : list move -> chan -> chan -> Prop :=
| moves_nil c : moves [] c c
| moves_snoc ms m c c' c'' : moves ms c c' -> cmove m c' c'' -> moves (ms ++ [m]) c c''.

(** The messages handed to send, in order. *)
Fixpoint submitted (ms : list move) : list msg :=
  match ms with [] => [] | MSend m :: ms => m :: submitted ms | _ :: ms => submitted ms end.

(** ** config.rs:22-43.  Only the ids matter; sort_unstable is some sorting function (here insertion
    sort), dedup removes consecutive duplicates. *)
Fixpoint insert (x : Z) (l : list Z) : list Z :=
  match l with [] => [x] | y :: t => if x <=? y then x :: y :: t else y :: insert x t end.
Fixpoint sort (l : list Z) : list Z := match l with [] => [] | x :: t => insert x (sort t) end.
Fixpoint dedup (l : list Z) : list Z :=
  match l with
  | [] => []
  | x :: t => match t with
              | [] => [x]
              | y :: _ => if x =? y then dedup t else x :: dedup t
              end
  end.
Definition check_config (my_id : Z) (ids : list Z) : res unit :=
  match find (fun p => p =? my_id) ids with
  | None => Err EOther
  | Some _ => if negb (Nat.eqb (length (dedup (sort ids))) (length ids)) then Err EOther else Ok tt
  end.
(** aby3/id.rs:33-44 *)
Definition pid_of (z : Z) : res pid := if z =? 0 then Ok P0 else if z =? 1 then Ok P1 else if z =? 2 then Ok P2 else Err (EId z).
(** aby3/network.rs:18-43 with mpc-net lib.rs:36-151: the configuration checks; connecting is assumed to
    succeed and yields one channel for every id other than my_id. *)
Definition network_new (my_id : Z) (ids : list Z) : res pid :=
  rbind (pid_of my_id) (fun i =>
    if negb (Nat.eqb (length ids) 3) then Err ENumParty
    else rbind (check_config my_id ids) (fun _ =>
      let channels := filter (fun p => negb (p =? my_id)) ids in
      if existsb (fun p => p =? pid_num (next i)) channels
      then if existsb (fun p => p =? pid_num (prev i)) (filter (fun p => negb (p =? pid_num (next i))) channels) then Ok i else Err EConfig
      else Err EConfig)).
