(** Setting up the network: mpc-net/src/lib.rs:36-218 (establish, get_custom_channels) and
    iris-mpc/src/aby3/network.rs:18-43 (Aby3Network::new), for any number of processes.
    Quinn and rustls are the environment: what they may do is described by the steps below. *)
From Verif Require Import Base Channel.

(** config.rs:6-12 (bind_addr and cert_path do not appear: see [w_host], [w_tls]). *)
Record entry := Entry { e_id : Z; e_addr : Z; e_name : Z }.

(** The processes and what surrounds them.  Every process has its own configuration file.
    [w_host a]: the process whose endpoint is reached under the public address a.
    [w_tls p q s]: a TLS handshake in which client p expects the server name s and q presents its
    certificate succeeds (lib.rs:50-59, 73-76: all certificates of the configuration are roots; the clients
    show none).
    [w_lazy]: the client's handshake completes only once the server has called accept (quinn completes it
    in the background; the theorems hold either way).
    [w_faults]: waiting for the network may end in an error at any time (time-outs, broken connections).
    [w_outsiders]: somebody else may open connections to a server. *)
Record world := World {
  w_ids : list Z;
  w_conf : Z -> list entry;
  w_host : Z -> option Z;
  w_tls : Z -> Z -> Z -> bool;
  w_lazy : bool; w_faults : bool; w_outsiders : bool }.

(** A QUIC connection: who opened it to whom; whether the server's accept() has returned it; the u32 on the
    client's unidirectional stream; the first u32 in either direction of the bidirectional stream that
    carries the channel. *)
Record crec := CRec {
  c_client : Z; c_server : Z; c_accepted : bool;
  c_hello : option Z; c_opener : option Z; c_acceptor : option Z }.

(** Where a process stands.  [conns] is the BTreeMap of connections (lib.rs:87), [chans] the channels
    collected so far (lib.rs:197). *)
Definition cmap := list (Z * nat).
Inductive phase :=
| Down                                                    (* establish has not been called *)
| Loop (todo : list entry) (conns : cmap)                 (* head of the loop, lib.rs:89 *)
| Dial (e : entry) (todo : list entry) (conns : cmap) (n : nat)  (* connect_with(..).await, lib.rs:98-104 *)
| Hear (todo : list entry) (conns : cmap) (n : nat)       (* accept_uni/read_u32, lib.rs:128-129 *)
| Up (conns : cmap)                                       (* establish has returned *)
| Chans (todo : cmap) (chans : cmap)                      (* head of the loop, lib.rs:198 *)
| Wait (z : Z) (n : nat) (todo : cmap) (chans : cmap)     (* recv_stream.read_u32().await, lib.rs:203 *)
| Ready (chans : cmap)                                    (* get_*_channels has returned *)
| Dead (e : err).

(** BTreeMap::insert, None when the key is there already (the callers assert that it is not). *)
Fixpoint binsert (z : Z) (n : nat) (m : cmap) : option cmap :=
  match m with
  | [] => Some [(z, n)]
  | (k, v) :: t => if z <? k then Some ((z, n) :: m)
                   else if z =? k then None
                   else match binsert z n t with Some t' => Some ((k, v) :: t') | None => None end
  end.
(** assert!(connections.insert(..).is_none()), lib.rs:116, 130-135 *)
Definition inserted (z : Z) (n : nat) (m : cmap) (k : cmap -> phase) : phase :=
  match binsert z n m with Some m' => k m' | None => Dead EPanic end.
Definition u32 (z : Z) : Z := z mod 2 ^ 32.

Record net := Net { n_at : Z -> phase; n_conn : nat -> crec; n_next : nat }.
Definition upd {A} (f : Z -> A) (p : Z) (a : A) : Z -> A := fun q => if q =? p then a else f q.
Definition updn {A} (f : nat -> A) (k : nat) (a : A) : nat -> A := fun l => if Nat.eqb l k then a else f l.
Definition blank : crec := CRec 0 0 false None None None.
Definition net0 : net := Net (fun _ => Down) (fun _ => blank) 0.
(** p's endpoint exists (lib.rs:85): connections to it can be made. *)
Definition listening (f : phase) : bool := match f with Down | Dead _ => false | _ => true end.
Definition over (f : phase) : bool := match f with Ready _ | Dead _ => true | _ => false end.
Definition goto (s : net) (p : Z) (f : phase) : net := Net (upd (n_at s) p f) (n_conn s) (n_next s).
Definition goto_set (s : net) (p : Z) (f : phase) (n : nat) (r : crec) : net :=
  Net (upd (n_at s) p f) (updn (n_conn s) n r) (n_next s).

Section Run.
  Variable w : world.

  (** One action of process p (or, last, of somebody else). *)
  Inductive nstep : net -> net -> Prop :=
  (** lib.rs:37-87: the configuration is checked, the endpoint created *)
  | n_start p s : In p (w_ids w) -> n_at s p = Down ->
      nstep s (goto s p (match check_config p (map e_id (w_conf w p)) with
                         | Ok _ => Loop (w_conf w p) [] | Err e => Dead e end))
  (** lib.rs:90-93 *)
  | n_skip p s e t m : In p (w_ids w) -> n_at s p = Loop (e :: t) m -> e_id e = p -> nstep s (goto s p (Loop t m))
  (** lib.rs:94-104: the handshake starts once the server at that address is up (quinn retransmits until
      then) *)
  | n_dial p s e t m q : In p (w_ids w) -> n_at s p = Loop (e :: t) m -> e_id e < p ->
      w_host w (e_addr e) = Some q -> listening (n_at s q) = true -> w_tls w p q (e_name e) = true ->
      nstep s (Net (upd (n_at s) p (Dial e t m (n_next s))) (updn (n_conn s) (n_next s) (CRec p q false None None None)) (S (n_next s)))
  (** the server's certificate is not accepted *)
  | n_untrusted p s e t m q : In p (w_ids w) -> n_at s p = Loop (e :: t) m -> e_id e < p ->
      w_host w (e_addr e) = Some q -> listening (n_at s q) = true -> w_tls w p q (e_name e) = false ->
      nstep s (goto s p (Dead EOther))
  (** lib.rs:105-117: connected; send my id and remember the connection *)
  | n_greet p s e t m n r : In p (w_ids w) -> n_at s p = Dial e t m n -> n_conn s n = r ->
      w_lazy w = false \/ c_accepted r = true ->
      nstep s (goto_set s p (if p <? 2 ^ 32 then inserted (e_id e) n m (Loop t) else Dead EPanic) n
                 (CRec (c_client r) (c_server r) (c_accepted r) (if p <? 2 ^ 32 then Some p else None) (c_opener r) (c_acceptor r)))
  (** lib.rs:118-121: accept a connection, whichever *)
  | n_accept p s e t m n r : In p (w_ids w) -> n_at s p = Loop (e :: t) m -> p < e_id e ->
      (n < n_next s)%nat -> n_conn s n = r -> c_server r = p -> c_accepted r = false ->
      nstep s (goto_set s p (Hear t m n) n (CRec (c_client r) (c_server r) true (c_hello r) (c_opener r) (c_acceptor r)))
  (** lib.rs:128-135: the other party says who it is *)
  | n_hear p s t m n z : In p (w_ids w) -> n_at s p = Hear t m n -> c_hello (n_conn s n) = Some z ->
      nstep s (goto s p (inserted z n m (Loop t)))
  (** lib.rs:144-150 *)
  | n_up p s m : In p (w_ids w) -> n_at s p = Loop [] m -> nstep s (goto s p (Up m))
  (** lib.rs:197; with_capacity(0 - 1) panics, checked arithmetic or not *)
  | n_chans p s m : In p (w_ids w) -> n_at s p = Up m ->
      nstep s (goto s p (match m with [] => Dead EPanic | _ => Chans m [] end))
  (** lib.rs:199-202: open a bidirectional stream, write my id *)
  | n_open p s z n t ch r : In p (w_ids w) -> n_at s p = Chans ((z, n) :: t) ch -> z < p -> n_conn s n = r ->
      nstep s (goto_set s p (Wait z n t ch) n (CRec (c_client r) (c_server r) (c_accepted r) (c_hello r) (Some (u32 p)) (c_acceptor r)))
  (** lib.rs:203-206 *)
  | n_reply p s z n t ch v : In p (w_ids w) -> n_at s p = Wait z n t ch -> c_acceptor (n_conn s n) = Some v ->
      nstep s (goto s p (if v =? u32 z then Chans t (ch ++ [(z, n)]) else Dead EPanic))
  (** lib.rs:207-214: wait for the stream, read their id, write mine *)
  | n_serve p s z n t ch r v : In p (w_ids w) -> n_at s p = Chans ((z, n) :: t) ch -> ~ z < p -> n_conn s n = r -> c_opener r = Some v ->
      nstep s (if v =? u32 z
               then goto_set s p (Chans t (ch ++ [(z, n)])) n (CRec (c_client r) (c_server r) (c_accepted r) (c_hello r) (c_opener r) (Some (u32 p)))
               else goto s p (Dead EPanic))
  (** lib.rs:217 *)
  | n_ready p s ch : In p (w_ids w) -> n_at s p = Chans [] ch -> nstep s (goto s p (Ready ch))
  (** an operation on the network fails: the [?] of every await *)
  | n_fault p s : In p (w_ids w) -> w_faults w = true -> over (n_at s p) = false -> nstep s (goto s p (Dead EOther))
  (** a stranger z connects to p and says anything *)
  | n_outsider p z s h o : In p (w_ids w) -> ~ In z (w_ids w) -> w_outsiders w = true -> listening (n_at s p) = true ->
      nstep s (Net (n_at s) (updn (n_conn s) (n_next s) (CRec z p false h o None)) (S (n_next s))).

  Inductive nsteps : nat -> net -> net -> Prop :=
  | nsteps_nil s : nsteps 0 s s
  | nsteps_snoc k s s' s'' : nsteps k s s' -> nstep s' s'' -> nsteps (S k) s s''.
  Definition nstuck (s : net) : Prop := forall s', ~ nstep s s'.
End Run.

(** aby3/network.rs:28-32: channels.remove(&next_id), channels.remove(&prev_id). *)
Definition chan_of (chans : cmap) (z : Z) : option nat :=
  match find (fun kv => fst kv =? z) chans with Some kv => Some (snd kv) | None => None end.
Definition network_channels (i : pid) (chans : cmap) : res (nat * nat) :=
  match chan_of chans (pid_num (next i)) with
  | None => Err EConfig
  | Some send => match chan_of (filter (fun kv => negb (fst kv =? pid_num (next i))) chans) (pid_num (prev i)) with
                 | None => Err EConfig
                 | Some recv => Ok (send, recv)
                 end
  end.
