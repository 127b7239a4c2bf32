(** How processes end: finish() / shutdown and crashes.  Aby3::finish, Spdzwise::finish, Swift3::finish
    (aby3/protocol.rs:266-269, aby3_mal/protocol.rs:980-983, swift3/protocol.rs:1920-1923),
    Aby3Network::send and shutdown (aby3/network.rs:59-90, 158-170), MpcNetworkHandler::shutdown
    (mpc-net/src/lib.rs:221-229), ChannelHandle (mpc-net/src/channel.rs:152-219). *)
From Verif Require Import Base Prog.

(** The party has returned from its protocol, or has stopped with an error. *)
Definition over {A} (p : prog A) : Prop := match p with Ret _ | Fail _ => True | _ => False end.

(** The three programs with their queues, and who has closed its connections. *)
Record ncfg (A : Type) := NCfg { n_cfg : cfg A; n_closed : pid -> bool }.
Arguments NCfg {A}. Arguments n_cfg {A}. Arguments n_closed {A}.
Definition closing (cl : pid -> bool) (i : pid) : pid -> bool := fun j => if pid_eqb i j then true else cl j.
(** The first [keep j] of the undelivered messages to j get through. *)
Definition cut (q : queues) (i : pid) (keep : pid -> nat) : queues :=
  set q i (tabulate (fun j => firstn (keep j) (qget q i j))).

Section Ending.
  (** [crashes]: a process may be killed at any point.
      [orderly]: a shutdown that waits until everything sent has been delivered.  The code's does not: send
      drops the status of the write job (aby3/network.rs:62-63, 77-79, 86-87) and shutdown closes the
      connections at once (conn.close, lib.rs:222-224), which abandons what has not been transmitted. *)
  Variables crashes orderly : bool.
  Context {A : Type}.

  Inductive fstep : ncfg A -> ncfg A -> Prop :=
  (** Sending and receiving as before.  Sending to a party that is gone is not noticed: the status of the
      write job is dropped. *)
  | f_run i c c' cl : step i c c' -> fstep (NCfg c cl) (NCfg c' cl)
  (** The party is done (or has an error, or has been killed): its connections are closed, what is under way
      may be lost from some message on. *)
  | f_close i c cl keep : over (get (progs c) i) -> cl i = false ->
      (orderly = true -> forall j, (length (qget (qs c) i j) <= keep j)%nat) ->
      fstep (NCfg c cl) (NCfg (Cfg (progs c) (cut (qs c) i keep)) (closing cl i))
  (** Waiting for a message of a party that has gone without sending it: the read job ends with an error
      (channel.rs:154-157; aby3/network.rs:103-110).  A killed process is noticed by the idle timeout
      (lib.rs:63-65). *)
  | f_lost j from k c cl : get (progs c) j = Recv from k -> cl from = true -> qget (qs c) from j = [] ->
      fstep (NCfg c cl) (NCfg (Cfg (set (progs c) j (Fail EIO)) (qs c)) cl)
  | f_crash i c cl : crashes = true -> ~ over (get (progs c) i) ->
      fstep (NCfg c cl) (NCfg (Cfg (set (progs c) i (Fail EOther)) (qs c)) cl).

  Inductive fsteps : nat -> ncfg A -> ncfg A -> Prop :=
  | fsteps_nil c : fsteps 0 c c
  | fsteps_snoc k c c' c'' : fsteps k c c' -> fstep c' c'' -> fsteps (S k) c c''.
  Definition fstuck (c : ncfg A) : Prop := forall c', ~ fstep c c'.
  Definition fstart (P : pid -> prog A) : ncfg A := NCfg (start P) (fun _ => false).
  (** what party i is doing *)
  Definition at_ (c : ncfg A) (i : pid) : prog A := get (progs (n_cfg c)) i.
End Ending.
