(** Channels and configuration: C36, C37. *)
From Coq Require Import Permutation.
From Verif Require Import Base Ring RingProofs Prog Channel ChannelProofs.

(** ** C36.  [moves ms chan0 c]: [c] is reached from a fresh channel by any history [ms] of client
    calls, task steps, byte deliveries and (possibly) a broken connection. *)

(** The results of the recv calls, in call order, are the first messages handed to send that the codec
    accepts, each once and in order; errors only follow, and only when the connection broke. *)
Theorem C36_order : forall ms c, moves ms chan0 c ->
  exists got n, c_rret c = combine (seq 0 (length got + n)) (map Some got ++ repeat None n) /\
    (exists rest, filter fits (submitted ms) = got ++ rest) /\ (n <> 0%nat -> c_alive c = false).
Proof. exact chan_order. Qed.
Print Assumptions C36_order.

(** While the connection is alive nothing is lost: once neither task nor the network can move, every
    recv call with a message to read was answered, and every send call was answered. *)
Theorem C36_progress : forall ms c, moves ms chan0 c -> c_alive c = true ->
  (forall mv c', cmove mv c c' -> mv = MRecv \/ mv = MCut \/ exists m, mv = MSend m) ->
  length (c_rret c) = Nat.min (length (filter fits (submitted ms))) (c_rsub c) /\ length (c_wret c) = length (submitted ms).
Proof. exact chan_progress. Qed.
Print Assumptions C36_progress.

(** ... and that point is reached: every step of a task or the network uses up a finite amount. *)
Theorem C36_terminates : exists amount : chan -> nat, forall mv c c', cmove mv c c' ->
  mv <> MRecv -> (forall m, mv <> MSend m) -> mv <> MCut -> (amount c' < amount c)%nat.
Proof. exists work. exact work_move. Qed.
Print Assumptions C36_terminates.

(** The answers to send calls come in call order, and while the connection is alive the answer is an
    error exactly for messages over the frame limit. *)
Theorem C36_send_status : forall ms c, moves ms chan0 c -> c_alive c = true ->
  c_wret c = combine (seq 0 (length (c_wret c))) (firstn (length (c_wret c)) (map fits (submitted ms))).
Proof. exact chan_status. Qed.
Print Assumptions C36_send_status.

(** A message over 8 MiB does get lost on a live connection, and the next recv call is answered with
    the message after it; only the send handle, which aby3/network.rs:59-79 drops, is told. *)
Theorem C36_oversize_refuted : forall big m, fits big = false -> fits m = true ->
  exists ms c, moves ms chan0 c /\ c_alive c = true /\ submitted ms = [big; m] /\
    c_rret c = [(0%nat, Some m)] /\ c_wret c = [(0%nat, false); (1%nat, true)].
Proof.
  intros big m B F. exists ([MSend big; MTakeW] ++ serve m). eexists. split; [|split; [|split; [|split]]].
  - eapply moves_app; [eapply (moves_app [MSend big] [MTakeW]); [apply moves_one, mv_send; cbn; unfold capacity; lia|apply moves_one, mv_take]|].
    rewrite B. cbn [app]. apply serve_ok, F.
  - reflexivity.
  - rewrite submitted_app, serve_submitted. reflexivity.
  - reflexivity.
  - reflexivity.
Qed.
Print Assumptions C36_oversize_refuted.

(** Both kinds of messages exist. *)
(** The limit is 8 MiB, the codec's default (mpc-net's channel.rs sets no other). *)
Theorem C36_limit : forall m, fits m = true <-> Z.of_nat (length m) <= 8 * 1024 * 1024.
Proof. intros m. unfold fits, max_frame. rewrite Z.leb_le. reflexivity. Qed.
Print Assumptions C36_limit.
Example C36_oversize_ex : fits (repeat 7 (Z.to_nat (max_frame + 1))) = false /\ fits [1; 2; 3] = true.
Proof. split; [|reflexivity]. unfold fits. rewrite repeat_length. unfold max_frame. apply Z.leb_gt. lia. Qed.
(** Two messages sent and received on a live connection; then it breaks and a recv call fails. *)
Example C36_ex : exists ms c, moves ms chan0 c /\ submitted ms = [[1; 2; 3]; []] /\ c_alive c = false /\
  c_rret c = [(0%nat, Some [1; 2; 3]); (1%nat, Some []); (2%nat, None)].
Proof.
  exists (serve [1; 2; 3] ++ serve [] ++ [MCut; MRecv; MTakeR; MFailR]). eexists. split; [|split; [|split]].
  - eapply moves_app; [apply serve_ok; reflexivity|]. eapply moves_app; [apply serve_ok; reflexivity|].
    eapply (moves_app [MCut] [MRecv; MTakeR; MFailR]); [apply moves_one, mv_cut|]. eapply (moves_app [MRecv] [MTakeR; MFailR]); [apply moves_one, mv_recv; cbn; unfold capacity; lia|].
    eapply (moves_app [MTakeR] [MFailR]); [apply moves_one, mv_taker|]. apply moves_one, mv_failr. reflexivity.
  - reflexivity.
  - reflexivity.
  - reflexivity.
Qed.
(** A live channel with an answered send and recv call on which neither task nor the network can move. *)
Example C36_progress_ex : exists ms c, moves ms chan0 c /\ c_alive c = true /\ length (c_rret c) = 1%nat /\
  (forall mv c', cmove mv c c' -> mv = MRecv \/ mv = MCut \/ exists m, mv = MSend m).
Proof.
  exists (serve [1; 2; 3]). eexists. split; [apply serve_ok; reflexivity|]. split; [reflexivity|]. split; [reflexivity|].
  intros mv c' M. inversion M; subst; eauto.
Qed.

(** ** C37 *)
Theorem C37_check : forall my_id ids, check_config my_id ids = Ok tt <-> In my_id ids /\ NoDup ids.
Proof. exact check_config_spec. Qed.
Print Assumptions C37_check.
(** The three-party network accepts exactly the parties 0, 1, 2 in any order, from one of them. *)
Theorem C37_network : forall my_id ids i, network_new my_id ids = Ok i <-> my_id = pid_num i /\ Permutation ids [0; 1; 2].
Proof. exact network_new_spec. Qed.
Print Assumptions C37_network.
Example C37_ex : network_new 1 [2; 0; 1] = Ok P1 /\ check_config 7 [9; 7; 8; 5] = Ok tt /\ check_config 7 [9; 7; 9] = Err EOther /\ check_config 7 [8; 9] = Err EOther.
Proof. repeat split. Qed.
