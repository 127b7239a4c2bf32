(** Properties C17 - C20 and C38 (the iris protocol). *)
From Verif Require Import Base Ring RingProofs Prog Sched Rel Rng Net BinTrait Iris IrisSpec IrisProofs MpcSpec ShareSpec Protocol Plain Aby3
  Aby3Proofs PropLemmas PropLemmas2 PlainProofs SpecProofs ProtocolProofs.

(** C17. *)
Theorem C17_no_wrap : forall a b K, 14 < K ->
  Z.testbit ((count (differ a b) - 34 * count (both_valid a b) / 100) mod 2 ^ K) (K - 1) = true <-> close a b.
Proof. exact threshold_msb. Qed.
Print Assumptions C17_no_wrap.
Theorem C17_new : forall K, (14 < K -> iris_new K = Ok tt) /\ (K <= 14 -> iris_new K = Err EConfig).
Proof.
  intros K. rewrite iris_new_spec. split; intros H; [replace (K <=? 14) with false by lia|replace (K <=? 14) with true by lia]; reflexivity.
Qed.
Print Assumptions C17_new.
(** 14 bits would not do: distance 12800 with threshold 0 is not below the threshold, yet its top bit is set. *)
Example C17_sharp : Z.testbit ((12800 - 0) mod 2 ^ 14) 13 = true /\ Z.testbit ((12800 - 0) mod 2 ^ 15) 14 = false.
Proof. split; reflexivity. Qed.

(** C18: the ABY3 engine answers the plain question. *)
Theorem C18_aby3 : forall (G : rng) K signed (s : pid -> prf G) X a DB bs chunk, In K widths -> 14 < K -> prf_synced s ->
  wf_iris a -> Forall wf_iris bs -> Forall (enough_valid a) bs -> (0 < length bs)%nat -> (0 < chunk)%nat ->
  vec_shared (arith_shared K) X (code_vals (ir_code a)) ->
  vec_shared (vec_shared (arith_shared K)) DB (map (fun b => code_vals (ir_code b)) bs) ->
  honest_run (fun i => iris_in_db (aby3_engine G K i) signed (X i) (DB i) (ir_mask a) (map ir_mask bs) chunk) s
    (fun s' r => prf_synced s' /\ answers a bs r).
Proof. exact aby3_iris_in_db. Qed.
Print Assumptions C18_aby3.

(** A query and a database meeting every hypothesis of C18, with the answer true (ir0 is close to
    itself but not to ir1). *)
Example C18_example : exists X DB,
  wf_iris ir0 /\ Forall wf_iris [ir1; ir0] /\ Forall (enough_valid ir0) [ir1; ir0] /\
  vec_shared (arith_shared 16) X (code_vals (ir_code ir0)) /\
  vec_shared (vec_shared (arith_shared 16)) DB (map (fun b => code_vals (ir_code b)) [ir1; ir0]) /\
  ~ close ir0 ir1 /\ close ir0 ir0.
Proof.
  destruct (deal_zero 16 (ir_code ir0) ltac:(lia)) as (X & HX). destruct (deal_zero 16 (ir_code ir1) ltac:(lia)) as (Y & HY).
  exists X, (fun i => [Y i; X i]). destruct ir_wf as [W0 W1].
  split; [exact W0|]. split; [exact (Forall_cons _ W1 (Forall_cons _ W0 (Forall_nil _)))|].
  split; [apply Forall_cons; [|apply Forall_cons; [|apply Forall_nil]]; apply ir_enough; cbn; tauto|]. split; [exact HX|]. split; [|split; apply ir_close].
  split; [reflexivity|]. intros [|[|[|n]]] x H; cbn in H; try discriminate; injection H as <-; eexists; (split; [reflexivity|]); assumption.
Qed.

(** C19: any two positive chunk sizes give all parties the same answer; chunk size 0 panics. *)
Theorem C19_chunks : forall (G : rng) K signed (s s' : pid -> prf G) X X' a DB DB' bs c c' , In K widths -> 14 < K -> prf_synced s -> prf_synced s' ->
  wf_iris a -> Forall wf_iris bs -> Forall (enough_valid a) bs -> (0 < length bs)%nat -> (0 < c)%nat -> (0 < c')%nat ->
  vec_shared (arith_shared K) X (code_vals (ir_code a)) -> vec_shared (arith_shared K) X' (code_vals (ir_code a)) ->
  vec_shared (vec_shared (arith_shared K)) DB (map (fun b => code_vals (ir_code b)) bs) ->
  vec_shared (vec_shared (arith_shared K)) DB' (map (fun b => code_vals (ir_code b)) bs) ->
  exists answer : bool,
    honest_run (fun i => iris_in_db (aby3_engine G K i) signed (X i) (DB i) (ir_mask a) (map ir_mask bs) c) s
      (fun _ r => forall i, r i = answer) /\
    honest_run (fun i => iris_in_db (aby3_engine G K i) signed (X' i) (DB' i) (ir_mask a) (map ir_mask bs) c') s'
      (fun _ r => forall i, r i = answer).
Proof.
  intros G K signed s s' X X' a DB DB' bs c c' HK HK14 Hs Hs' Ha Hbs Hv Hl Hc Hc' HX HX' HD HD'.
  pose proof (aby3_iris_in_db G K signed s X a DB bs c HK HK14 Hs Ha Hbs Hv Hl Hc HX HD) as H1.
  pose proof (aby3_iris_in_db G K signed s' X' a DB' bs c' HK HK14 Hs' Ha Hbs Hv Hl Hc' HX' HD') as H2.
  exists (existsb (matches a) bs).
  assert (Q : forall r, answers a bs r -> forall i, r i = existsb (matches a) bs).
  { intros r Hr i. pose proof (answers_intro a bs (fun _ => existsb (matches a) bs) (fun _ => eq_refl) i) as H.
    specialize (Hr i). cbv beta in H. destruct (r i), (existsb _ _); tauto || (exfalso; intuition congruence). }
  split; (eapply honest_mono; [|eassumption]); intros ? ? [_ H] i; apply Q, H.
Qed.
Print Assumptions C19_chunks.
Theorem C19_chunk_zero : forall (S A B : Type) (e : mpc S A B) signed iris db mask masks s, length db = length masks -> db <> [] ->
  iris_in_db e signed iris db mask masks 0 s = Fail EPanic.
Proof. exact @iris_in_db_zero_chunk. Qed.
Print Assumptions C19_chunk_zero.
Example C19_example : exists X DB, vec_shared (arith_shared 16) X (code_vals (ir_code ir0)) /\
  vec_shared (vec_shared (arith_shared 16)) DB (map (fun b => code_vals (ir_code b)) [ir1; ir0]).
Proof. destruct C18_example as (X & DB & _ & _ & _ & H1 & H2 & _). exists X, DB. auto. Qed.

(** C20: rejected queries, for any engine. *)
Theorem C20_sizes : forall (S A B : Type) (e : mpc S A B) signed iris db mask masks chunk s, length db <> length masks \/ db = [] ->
  iris_in_db e signed iris db mask masks chunk s = Fail EInvalidSize.
Proof. exact @iris_in_db_bad_size. Qed.
Print Assumptions C20_sizes.
(** A combined mask below 70 % (8960 positions): no answer, whatever messages arrive. *)
Theorem C20_low_mask : forall (S A B : Type) (e : mpc S A B) signed iris db mask masks m chunk, wf_code mask -> wf_code m -> In m masks ->
  count (fun i => bit_at mask i && bit_at m i) < 8960 ->
  forall s, no_result (iris_in_db e signed iris db mask masks chunk s).
Proof. exact @iris_in_db_low_mask. Qed.
Print Assumptions C20_low_mask.
(** If it is in the first chunk and precomputation is a no-op (ABY3), MaskHWError without a message. *)
Theorem C20_low_mask_first : forall (G : rng) K (i : pid) signed iris db mask masks m chunk s, wf_code mask -> wf_code m -> (0 < chunk)%nat ->
  length db = length masks -> In m (firstn chunk masks) ->
  count (fun i => bit_at mask i && bit_at m i) < 8960 ->
  iris_in_db (aby3_engine G K i) signed iris db mask masks chunk s = Fail EMaskHW.
Proof.
  exact (fun G K i signed iris db mask masks m chunk s H1 H2 H3 H4 H5 H6 =>
    iris_in_db_low_mask_first (aby3_engine G K i) signed iris db mask masks m chunk s H1 H2 H3 H4 H5 H6 (fun _ _ => eq_refl)).
Qed.
Print Assumptions C20_low_mask_first.
Example C20_example : wf_code ONES /\ wf_code ZERO /\ count (fun i => bit_at ONES i && bit_at ZERO i) < 8960.
Proof.
  split; [apply codes_wf|]. split; [apply codes_wf|]. rewrite count_none; [lia|]. intros i Hi. rewrite bit_at_ZERO by exact Hi. apply andb_false_r.
Qed.
