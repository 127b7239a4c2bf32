(** Arithmetic programs on malicious ABY3 send bytes only. *)
From Verif Require Import Base Ring RingProofs Prog Sched Conc Rng Rel Net MpcSpec Aby3 ShareSpec Aby3Proofs Jmp JmpProofs Duo Emits PropLemmas5 Aby3Mal Client TripleMalMet ProgMalSpec.
Local Open Scope list_scope.

Section E.
  Variables (G : rng) (H : hasher) (i : pid).
  Hypothesis HH : forall x, bytes (hfun H x).
  Notation jv := (jmp_verify_emits G H i HH).
  Lemma rands_emits_K K : emitsM (gen_rands G K).
  Proof using Type. intros s. unfold gen_rands. destruct (draw _ _ _), (draw _ _ _). constructor. Qed.
  Lemma rand_emits K : emitsM (gen_rand G K).
  Proof using Type. unfold gen_rand. apply emitsM_bind; [apply rands_emits_K|intros; apply emitsM_ret]. Qed.
  Lemma zero_emits K : emitsM (gen_zero_share G K).
  Proof using Type. unfold gen_zero_share. apply emitsM_bind; [apply rands_emits_K|intros; apply emitsM_ret]. Qed.
  Lemma slice_vec_emits K u : emits (send_slice_and_receive_vec i K u).
  Proof using Type. unfold send_slice_and_receive_vec, send_and_receive. cbn [bind]. constructor; [apply slice_bytes|]. constructor. intros m. apply emits_of_res. Qed.
  Lemma jsr_emits K u v : emitsM (jmp_send_receive G i K u v).
  Proof using Type.
    unfold jmp_send_receive, jmp_buffer, jmp_send, jmp_receive.
    repeat (apply emitsM_bind; [|intros]); try apply emitsM_get; try apply emitsM_put; try apply emitsM_ret.
    - apply emitsM_lift. unfold send_value. constructor; [apply to_be_bytes|constructor].
    - apply emitsM_lift. unfold receive_value. constructor. intros m. apply emits_of_res.
  Qed.
  Lemma zero_verify_emits U ws : emitsM (zero_verify G H i U ws).
  Proof using HH.
    unfold zero_verify. apply emitsM_bind; [apply emitsM_get|]. intros s. apply emitsM_bind; [apply emitsM_put|]. intros _.
    apply emitsM_bind; [apply emitsM_lift, emits_broadcast, HH|]. intros hs. do 3 (apply emitsM_bind; [apply emitsM_res|intros]). destruct (_ || _); [apply emitsM_fail|apply emitsM_ret].
  Qed.
  Lemma recm_emits U xs : emitsM (reconstruct_many G i U xs).
  Proof using Type. unfold reconstruct_many. apply emitsM_bind; [apply jsrm_emits|intros; apply emitsM_ret]. Qed.
  Lemma aby_mul_many_emits U a b : emitsM (aby_mul_many G i U a b).
  Proof using Type.
    unfold aby_mul_many. apply emitsM_bind; [apply emitsM_zoom, emitsM_mapM2; intros; apply emitsM_bind; [apply zero_emits|intros; apply emitsM_ret]|].
    intros l. apply emitsM_bind; [apply emitsM_lift, slice_vec_emits|intros; apply emitsM_ret].
  Qed.
  Lemma aby_dot_many_emits U a b : emitsM (aby_dot_many G i U a b).
  Proof using Type.
    unfold aby_dot_many. destruct (negb _); [apply emitsM_fail|].
    apply emitsM_bind; [apply emitsM_zoom, emitsM_mapM2; intros; apply emitsM_bind; [apply zero_emits|intros; destruct (negb _); [apply emitsM_fail|apply emitsM_ret]]|].
    intros l. apply emitsM_bind; [apply emitsM_lift, slice_vec_emits|intros; apply emitsM_ret].
  Qed.
  Lemma rand_many_emits U n : emitsM (gen_rand_many G U n).
  Proof using Type. unfold gen_rand_many. apply emitsM_zoom, emitsM_mapM. intros. apply rand_emits. Qed.
  Lemma mul_emits K a b : emitsM (mal_mul G H i K a b).
  Proof using HH.
    unfold mal_mul, get_mul_triple, mul_triple_check. apply emitsM_bind.
    - destruct (negb _); [apply emitsM_fail|]. do 3 (apply emitsM_bind; [apply emitsM_zoom, rand_emits|intros ?]).
      apply emitsM_bind; [apply aby_mul_many_emits|intros]. apply emitsM_bind; [apply coin_jmp_emits|intros].
      apply emitsM_bind; [apply emitsM_bind; [apply jsr_emits|intros; apply emitsM_ret]|intros]. apply emitsM_bind; [apply jv|intros].
      do 2 (apply emitsM_bind; [apply emitsM_res|intros ?]). apply emitsM_bind; [apply zero_verify_emits|intros; apply emitsM_ret].
    - intros [[x y] z]. apply emitsM_bind; [apply recm_emits|intros]. do 2 (apply emitsM_bind; [apply emitsM_res|intros ?]). apply emitsM_ret.
  Qed.
  Lemma dot_emits K a b : emitsM (mal_dot G H i K a b).
  Proof using HH.
    unfold mal_dot, dot_sacrifice, dot_sacrifice_check. destruct (negb _); [apply emitsM_fail|]. destruct (negb _); [apply emitsM_fail|].
    apply emitsM_bind; [apply rand_many_emits|intros ?]. apply emitsM_bind; [apply aby_dot_many_emits|intros]. apply emitsM_bind; [apply coin_jmp_emits|intros].
    apply emitsM_bind; [apply recm_emits|intros]. apply emitsM_bind; [apply jv|intros].
    do 2 (apply emitsM_bind; [apply emitsM_res|intros ?]). apply emitsM_bind; [apply zero_verify_emits|intros; apply emitsM_ret].
  Qed.
  Lemma dot_many_emits K a b : emitsM (mal_dot_many G H i K a b).
  Proof using HH.
    unfold mal_dot_many, dot_sacrifice_many, dot_sacrifice_check_many. destruct (negb _); [apply emitsM_fail|]. destruct (negb _); [apply emitsM_fail|].
    apply emitsM_bind; [apply emitsM_mapM; intros; apply rand_many_emits|intros ?]. apply emitsM_bind; [apply aby_dot_many_emits|intros]. apply emitsM_bind; [apply coin_jmp_emits|intros].
    apply emitsM_bind; [apply recm_emits|intros]. apply emitsM_bind; [apply jv|intros].
    apply emitsM_bind; [apply zero_verify_emits|intros; apply emitsM_ret].
  Qed.
  Lemma open_emits K x : emitsM (mal_open G H i K x).
  Proof using HH.
    unfold mal_open. apply emitsM_bind; [apply jv|intros]. apply emitsM_bind; [apply jsr_emits|intros]. apply emitsM_bind; [apply jv|intros]. apply emitsM_ret.
  Qed.
  Lemma open_many_emits K x : emitsM (mal_open_many G H i K x).
  Proof using HH.
    unfold mal_open_many. apply emitsM_bind; [apply jv|intros]. apply emitsM_bind; [apply jsrm_emits|intros]. apply emitsM_bind; [apply jv|intros]. apply emitsM_ret.
  Qed.
  Lemma need_emits {S A} (r : option A) : emitsM (need (S := S) r).
  Proof using Type. destruct r; [apply emitsM_ret|apply emitsM_fail]. Qed.
  Lemma cmd_emits K c m : arithmetic c = true -> emitsM (exec_cmd (mal_api G H i K) i c m).
  Proof using HH.
    intros Ha. destruct c; try discriminate Ha; cbn [exec_cmd a_mpc a_mul a_dot a_dot_many a_open a_open_many mal_api];
      repeat (apply emitsM_bind; [apply need_emits|intros ?]); try (apply emitsM_bind; [apply emitsM_get|intros ?]); try apply emitsM_ret;
      (apply emitsM_bind; [first [apply mul_emits|apply dot_emits|apply dot_many_emits|apply open_emits|apply open_many_emits]|intros; apply emitsM_ret]).
  Qed.
  Lemma exec_emits K cs : forall m, forallb arithmetic cs = true -> emitsM (exec (mal_api G H i K) i cs m).
  Proof using HH.
    induction cs as [|c cs IH]; intros m Ha; cbn [exec]; [apply emitsM_ret|]. cbn in Ha. apply andb_prop in Ha. destruct Ha as [Ha Hb].
    apply emitsM_bind; [apply cmd_emits, Ha|]. intros m'. apply IH, Hb.
  Qed.
End E.
