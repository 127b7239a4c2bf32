(** Triple generation sends bytes only. *)
From Verif Require Import Base Ring RingProofs Prog Sched Conc Rng Rel Net MpcSpec Aby3 ShareSpec Aby3Proofs Jmp JmpProofs Duo Emits PropLemmas5 Spdz TripleSpec SpdzProofs SpdzProofs2 TripleMalMain.
Local Open Scope list_scope.

Lemma emitsM_zoom {S T A} (get : T -> S) (set : T -> S -> T) (p : M S A) : emitsM p -> emitsM (zoom get set p).
Proof. intros Hp t. unfold zoom. apply emits_bind; [apply Hp|]. intros a. constructor. Qed.
Lemma emitsM_mapM {S A B} (f : A -> M S B) l : (forall a, emitsM (f a)) -> emitsM (mapM f l).
Proof. intros Hf. induction l as [|a l IH]; cbn [mapM]; [apply emitsM_ret|]. apply emitsM_bind; [apply Hf|]. intros b. apply emitsM_bind; [exact IH|]. intros. apply emitsM_ret. Qed.
Lemma emitsM_mapM2 {S A B C} (f : A -> B -> M S C) l : forall l', (forall a b, emitsM (f a b)) -> emitsM (mapM2 f l l').
Proof. induction l as [|a l IH]; intros [|b l'] Hf; cbn [mapM2]; try apply emitsM_ret. apply emitsM_bind; [apply Hf|]. intros c. apply emitsM_bind; [apply IH, Hf|]. intros. apply emitsM_ret. Qed.
Lemma slice_bytes K vs : bytes (ring_slice_to_bytes K vs).
Proof.
  unfold ring_slice_to_bytes. assert (H : forall out, bytes out -> bytes (fold_left (fun out v => add_to_bytes K v out) vs out)).
  { induction vs as [|v vs IH]; intros out Ho; cbn [fold_left]; [exact Ho|]. apply IH. apply Forall_app. split; [exact Ho|apply to_be_bytes]. }
  apply H. constructor.
Qed.
Lemma emits_of_res {A} (r : res A) : emits (of_res r). Proof. destruct r; constructor. Qed.

Section E.
  Variables (G : rng) (H : hasher) (i : pid).
  Hypothesis HH : forall x, bytes (hfun H x).
  Lemma jsrm_emits K u v : emitsM (jmp_send_receive_many G i K u v).
  Proof using Type.
    unfold jmp_send_receive_many, jmp_buffer_many, jmp_send_many, jmp_receive_many.
    repeat (apply emitsM_bind; [|intros]); try apply emitsM_get; try apply emitsM_put; try apply emitsM_ret.
    - apply emitsM_lift. unfold send_vec. constructor; [apply slice_bytes|constructor].
    - apply emitsM_lift. unfold receive_vec. constructor. intros m. apply emits_of_res.
  Qed.
  Lemma coin_jmp_emits : emitsM (coin G i).
  Proof using Type.
    unfold coin. apply emitsM_bind; [apply emitsM_zoom; intros s; unfold gen_rands_seed; destruct (draw_bytes _ _ _), (draw_bytes _ _ _); constructor|].
    intros. apply emitsM_bind; [apply jsrm_emits|intros; apply emitsM_ret].
  Qed.
  Lemma jmp_verify_emits : emitsM (jmp_verify G H i).
  Proof using HH.
    unfold jmp_verify. apply emitsM_bind; [apply emitsM_get|]. intros s. cbv zeta. apply emitsM_bind; [apply emitsM_put|]. intros _.
    apply emitsM_bind; [apply emitsM_lift; constructor; [apply HH|constructor; intros; constructor]|]. intros r. destruct (bytes_eqb _ _); [apply emitsM_ret|apply emitsM_fail].
  Qed.
  Lemma permute_emits a b c : emitsM (permute G i a b c).
  Proof using Type.
    unfold permute. destruct (_ || _); [apply emitsM_fail|]. apply emitsM_bind; [apply emitsM_zoom, coin_jmp_emits|intros; apply emitsM_ret].
  Qed.
  Lemma verify_triples_emits a b c x y z : emitsM (verify_triples G H i a b c x y z).
  Proof using HH.
    unfold verify_triples. cbv zeta. apply emitsM_bind.
    - unfold jmp_open_bin_many. apply emitsM_bind; [apply emitsM_zoom; unfold reconstruct_binary_many; apply emitsM_bind; [apply jsrm_emits|intros; apply emitsM_ret]|].
      intros v. apply emitsM_bind; [apply emitsM_zoom, jmp_verify_emits|intros; apply emitsM_ret].
    - intros pq. apply emitsM_zoom. unfold bin_zero_verify. apply emitsM_bind; [apply emitsM_get|]. intros s. apply emitsM_bind; [apply emitsM_put|]. intros _.
      apply emitsM_bind; [apply emitsM_lift, emits_broadcast, HH|]. intros hs. do 3 (apply emitsM_bind; [apply emitsM_res|intros]). destruct (_ || _); [apply emitsM_fail|apply emitsM_ret].
  Qed.
  Lemma slice_emits K u : emits (send_slice_and_receive_iter i K u).
  Proof using Type. unfold send_slice_and_receive_iter, send_and_receive. cbn [bind]. constructor; [apply slice_bytes|]. constructor. intros m. apply emits_of_res. Qed.
  Lemma rands_emits : emitsM (gen_rands G 128).
  Proof using Type. intros s. unfold gen_rands. destruct (draw _ _ _), (draw _ _ _). constructor. Qed.
  Lemma generate_emits num : emitsM (generate_triples G H i num).
  Proof using HH.
    rewrite generate_split. cbv zeta.
    do 2 (apply emitsM_bind; [apply emitsM_zoom, emitsM_zoom, emitsM_mapM; intros _; unfold gen_rand; apply emitsM_bind; [apply rands_emits|intros; apply emitsM_ret]|intros]).
    apply emitsM_bind.
    - apply emitsM_zoom, emitsM_zoom. unfold and_many. destruct (negb _); [apply emitsM_fail|].
      apply emitsM_bind; [apply emitsM_mapM2; intros; apply emitsM_bind; [apply emitsM_bind; [apply rands_emits|intros; apply emitsM_ret]|intros; apply emitsM_ret]|].
      intros l. unfold reshare_many. apply emitsM_bind; [apply emitsM_lift, slice_emits|intros; apply emitsM_ret].
    - intros c. unfold tcheck. apply emitsM_bind; [apply permute_emits|]. intros [[xs ys] zs].
      do 3 (apply emitsM_bind; [apply emitsM_res|intros]). apply emitsM_bind.
      + unfold open_bin_many. apply emitsM_bind; [apply emitsM_zoom, emitsM_lift, slice_emits|intros; apply emitsM_ret].
      + intros o. do 3 (apply emitsM_bind; [apply emitsM_res|intros]). destruct (negb _); [apply emitsM_fail|].
        apply emitsM_bind; [apply verify_triples_emits|intros; apply emitsM_ret].
  Qed.
  Lemma queue_emits : emitsM (verify_triple_queue G H i).
  Proof using HH.
    unfold verify_triple_queue. apply emitsM_bind; [apply emitsM_get|]. intros s. cbv zeta. destruct (Nat.eqb _ _); [apply emitsM_ret|].
    unfold t_get_all. apply emitsM_bind; [apply emitsM_put|]. intros _. apply emitsM_bind; [apply emitsM_res|]. intros [prec [[x y] z]].
    apply emitsM_bind; [apply emitsM_put|]. intros _. apply emitsM_bind; [apply permute_emits|]. intros [[x' y'] z']. apply verify_triples_emits.
  Qed.
End E.
