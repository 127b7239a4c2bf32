(** What a successful verification says about the other parties, one of which may be malicious. *)
From Verif Require Import Base Ring RingProofs Prog Sched Conc Rng Rel Net Aby3 ShareSpec Jmp JmpProofs Session.

Lemma fold_add_to_bytes K vs out : fold_left (fun out v => add_to_bytes K v out) vs out = out ++ wire (map (pair K) vs).
Proof.
  revert out. induction vs as [|v vs IH]; intros out; cbn; [rewrite app_nil_r; reflexivity|].
  rewrite IH. unfold add_to_bytes. rewrite <- app_assoc. reflexivity.
Qed.
Lemma wire_app a b : wire (a ++ b) = wire a ++ wire b.
Proof. apply flat_map_app. Qed.

Lemma app_inj_len {A} (a b c d : list A) : length a = length b -> a ++ c = b ++ d -> a = b /\ c = d.
Proof.
  revert b. induction a as [|x a IH]; intros [|y b] L E; try discriminate; [auto|]. cbn in E. injection E as -> E.
  destruct (IH b) as [-> ->]; [injection L; auto|exact E|auto].
Qed.
Lemma wire_inj a b : map fst a = map fst b -> Forall (fun Kv => In (fst Kv) widths /\ inr (fst Kv) (snd Kv)) a ->
  Forall (fun Kv => In (fst Kv) widths /\ inr (fst Kv) (snd Kv)) b -> wire a = wire b -> a = b.
Proof.
  revert b. induction a as [|[K v] a IH]; intros [|[K' v'] b] E Fa Fb HE; try discriminate; [reflexivity|].
  injection E as -> E. inversion Fa as [|? ? [HK Hv] Fa']; subst. inversion Fb as [|? ? [_ Hv'] Fb']; subst.
  cbn [wire flat_map fst snd] in *.
  assert (L : length (to_bytes K' v) = length (to_bytes K' v')) by (rewrite !to_bytes_eq, !to_be_length; reflexivity).
  apply app_inj_len in HE; [|exact L]. destruct HE as [E1 E2].
  assert (v = v') by (pose proof (from_to_bytes K' v HK Hv) as Q; rewrite E1, from_to_bytes in Q by assumption; congruence).
  subst. f_equal. apply IH; assumption.
Qed.

Section S.
  Variables (G : rng) (H : hasher).
  Notation ST := (jst G).

  (** Received messages of a party that finishes. *)
  Lemma of_res_lrun {A} (r : res A) tr a : lrun (of_res r) tr (Ret a) -> tr = [] /\ r = Ok a.
  Proof. destruct r; cbn; intros L; inversion L; auto. Qed.

  Lemma session_rcvd i ops : forall cur s tr s' log, j_rcv G s = wire cur ->
    lrun (session G H i ops cur s) tr (Ret (s', log)) ->
    rcvd_from (next i) tr = map (fun seg => hfun H (wire seg)) log.
  Proof.
    induction ops as [|op ops IH]; intros cur s tr s' log Hc L.
    - cbn in L. apply lrun_ret in L. destruct L as [-> E]. injection E as <- <-. reflexivity.
    - destruct op; cbn [session] in L.
      + unfold bindM, jmp_send, liftM, send_value in L. cbn [bind fst snd] in L. inversion L; subst. cbn [rcvd_from]. eauto.
      + unfold bindM, jmp_buffer, getM, putM in L. cbn in L. refine (IH cur _ _ _ _ _ L). cbn. exact Hc.
      + unfold bindM in L. apply lrun_bind in L. destruct L as (t1 & [s1 v] & t2 & L1 & L2 & ->). cbn [fst snd] in L2.
        assert (R1 : rcvd_from (next i) t1 = [] /\ j_rcv G s1 = wire (cur ++ [(K, v)])).
        { unfold jmp_receive, bindM, liftM, receive_value in L1. cbn [bind] in L1. inversion L1 as [|? ? ? ? ? L1'|from k m tr0 p L1']; subst.
          apply lrun_bind in L1'. destruct L1' as (t3 & [s2 v2] & t4 & L3 & L4 & ->). 
          apply lrun_bind in L3. destruct L3 as (t5 & v3 & t6 & L5 & L6 & ->). apply of_res_lrun in L5. destruct L5 as [-> _].
          apply lrun_ret in L6. destruct L6 as [-> E6]. injection E6 as <- <-. cbn in L4.
          apply lrun_ret in L4. destruct L4 as [-> E4]. injection E4 as <- <-. split.
          - cbn. destruct i; reflexivity.
          - cbn. rewrite wire_app, Hc. cbn. rewrite app_nil_r. reflexivity. }
        rewrite rcvd_app, (proj1 R1). cbn [app]. refine (IH _ _ _ _ _ (proj2 R1) L2).
      + unfold bindM, jmp_send_many, liftM, send_vec in L. cbn [bind fst snd] in L. inversion L; subst. cbn [rcvd_from]. eauto.
      + unfold bindM, jmp_buffer_many, getM, putM in L. cbn in L. refine (IH cur _ _ _ _ _ L). cbn. exact Hc.
      + unfold bindM in L. apply lrun_bind in L. destruct L as (t1 & [s1 v] & t2 & L1 & L2 & ->). cbn [fst snd] in L2.
        assert (R1 : rcvd_from (next i) t1 = [] /\ j_rcv G s1 = wire (cur ++ map (pair K) v)).
        { unfold jmp_receive_many, bindM, liftM, receive_vec in L1. cbn [bind] in L1. inversion L1 as [|? ? ? ? ? L1'|from k m tr0 p L1']; subst.
          apply lrun_bind in L1'. destruct L1' as (t3 & [s2 v2] & t4 & L3 & L4 & ->). 
          apply lrun_bind in L3. destruct L3 as (t5 & v3 & t6 & L5 & L6 & ->). apply of_res_lrun in L5. destruct L5 as [-> _].
          apply lrun_ret in L6. destruct L6 as [-> E6]. injection E6 as <- <-. cbn in L4.
          apply lrun_ret in L4. destruct L4 as [-> E4]. injection E4 as <- <-. split.
          - cbn. destruct i; reflexivity.
          - cbn. rewrite fold_add_to_bytes, wire_app, Hc. reflexivity. }
        rewrite rcvd_app, (proj1 R1). cbn [app]. refine (IH _ _ _ _ _ (proj2 R1) L2).
      + unfold bindM at 1 in L. apply lrun_bind in L. destruct L as (t1 & [s1 u] & t2 & L1 & L2 & ->). cbn [fst snd] in L2.
        apply lrun_bind in L2. destruct L2 as (t3 & [s3 l] & t4 & L3 & L4 & ->). cbn [fst snd] in L4.
        apply lrun_ret in L4. destruct L4 as [-> E]. injection E as <- <-.
        assert (R1 : rcvd_from (next i) t1 = [hfun H (wire cur)] /\ j_rcv G s1 = []).
        { unfold jmp_verify, bindM, liftM, getM, putM in L1. cbn in L1. inversion L1 as [|? ? ? tr1 ? L1'|]; subst.
          inversion L1' as [| |from k m tr0 p L1'']; subst. cbn in L1''. destruct (bytes_eqb m (hfun H (j_rcv G s))) eqn:Em.
          - apply lrun_ret in L1''. destruct L1'' as [-> E]. injection E as <- <-. split; [|reflexivity].
            apply bytes_eqb_spec in Em. subst m. rewrite Hc. cbn. destruct i; reflexivity.
          - inversion L1''. }
        rewrite !rcvd_app, (proj1 R1). cbn [app rcvd_from map]. rewrite app_nil_r. f_equal. refine (IH _ _ _ _ _ _ L3). exact (proj2 R1).
  Qed.

  (** Hashes a party has sent to its predecessor so far, at any point of its run. *)
  Lemma session_sent i ops : forall bcur cur s tr p, j_snd G s = wire bcur ->
    lrun (session G H i ops cur s) tr p ->
    exists rest, map (fun seg => hfun H (wire seg)) (buffered ops bcur) = sent_to (prev i) tr ++ rest.
  Proof.
    induction ops as [|op ops IH]; intros bcur cur s tr p Hb L.
    - cbn in L. inversion L; subst. exists []. reflexivity.
    - destruct op; cbn [session buffered] in *.
      + unfold bindM, jmp_send, liftM, send_value in L. cbn [bind fst snd] in L. inversion L; subst.
        * cbn [sent_to]. eexists. reflexivity.
        * cbn [sent_to]. replace (pid_eqb (next i) (prev i)) with false by (destruct i; reflexivity). eauto.
      + unfold bindM, jmp_buffer, getM, putM in L. cbn in L. refine (IH _ cur _ _ _ _ L). cbn. rewrite wire_app, Hb. cbn. rewrite app_nil_r. reflexivity.
      + unfold bindM in L. apply lrun_bind_any in L. destruct L as [(p' & L & _)|(t1 & [s1 v] & t2 & L1 & L2 & ->)].
        * assert (E : sent_to (prev i) tr = []).
          { unfold jmp_receive, bindM, liftM, receive_value in L. cbn [bind] in L. inversion L as [|? ? ? ? ? L1'|from k m tr0 p0 L1']; subst; [reflexivity|].
            cbn [sent_to]. destruct (from_bytes K m); cbn in L1'; inversion L1'; reflexivity. }
          rewrite E. eexists. reflexivity.
        * assert (E : sent_to (prev i) t1 = [] /\ j_snd G s1 = wire bcur).
          { unfold jmp_receive, bindM, liftM, receive_value in L1. cbn [bind] in L1. inversion L1 as [|? ? ? ? ? L1'|from k m tr0 p0 L1']; subst.
            cbn [sent_to]. destruct (from_bytes K m); cbn in L1'; inversion L1'; subst; auto. }
          rewrite sent_app, (proj1 E). cbn [app]. cbn [fst snd] in L2. exact (IH _ _ _ _ _ (proj2 E) L2).
      + unfold bindM, jmp_send_many, liftM, send_vec in L. cbn [bind fst snd] in L. inversion L; subst.
        * cbn [sent_to]. eexists. reflexivity.
        * cbn [sent_to]. replace (pid_eqb (next i) (prev i)) with false by (destruct i; reflexivity). eauto.
      + unfold bindM, jmp_buffer_many, getM, putM in L. cbn in L. refine (IH _ cur _ _ _ _ L). cbn. rewrite fold_add_to_bytes, wire_app, Hb. reflexivity.
      + unfold bindM in L. apply lrun_bind_any in L. destruct L as [(p' & L & _)|(t1 & [s1 v] & t2 & L1 & L2 & ->)].
        * assert (E : sent_to (prev i) tr = []).
          { unfold jmp_receive_many, bindM, liftM, receive_vec in L. cbn [bind] in L. inversion L as [|? ? ? ? ? L1'|from k m tr0 p0 L1']; subst; [reflexivity|].
            cbn [sent_to]. destruct (ring_vec_from_bytes K m n); cbn in L1'; inversion L1'; reflexivity. }
          rewrite E. eexists. reflexivity.
        * assert (E : sent_to (prev i) t1 = [] /\ j_snd G s1 = wire bcur).
          { unfold jmp_receive_many, bindM, liftM, receive_vec in L1. cbn [bind] in L1. inversion L1 as [|? ? ? ? ? L1'|from k m tr0 p0 L1']; subst.
            cbn [sent_to]. destruct (ring_vec_from_bytes K m n); cbn in L1'; inversion L1'; subst; auto. }
          rewrite sent_app, (proj1 E). cbn [app]. cbn [fst snd] in L2. exact (IH _ _ _ _ _ (proj2 E) L2).
      + unfold bindM at 1 in L. apply lrun_bind_any in L. destruct L as [(p' & L & _)|(t1 & [s1 u] & t2 & L1 & L2 & ->)].
        * unfold jmp_verify, bindM, liftM, getM, putM in L. cbn in L. inversion L as [|? ? ? tr1 ? L1'|]; subst.
          { cbn [sent_to]. eexists. reflexivity. }
          cbn [sent_to]. replace (pid_eqb (prev i) (prev i)) with true by (destruct i; reflexivity).
          assert (E : sent_to (prev i) tr1 = []).
          { inversion L1' as [| |from k m tr0 p0 L1'']; subst; [reflexivity|]. cbn [sent_to]. cbn in L1''.
            destruct (bytes_eqb m (hfun H (j_rcv G s))); inversion L1''; reflexivity. }
          rewrite E, Hb. cbn [map app]. eexists. reflexivity.
        * cbn [fst snd] in L2.
          assert (E : sent_to (prev i) t1 = [hfun H (wire bcur)] /\ j_snd G s1 = []).
          { unfold jmp_verify, bindM, liftM, getM, putM in L1. cbn in L1. inversion L1 as [|? ? ? tr1 ? L1'|]; subst.
            inversion L1' as [| |from k m tr0 p0 L1'']; subst. cbn in L1''. destruct (bytes_eqb m (hfun H (j_rcv G s))) eqn:Em.
            - apply lrun_ret in L1''. destruct L1'' as [-> E]. injection E as <- <-. split; [|reflexivity].
              cbn [sent_to]. rewrite Hb. replace (pid_eqb (prev i) (prev i)) with true by (destruct i; reflexivity). reflexivity.
            - inversion L1''. }
          rewrite sent_app, (proj1 E). cbn [map app].
          apply lrun_bind_any in L2. destruct L2 as [(p' & L & _)|(t3 & [s3 l] & t4 & L3 & L4 & ->)].
          -- destruct (IH [] [] s1 _ _ (proj2 E) L) as (rest & ->). exists rest. reflexivity.
          -- destruct (IH [] [] s1 _ _ (proj2 E) L3) as (rest & ->). exists rest. rewrite sent_app.
             cbn [fst snd] in L4. inversion L4; subst. cbn [sent_to]. rewrite app_nil_r. reflexivity.
  Qed.

  (** i and its successor run sessions; the third party (i's predecessor) runs anything. *)
  Theorem session_detect (P : pid -> prog (ST * list (list (Z * Z)))) i opsi opsj (si sj : ST) sched c si' log :
    j_rcv G si = [] -> j_snd G sj = [] ->
    P i = session G H i opsi [] si -> P (next i) = session G H (next i) opsj [] sj ->
    steps sched (start P) c -> get (progs c) i = Ret (si', log) ->
    forall n seg, nth_error log n = Some seg ->
      exists buf, nth_error (buffered opsj []) n = Some buf /\ (wire seg = wire buf \/ collision H (wire seg) (wire buf)).
  Proof.
    intros Hi Hj Ei Ej Hst Hret n seg Hn. destruct (project P sched c Hst) as (tr & L & Q).
    pose proof (L i) as Li. rewrite Ei, Hret in Li. pose proof (session_rcvd i opsi [] si _ _ _ Hi Li) as R.
    pose proof (L (next i)) as Lj. rewrite Ej in Lj. destruct (session_sent (next i) opsj [] [] sj _ _ Hj Lj) as (rest & HS).
    specialize (Q (next i) i). rewrite R in Q.
    replace (prev (next i)) with i in HS by (destruct i; reflexivity). rewrite <- Q, <- app_assoc in HS.
    assert (E : nth_error (map (fun seg => hfun H (wire seg)) (buffered opsj [])) n = Some (hfun H (wire seg))).
    { rewrite HS, nth_error_app1; [apply (map_nth_error (fun seg => hfun H (wire seg)) n log Hn)|]. rewrite map_length. apply nth_error_Some. congruence. }
    rewrite nth_error_map in E. destruct (nth_error (buffered opsj []) n) as [buf|]; [|discriminate]. injection E as E.
    exists buf. split; [reflexivity|]. destruct (list_eq_dec Z.eq_dec (wire seg) (wire buf)) as [?|Hne]; [left; assumption|right]. split; [exact Hne|congruence].
  Qed.
End S.

Section Honest.
  Variables (G : rng) (H : hasher).
  Notation ST := (jst G).
  (** One round: party i sends [x i] to its successor, expects [x (prev i)], and buffers what it knows
      its successor sends to its predecessor. *)
  Definition round_ops (Kx : Z * (pid -> list Z)) (i : pid) : list jop :=
    [OBufferMany (fst Kx) (snd Kx (next i)); OSendMany (fst Kx) (snd Kx i); OReceiveMany (fst Kx) (length (snd Kx i))].

  Lemma session_honest (rounds : list (Z * (pid -> list Z))) : forall (cur : pid -> list (Z * Z)) (s : pid -> ST), jmp_inv G s ->
    Forall (fun Kx => In (fst Kx) widths /\ (forall i, Forall (inr (fst Kx)) (snd Kx i)) /\ exists n, forall i, length (snd Kx i) = n) rounds ->
    wpM (fun i => session G H i (flat_map (fun Kx => round_ops Kx i) rounds ++ [OVerify]) (cur i)) s
      (fun s' log => jmp_inv G s' /\ forall i, log i = [cur i ++ flat_map (fun Kx => map (pair (fst Kx)) (snd Kx (prev i))) rounds]).
  Proof.
    induction rounds as [|[K x] rounds IH]; intros cur s Hs HF.
    - cbn [flat_map app session]. wbind. eapply wpM_mono; [|apply (jmp_verify_ok G H s Hs)]. intros s1 ? [Hs1 _].
      wbind. apply wpM_ret. apply wpM_ret. split; [exact Hs1|]. intros i. rewrite app_nil_r. reflexivity.
    - inversion HF as [|? ? (HK & Hx & n & Hn) HF']; subst. cbn [fst snd] in *.
      apply (wpM_ext (fun i => bindM (jmp_send_receive_many G i K (x i) (x (next i)))
         (fun vs => session G H i (flat_map (fun Kx => round_ops Kx i) rounds ++ [OVerify]) (cur i ++ map (pair K) vs)))).
      { intros i. unfold round_ops. cbn [flat_map app session fst snd]. unfold jmp_send_receive_many, bindM, jmp_buffer_many, jmp_send_many, jmp_receive_many, liftM, getM, putM.
        cbn. reflexivity. }
      wbind. eapply wpM_mono; [|apply (jmp_send_receive_many_ok G K x (fun i => x (next i)) n s HK Hx Hn); [|exact Hs]].
      + intros s1 v [Hs1 Hv]. cbn beta.
        eapply wpM_mono; [|apply (IH (fun i => cur i ++ map (pair K) (v i)) s1 Hs1 HF')].
        intros s2 log [Hs2 Hlog]. split; [exact Hs2|]. intros i. rewrite Hlog, Hv. cbn [flat_map fst snd]. rewrite app_assoc. reflexivity.
      + intros i. destruct i; reflexivity.
  Qed.
End Honest.
