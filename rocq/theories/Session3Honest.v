(** Honest Swift3 parties: joint messages arrive and every verification succeeds. *)
From Verif Require Import Base Ring RingProofs Prog Sched Conc Rng Rel Net Aby3 ShareSpec Jmp JmpProofs Session SessionProofs Swift3 Session3.

Section S.
  Variables (G : rng) (H : hasher).
  Notation ST := (sst G).
  Definition qmatch (s : pid -> ST) : Prop := (forall i, w_sn G (s (prev i)) = w_rp G (s i)) /\ (forall i, w_sp G (s (next i)) = w_rn G (s i)).

  Definition role (i : pid) (r : round) : M ST (list Z) :=
    if pid_eqb i (r_from r) then bindM (w_send_many G (r_width r) (r_vals r) (r_to r)) (fun _ => retM [])
    else if pid_eqb i (r_to r) then w_receive_many G i (r_width r) (r_from r) (length (r_vals r))
    else bindM (w_queue_many G i (r_width r) (r_vals r) (r_to r)) (fun _ => retM []).
  Definition after (i : pid) (r : round) (vs : list Z) : list (pid * (Z * Z)) := map (fun v => (r_from r, (r_width r, v))) vs.
  Lemma role_op i r ops cur s : round_ok r ->
    session3 G H i (round_op i r :: ops) cur s = bindM (role i r) (fun vs => session3 G H i ops (cur ++ after i r vs)) s.
  Proof using.
    intros (_ & Hn & _). unfold round_op, role. destruct r as [K f t vs]. cbn [r_width r_from r_to r_vals] in *.
    destruct (pid_eqb i f) eqn:Ef.
    - cbn. unfold w_send_many, send_vec, liftM, bindM. cbn. rewrite app_nil_r. reflexivity.
    - destruct (pid_eqb i t) eqn:Et; [reflexivity|].
      cbn [session3]. unfold w_queue_many, bindM, getM, putM, failM, retM. cbn [bind].
      destruct (pid_eqb t (next i)); [cbn; rewrite app_nil_r; reflexivity|].
      destruct (pid_eqb t (prev i)); [cbn; rewrite app_nil_r; reflexivity|reflexivity].
  Qed.
  Lemma role_ok r s : round_ok r -> qmatch s ->
    wpM (fun i => role i r) s (fun s' v => qmatch s' /\ forall i, v i = if pid_eqb i (r_to r) then r_vals r else []).
  Proof using.
    intros (HK & Hn & HV) (Q1 & Q2). destruct r as [K f t vs]. cbn [r_width r_from r_to r_vals] in *. apply wp_cwp. unfold role. cbn [r_width r_from r_to r_vals].
    unfold w_send_many, w_receive_many, w_queue_many, w_received, liftM, bindM, getM, putM, retM, send_vec, receive_vec.
    pose proof (Q1 P0) as A0. pose proof (Q1 P1) as A1. pose proof (Q1 P2) as A2. pose proof (Q2 P0) as B0. pose proof (Q2 P1) as B1. pose proof (Q2 P2) as B2. cbn [next prev] in *.
    destruct f, t; try (exfalso; apply Hn; reflexivity); cbn [bind pid_eqb next prev];
    do 2 (cstep; qnorm; cbv beta; rewrite ?vec_roundtrip by auto; cbn [of_res bind]);
    (eapply (cwp_ret _ _ _ _ (fun i => match i with P0 => _ | P1 => _ | P2 => _ end)); [reflexivity..|]);
    (split; [split; intros [| |]; cbn; try congruence|intros [| |]; reflexivity]). all: solve [assumption|f_equal; assumption].
  Qed.
  Lemma qverify s : qmatch s -> wpM (fun i => w_verify G H i) s (fun s' _ => qmatch s').
  Proof using.
    intros (Hq1 & Hq2). unfold w_verify. wbind. apply wpM_get. wbind.
    apply (wpM_put s (fun i => w_set_log G (w_set_q G (s i) [] [] [] []) (w_log G (s i) ++ [w_sn G (s i); w_sp G (s i); w_rn G (s i); w_rp G (s i)]))).
    wbind. apply wpM_lift.
    assert (HW : forall (m m' : pid -> msg) (Q : (pid -> msg * msg) -> Prop), Q (fun i => (m (prev i), m' (next i))) ->
      wp (fun i => Send (next i) (m i) (Send (prev i) (m' i) (Recv (prev i) (fun rp => Recv (next i) (fun rn => Ret (rp, rn)))))) Q).
    { intros m m' Q HQ. apply wp_cwp. cbn [prev next]. crun. eapply cwp_ret; [..|exact HQ]; reflexivity. }
    apply (HW (fun i => hfun H (w_sn G (s i))) (fun i => hfun H (w_sp G (s i)))).
    apply (wpM_ext (fun i => retM tt)).
    { intros i. cbn [fst snd]. rewrite Hq1, Hq2, !bytes_eqb_refl. reflexivity. }
    apply wpM_ret. split; intros i; reflexivity.
  Qed.
  Lemma rounds_ok seg : Forall round_ok seg -> forall (ops : pid -> list wop) cur s Q, qmatch s ->
    (forall s', qmatch s' -> wpM (fun i => session3 G H i (ops i) (cur i ++ gets i seg)) s' Q) ->
    wpM (fun i => session3 G H i (map (round_op i) seg ++ ops i) (cur i)) s Q.
  Proof using.
    induction 1 as [|r seg Hr _ IH]; intros ops cur s Q Hs HQ.
    - specialize (HQ s Hs). eapply wpM_ext; [|exact HQ]. intros i. cbn. rewrite app_nil_r. reflexivity.
    - apply (wpM_ext (fun i => bindM (role i r) (fun vs => session3 G H i (map (round_op i) seg ++ ops i) (cur i ++ after i r vs)))).
      { intros i. symmetry. cbn [map app]. apply role_op, Hr. }
      apply wpM_bind. eapply wpM_mono; [|apply (role_ok r s Hr Hs)].
      intros s' v (Hs' & Hv). apply IH; [exact Hs'|]. intros s'' Hs''. specialize (HQ s'' Hs''). eapply wpM_ext; [|exact HQ].
      intros i. cbn [gets flat_map]. rewrite (Hv i), <- app_assoc. unfold after. destruct (pid_eqb i (r_to r)); reflexivity.
  Qed.
  Lemma session3_honest segs : Forall (Forall round_ok) segs -> forall s, qmatch s ->
    wpM (fun i => session3 G H i (rounds_ops i segs) []) s (fun _ log => forall i, log i = map (gets i) segs).
  Proof using.
    induction 1 as [|seg segs Hr _ IH]; intros s Hs.
    - apply wpM_ret. reflexivity.
    - apply (wpM_ext (fun i => session3 G H i (map (round_op i) seg ++ (WVerify :: rounds_ops i segs)) [])).
      { intros i. cbn [rounds_ops flat_map]. rewrite <- app_assoc. reflexivity. }
      apply rounds_ok; [exact Hr|exact Hs|]. intros s1 H1. cbn [session3]. wbind. eapply wpM_mono; [|apply (qverify s1 H1)]. intros s2 u H2. cbn beta. wbind.
      eapply wpM_mono; [|apply (IH s2 H2)]. intros s3 l Hl. cbn beta. apply wpM_ret. intros i. rewrite (Hl i). reflexivity.
  Qed.
End S.
