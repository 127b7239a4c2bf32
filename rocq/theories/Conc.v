(** Symbolic execution of three concrete party programs, and projection of a global run onto the
    local runs of the parties (used when one party runs an arbitrary program). *)
From Verif Require Import Base Prog Sched.

(** ** Running configurations *)
Definition cwp {A} (p0 p1 p2 : prog A) (q : queues) (Q : (pid -> A) -> Prop) : Prop :=
  exists R s, steps s (Cfg (Tri p0 p1 p2) q) (finished R) /\ Q R.

Lemma wp_cwp {A} (P : pid -> prog A) Q : cwp (P P0) (P P1) (P P2) noq Q -> wp P Q.
Proof. intros (R & s & H & HQ). exists R. split; [|exact HQ]. exists s. exact H. Qed.

Lemma cwp_ret {A} (a0 a1 a2 : A) (Q : (pid -> A) -> Prop) (R : pid -> A) :
  R P0 = a0 -> R P1 = a1 -> R P2 = a2 -> Q R -> cwp (Ret a0) (Ret a1) (Ret a2) noq Q.
Proof. intros <- <- <- HQ. exists R, []. split; [constructor|exact HQ]. Qed.

Lemma cwp_send0 {A} to m (k p1 p2 : prog A) q Q :
  cwp k p1 p2 (qset q P0 to (qget q P0 to ++ [m])) Q -> cwp (Send to m k) p1 p2 q Q.
Proof. intros (R & s & H & HQ). exists R, (P0 :: s). split; [|exact HQ]. econstructor; [|exact H].
  eapply (step_send P0 (Cfg (Tri (Send to m k) p1 p2) q)). reflexivity. Qed.
Lemma cwp_send1 {A} to m (k p0 p2 : prog A) q Q :
  cwp p0 k p2 (qset q P1 to (qget q P1 to ++ [m])) Q -> cwp p0 (Send to m k) p2 q Q.
Proof. intros (R & s & H & HQ). exists R, (P1 :: s). split; [|exact HQ]. econstructor; [|exact H].
  eapply (step_send P1 (Cfg (Tri p0 (Send to m k) p2) q)). reflexivity. Qed.
Lemma cwp_send2 {A} to m (k p0 p1 : prog A) q Q :
  cwp p0 p1 k (qset q P2 to (qget q P2 to ++ [m])) Q -> cwp p0 p1 (Send to m k) q Q.
Proof. intros (R & s & H & HQ). exists R, (P2 :: s). split; [|exact HQ]. econstructor; [|exact H].
  eapply (step_send P2 (Cfg (Tri p0 p1 (Send to m k)) q)). reflexivity. Qed.
Lemma cwp_recv0 {A} from (k : msg -> prog A) p1 p2 q m rest Q : qget q from P0 = m :: rest ->
  cwp (k m) p1 p2 (qset q from P0 rest) Q -> cwp (Recv from k) p1 p2 q Q.
Proof. intros E (R & s & H & HQ). exists R, (P0 :: s). split; [|exact HQ]. econstructor; [|exact H].
  apply (step_recv P0 (Cfg (Tri (Recv from k) p1 p2) q) from k m rest); [reflexivity|exact E]. Qed.
Lemma cwp_recv1 {A} from (k : msg -> prog A) p0 p2 q m rest Q : qget q from P1 = m :: rest ->
  cwp p0 (k m) p2 (qset q from P1 rest) Q -> cwp p0 (Recv from k) p2 q Q.
Proof. intros E (R & s & H & HQ). exists R, (P1 :: s). split; [|exact HQ]. econstructor; [|exact H].
  apply (step_recv P1 (Cfg (Tri p0 (Recv from k) p2) q) from k m rest); [reflexivity|exact E]. Qed.
Lemma cwp_recv2 {A} from (k : msg -> prog A) p0 p1 q m rest Q : qget q from P2 = m :: rest ->
  cwp p0 p1 (k m) (qset q from P2 rest) Q -> cwp p0 p1 (Recv from k) q Q.
Proof. intros E (R & s & H & HQ). exists R, (P2 :: s). split; [|exact HQ]. econstructor; [|exact H].
  apply (step_recv P2 (Cfg (Tri p0 p1 (Recv from k)) q) from k m rest); [reflexivity|exact E]. Qed.

(** Perform one enabled action (after head reduction of the programs with [red]). *)
Ltac cstep :=
  lazymatch goal with
  | |- cwp (Send _ _ _) _ _ _ _ => apply cwp_send0
  | |- cwp _ (Send _ _ _) _ _ _ => apply cwp_send1
  | |- cwp _ _ (Send _ _ _) _ _ => apply cwp_send2
  | |- _ => first [eapply cwp_recv0; [reflexivity|] | eapply cwp_recv1; [reflexivity|] | eapply cwp_recv2; [reflexivity|]]
  end.
Ltac qnorm := cbn [qset qget set get t0 t1 t2 noq tabulate app].
Ltac crun := repeat (cstep; qnorm; cbv beta).

(** Everybody sends to the previous party, then receives from the next one. *)
Lemma wp_send_prev_recv_next (m : pid -> msg) (Q : (pid -> msg) -> Prop) :
  Q (fun i => m (next i)) -> wp (fun i => Send (prev i) (m i) (Recv (next i) Ret)) Q.
Proof.
  intros HQ. apply wp_cwp. cbn [prev next]. crun.
  eapply cwp_ret; [..|exact HQ]; reflexivity.
Qed.

(** ** Local runs *)
Inductive act : Type := ASend (to : pid) (m : msg) | ARecv (from : pid) (m : msg).
Inductive lrun {A} : prog A -> list act -> prog A -> Prop :=
| lrun_nil p : lrun p [] p
| lrun_send to m k tr p : lrun k tr p -> lrun (Send to m k) (ASend to m :: tr) p
| lrun_recv from k m tr p : lrun (k m) tr p -> lrun (Recv from k) (ARecv from m :: tr) p.

Fixpoint sent_to (j : pid) (tr : list act) : list msg :=
  match tr with
  | [] => []
  | ASend to m :: t => if pid_eqb to j then m :: sent_to j t else sent_to j t
  | ARecv _ _ :: t => sent_to j t
  end.
Fixpoint rcvd_from (j : pid) (tr : list act) : list msg :=
  match tr with
  | [] => []
  | ARecv from m :: t => if pid_eqb from j then m :: rcvd_from j t else rcvd_from j t
  | ASend _ _ :: t => rcvd_from j t
  end.
Lemma sent_app j t t' : sent_to j (t ++ t') = sent_to j t ++ sent_to j t'.
Proof. induction t as [|[to m|from m] t IH]; cbn; [reflexivity| |exact IH]. destruct (pid_eqb to j); cbn; rewrite IH; reflexivity. Qed.
Lemma rcvd_app j t t' : rcvd_from j (t ++ t') = rcvd_from j t ++ rcvd_from j t'.
Proof. induction t as [|[to m|from m] t IH]; cbn; [reflexivity|exact IH|]. destruct (pid_eqb from j); cbn; rewrite IH; reflexivity. Qed.
Lemma lrun_app {A} (p p' p'' : prog A) t t' : lrun p t p' -> lrun p' t' p'' -> lrun p (t ++ t') p''.
Proof. induction 1; cbn; intros; [assumption|constructor; auto|constructor; auto]. Qed.

(** Whatever the three programs are, every reachable configuration decomposes into one local run per
    party, and what j has received from i, followed by what is still in the queue, is what i sent to j. *)
Theorem project {A} (P : pid -> prog A) s c : steps s (start P) c ->
  exists tr : pid -> list act,
    (forall i, lrun (P i) (tr i) (get (progs c) i)) /\
    (forall i j, rcvd_from i (tr j) ++ qget (qs c) i j = sent_to j (tr i)).
Proof.
  revert c. enough (G : forall c0 c1, steps s c0 c1 -> forall tr : pid -> list act,
     (forall i, lrun (P i) (tr i) (get (progs c0) i)) ->
     (forall i j, rcvd_from i (tr j) ++ qget (qs c0) i j = sent_to j (tr i)) ->
     exists tr : pid -> list act,
     (forall i, lrun (P i) (tr i) (get (progs c1) i)) /\
     (forall i j, rcvd_from i (tr j) ++ qget (qs c1) i j = sent_to j (tr i))).
  { intros c H. apply (G _ _ H (fun _ => [])).
    - intros i. unfold start. cbn [progs]. rewrite get_tabulate. constructor.
    - intros i j. destruct i, j; reflexivity. }
  intros c0 c1 H. induction H as [c0|i s c0 c1 c2 H1 H2 IH]; intros tr L Q; [exists tr; auto|].
  destruct H1 as [c to m k E|c from k m rest E Eq].
  - apply (IH (fun j => if pid_eqb i j then tr j ++ [ASend to m] else tr j)); cbn [progs qs].
    + intros j. destruct (pid_eqb_spec i j) as [<-|Hne].
      * rewrite get_set_eq. eapply lrun_app; [apply L|]. rewrite E. constructor. constructor.
      * rewrite get_set_ne by exact Hne. apply L.
    + intros a b.
      assert (Er : rcvd_from a (if pid_eqb i b then tr b ++ [ASend to m] else tr b) = rcvd_from a (tr b))
        by (destruct (pid_eqb i b); [rewrite rcvd_app; cbn; apply app_nil_r|reflexivity]).
      rewrite Er. destruct (pid_eqb_spec i a) as [<-|Hne].
      * rewrite sent_app. cbn [sent_to]. destruct (pid_eqb_spec to b) as [<-|Hb].
        -- rewrite qget_qset_eq, app_assoc, Q. reflexivity.
        -- rewrite qget_qset_ne by congruence. rewrite Q, app_nil_r. reflexivity.
      * rewrite qget_qset_ne by congruence. apply Q.
  - apply (IH (fun j => if pid_eqb i j then tr j ++ [ARecv from m] else tr j)); cbn [progs qs].
    + intros j. destruct (pid_eqb_spec i j) as [<-|Hne].
      * rewrite get_set_eq. eapply lrun_app; [apply L|]. rewrite E. constructor. constructor.
      * rewrite get_set_ne by exact Hne. apply L.
    + intros a b.
      assert (Er : sent_to b (if pid_eqb i a then tr a ++ [ARecv from m] else tr a) = sent_to b (tr a))
        by (destruct (pid_eqb i a); [rewrite sent_app; cbn; apply app_nil_r|reflexivity]).
      rewrite Er. destruct (pid_eqb_spec i b) as [<-|Hne].
      * rewrite rcvd_app. cbn [rcvd_from]. destruct (pid_eqb_spec from a) as [<-|Ha].
        -- rewrite qget_qset_eq, <- app_assoc. cbn [app]. rewrite <- Q, Eq. reflexivity.
        -- rewrite qget_qset_ne by congruence. rewrite app_nil_r. apply Q.
      * rewrite qget_qset_ne by congruence. apply Q.
Qed.

(** Local runs of a sequence. *)
Lemma lrun_bind {A B} (p : prog A) (f : A -> prog B) tr b : lrun (bind p f) tr (Ret b) ->
  exists tr1 a tr2, lrun p tr1 (Ret a) /\ lrun (f a) tr2 (Ret b) /\ tr = tr1 ++ tr2.
Proof.
  revert tr. induction p as [a|e|to m k IH|from k IH]; intros tr H; cbn [bind] in H.
  - exists [], a, tr. split; [constructor|]. split; [exact H|reflexivity].
  - inversion H.
  - inversion H; subst. match goal with X : lrun (bind k f) _ _ |- _ => destruct (IH _ X) as (t1 & a & t2 & L1 & L2 & ->) end.
    exists (ASend to m :: t1), a, t2. split; [constructor; exact L1|]. split; [exact L2|reflexivity].
  - inversion H; subst. match goal with X : lrun (bind (k ?m) f) _ _ |- _ => destruct (IH m _ X) as (t1 & a & t2 & L1 & L2 & ->);
      exists (ARecv from m :: t1), a, t2 end. split; [constructor; exact L1|]. split; [exact L2|reflexivity].
Qed.
Lemma lrun_ret {A} (a b : A) tr : lrun (Ret a) tr (Ret b) -> tr = [] /\ a = b.
Proof. inversion 1; auto. Qed.
(** ... also of unfinished ones. *)
Lemma lrun_bind_any {A B} (p : prog A) (f : A -> prog B) tr q : lrun (bind p f) tr q ->
  (exists p', lrun p tr p' /\ q = bind p' f) \/
  (exists tr1 a tr2, lrun p tr1 (Ret a) /\ lrun (f a) tr2 q /\ tr = tr1 ++ tr2).
Proof.
  revert tr. induction p as [a|e|to m k IH|from k IH]; intros tr H; cbn [bind] in H.
  - right. exists [], a, tr. split; [constructor|]. split; [exact H|reflexivity].
  - inversion H; subst. left. exists (Fail e). split; [constructor|reflexivity].
  - inversion H; subst.
    + left. exists (Send to m k). split; [constructor|reflexivity].
    + match goal with X : lrun (bind k f) _ _ |- _ => destruct (IH _ X) as [(p' & L & ->)|(t1 & a & t2 & L1 & L2 & ->)] end.
      * left. exists p'. split; [constructor; exact L|reflexivity].
      * right. exists (ASend to m :: t1), a, t2. split; [constructor; exact L1|]. split; [exact L2|reflexivity].
  - inversion H; subst.
    + left. exists (Recv from k). split; [constructor|reflexivity].
    + match goal with X : lrun (bind (k ?m) f) _ _ |- _ => destruct (IH m _ X) as [(p' & L & ->)|(t1 & a & t2 & L1 & L2 & ->)] end.
      * left. exists p'. split; [constructor; exact L|reflexivity].
      * right. eexists (ARecv from _ :: t1), a, t2. split; [constructor; exact L1|]. split; [exact L2|reflexivity].
Qed.
