(** Confluence of the interleaving semantics and the composition rules used everywhere else. *)
From Verif Require Import Base Prog.

Lemma get_set_eq {A} (t : tri A) i x : get (set t i x) i = x.
Proof. destruct i; reflexivity. Qed.
Lemma get_set_ne {A} (t : tri A) i j x : i <> j -> get (set t i x) j = get t j.
Proof. destruct i, j; intros H; try reflexivity; congruence. Qed.
Lemma set_set_comm {A} (t : tri A) i j x y : i <> j -> set (set t i x) j y = set (set t j y) i x.
Proof. destruct i, j; intros H; try reflexivity; congruence. Qed.
Lemma set_get {A} (t : tri A) i : set t i (get t i) = t.
Proof. destruct t, i; reflexivity. Qed.
Lemma set_set {A} (t : tri A) i x y : set (set t i x) i y = set t i y.
Proof. destruct i; reflexivity. Qed.
Lemma get_tabulate {A} (f : pid -> A) i : get (tabulate f) i = f i.
Proof. destruct i; reflexivity. Qed.

Lemma qget_qset_eq q i j l : qget (qset q i j l) i j = l.
Proof. unfold qget, qset. rewrite !get_set_eq. reflexivity. Qed.
Lemma qget_qset_ne q i j i' j' l : (i, j) <> (i', j') -> qget (qset q i j l) i' j' = qget q i' j'.
Proof.
  unfold qget, qset. intros H. destruct (pid_eqb_spec i i') as [->|Hi].
  - rewrite get_set_eq, get_set_ne by congruence. reflexivity.
  - rewrite get_set_ne by exact Hi. reflexivity.
Qed.
Lemma qset_qset q i j l l' : qset (qset q i j l) i j l' = qset q i j l'.
Proof. unfold qset. rewrite get_set_eq, !set_set. reflexivity. Qed.
Lemma qset_comm q i j i' j' l l' : (i, j) <> (i', j') ->
  qset (qset q i j l) i' j' l' = qset (qset q i' j' l') i j l.
Proof.
  intros H. unfold qset. destruct (pid_eqb_spec i i') as [->|Hi].
  - rewrite !get_set_eq, !set_set. rewrite set_set_comm by congruence. reflexivity.
  - rewrite !get_set_ne by congruence. rewrite set_set_comm by congruence. reflexivity.
Qed.

(** A party has at most one enabled action. *)
Lemma step_det {A} i (c c1 c2 : cfg A) : step i c c1 -> step i c c2 -> c1 = c2.
Proof.
  intros H1 H2. destruct H1 as [c to m k E|c from k m rest E Q];
    inversion H2 as [c' to' m' k' E'|c' from' k' m' rest' E' Q']; subst;
    rewrite E in E'; inversion E'; subst; [reflexivity|].
  rewrite Q in Q'. inversion Q'; subst. reflexivity.
Qed.

Lemma qpair_dec (a b c d : pid) : {(a, b) = (c, d)} + {(a, b) <> (c, d)}.
Proof. repeat decide equality. Qed.

(** Actions of different parties commute. *)
Lemma diamond {A} i j (c c1 c2 : cfg A) : i <> j -> step i c c1 -> step j c c2 ->
  exists c3, step j c1 c3 /\ step i c2 c3.
Proof.
  intros Hne H1 H2.
  destruct H1 as [c to m k E|c from k m rest E Q];
    inversion H2 as [c' to' m' k' E'|c' from' k' m' rest' E' Q']; subst.
  - (* send, send *)
    eexists. split.
    + eapply step_send. simpl. rewrite get_set_ne by congruence. exact E'.
    + simpl. replace (set (set (progs c) i k) j k') with (set (set (progs c) j k') i k)
        by (symmetry; apply set_set_comm; exact Hne).
      rewrite qget_qset_ne by congruence.
      rewrite qset_comm by congruence.
      replace (qget (qs c) i to ++ [m]) with
        (qget (qs (Cfg (set (progs c) j k') (qset (qs c) j to' (qget (qs c) j to' ++ [m'])))) i to ++ [m])
        by (simpl; rewrite qget_qset_ne by congruence; reflexivity).
      eapply (step_send i (Cfg _ _)). simpl. rewrite get_set_ne by congruence. exact E.
  - (* i sends, j receives *)
    destruct (qpair_dec i to from' j) as [Heq|Hq].
    + inversion Heq; subst.
      exists (Cfg (set (set (progs c) from' k) j (k' m')) (qset (qs c) from' j (rest' ++ [m]))). split.
      * replace (qset (qs c) from' j (rest' ++ [m])) with
          (qset (qset (qs c) from' j (qget (qs c) from' j ++ [m])) from' j (rest' ++ [m]))
          by apply qset_qset.
        apply (step_recv j (Cfg _ _) from' k' m' (rest' ++ [m])); simpl.
        -- rewrite get_set_ne by congruence. exact E'.
        -- rewrite qget_qset_eq, Q'. reflexivity.
      * replace (set (set (progs c) from' k) j (k' m')) with
          (set (set (progs c) j (k' m')) from' k) by (symmetry; apply set_set_comm; exact Hne).
        replace (qset (qs c) from' j (rest' ++ [m])) with
          (qset (qset (qs c) from' j rest') from' j (qget (qset (qs c) from' j rest') from' j ++ [m]))
          by (rewrite qget_qset_eq, qset_qset; reflexivity).
        apply (step_send from' (Cfg _ _)). simpl. rewrite get_set_ne by congruence. exact E.
    + eexists. split.
      * eapply (step_recv j (Cfg _ _)); simpl.
        -- rewrite get_set_ne by congruence. exact E'.
        -- rewrite qget_qset_ne by congruence. exact Q'.
      * simpl. rewrite qset_comm by congruence. rewrite set_set_comm by congruence.
        replace (qget (qs c) i to) with (qget (qset (qs c) from' j rest') i to)
          by (apply qget_qset_ne; congruence).
        apply (step_send i (Cfg _ _)). simpl. rewrite get_set_ne by congruence. exact E.
  - (* i receives, j sends *)
    destruct (qpair_dec j to' from i) as [Heq|Hq].
    + inversion Heq; subst.
      exists (Cfg (set (set (progs c) i (k m)) from k') (qset (qs c) from i (rest ++ [m']))). split.
      * replace (qset (qs c) from i (rest ++ [m'])) with
          (qset (qset (qs c) from i rest) from i (qget (qset (qs c) from i rest) from i ++ [m']))
          by (rewrite qget_qset_eq, qset_qset; reflexivity).
        apply (step_send from (Cfg _ _)). simpl. rewrite get_set_ne by congruence. exact E'.
      * replace (set (set (progs c) i (k m)) from k') with
          (set (set (progs c) from k') i (k m)) by (symmetry; apply set_set_comm; congruence).
        replace (qset (qs c) from i (rest ++ [m'])) with
          (qset (qset (qs c) from i (qget (qs c) from i ++ [m'])) from i (rest ++ [m']))
          by apply qset_qset.
        apply (step_recv i (Cfg _ _) from k m (rest ++ [m'])); simpl.
        -- rewrite get_set_ne by congruence. exact E.
        -- rewrite qget_qset_eq, Q. reflexivity.
    + eexists. split.
      * eapply (step_send j (Cfg _ _)); simpl. rewrite get_set_ne by congruence. exact E'.
      * simpl. rewrite qget_qset_ne by congruence. rewrite qset_comm by congruence.
        rewrite set_set_comm by congruence.
        apply (step_recv i (Cfg _ _)); simpl.
        -- rewrite get_set_ne by congruence. exact E.
        -- rewrite qget_qset_ne by congruence. exact Q.
  - (* receive, receive *)
    eexists. split.
    + eapply (step_recv j (Cfg _ _)); simpl.
      * rewrite get_set_ne by congruence. exact E'.
      * rewrite qget_qset_ne by congruence. exact Q'.
    + simpl. rewrite qset_comm by congruence. rewrite set_set_comm by congruence.
      apply (step_recv i (Cfg _ _)); simpl.
      * rewrite get_set_ne by congruence. exact E.
      * rewrite qget_qset_ne by congruence. exact Q.
Qed.

Lemma steps_app {A} s s' (c c' c'' : cfg A) : steps s c c' -> steps s' c' c'' -> steps (s ++ s') c c''.
Proof. induction 1 as [|i s c c1 c2 H1 H2 IH]; simpl; intros H; [exact H|].
  econstructor; eauto. Qed.

(** Strong confluence: if one schedule reaches a stuck configuration, any first move can be
    completed to the same configuration with one step fewer in total. *)
Lemma one_step_completes {A} s (c f : cfg A) : steps s c f -> stuck f ->
  forall i c', step i c c' -> exists s', steps s' c' f /\ length s = S (length s').
Proof.
  induction 1 as [c|j s c c1 f H1 H2 IH]; intros Hst i c' Hi.
  - exfalso. exact (Hst _ _ Hi).
  - destruct (pid_eqb_spec i j) as [->|Hne].
    + rewrite (step_det _ _ _ _ Hi H1). exists s. split; [exact H2|reflexivity].
    + destruct (diamond _ _ _ _ _ Hne Hi H1) as (c3 & Hj & Hi').
      destruct (IH Hst _ _ Hi') as (s' & Hs' & Hl).
      exists (j :: s'). split; [econstructor; eauto|simpl; lia].
Qed.

Lemma any_steps_complete {A} s0 (c c' : cfg A) : steps s0 c c' -> forall s f, steps s c f -> stuck f ->
  exists s', steps s' c' f /\ (length s0 + length s' = length s)%nat.
Proof.
  induction 1 as [c|i s0 c c1 c2 H1 H2 IH]; intros s f Hs Hst.
  - exists s. split; [exact Hs|reflexivity].
  - destruct (one_step_completes _ _ _ Hs Hst _ _ H1) as (s1 & Hs1 & Hl).
    destruct (IH _ _ Hs1 Hst) as (s' & Hs' & Hl'). exists s'. split; [exact Hs'|simpl; lia].
Qed.

Lemma finished_stuck {A} (R : pid -> A) : stuck (finished R).
Proof.
  intros i c' H. inversion H as [c to m k E|c from k m rest E Q]; subst; simpl in E;
    rewrite get_tabulate in E; discriminate.
Qed.

Theorem evals_always {A} (P : pid -> prog A) R : evals P R -> always_evals P R.
Proof.
  intros [s Hs]. exists (length s). intros s0 c Hc.
  destruct (any_steps_complete _ _ _ Hc _ _ Hs (finished_stuck R)) as (s' & Hs' & Hl).
  split; [lia|]. split; [exists s'; split; [exact Hs'|lia]|].
  intros Hst. inversion Hs'; subst; [reflexivity|]. exfalso; eapply Hst; eassumption.
Qed.

Lemma finished_inj {A} (R R' : pid -> A) : finished R = finished R' -> forall i, R i = R' i.
Proof. intros H i. inversion H. destruct i; assumption. Qed.

Theorem evals_unique {A} (P : pid -> prog A) R R' : evals P R -> evals P R' -> forall i, R i = R' i.
Proof.
  intros [s Hs] [s' Hs'].
  destruct (any_steps_complete _ _ _ Hs _ _ Hs' (finished_stuck R')) as (s2 & H2 & _).
  apply finished_inj. remember (finished R) as c eqn:Ec.
  destruct H2 as [c|i s2 c c1 c2 H1 _]; [congruence|].
  subst c. exfalso; eapply finished_stuck; eassumption.
Qed.

(** ** Composition *)
Definition bind_cfg {A B} (c : cfg A) (K : pid -> A -> prog B) : cfg B :=
  Cfg (tabulate (fun i => bind (get (progs c) i) (K i))) (qs c).

Lemma tri_eta {A} (t t' : tri A) : (forall i, get t i = get t' i) -> t = t'.
Proof. intros H. pose proof (H P0); pose proof (H P1); pose proof (H P2).
  destruct t, t'; simpl in *; congruence. Qed.

Lemma bind_step {A B} i (c c' : cfg A) (K : pid -> A -> prog B) :
  step i c c' -> step i (bind_cfg c K) (bind_cfg c' K).
Proof.
  intros H. destruct H as [c to m k E|c from k m rest E Q].
  - replace (bind_cfg (Cfg (set (progs c) i k) (qset (qs c) i to (qget (qs c) i to ++ [m]))) K)
      with (Cfg (set (progs (bind_cfg c K)) i (bind k (K i)))
              (qset (qs (bind_cfg c K)) i to (qget (qs (bind_cfg c K)) i to ++ [m]))).
    + apply step_send. simpl. rewrite get_tabulate, E. reflexivity.
    + unfold bind_cfg; simpl. f_equal. apply tri_eta. intros j. rewrite get_tabulate.
      destruct (pid_eqb_spec i j) as [->|Hne].
      * rewrite !get_set_eq. reflexivity.
      * rewrite !get_set_ne, get_tabulate by congruence. reflexivity.
  - replace (bind_cfg (Cfg (set (progs c) i (k m)) (qset (qs c) from i rest)) K)
      with (Cfg (set (progs (bind_cfg c K)) i ((fun m => bind (k m) (K i)) m))
              (qset (qs (bind_cfg c K)) from i rest)).
    + apply (step_recv i (bind_cfg c K) from (fun m => bind (k m) (K i)) m rest); simpl.
      * rewrite get_tabulate, E. reflexivity.
      * exact Q.
    + unfold bind_cfg; simpl. f_equal. apply tri_eta. intros j. rewrite get_tabulate.
      destruct (pid_eqb_spec i j) as [->|Hne].
      * rewrite !get_set_eq. reflexivity.
      * rewrite !get_set_ne, get_tabulate by congruence. reflexivity.
Qed.

Lemma bind_steps {A B} s (c c' : cfg A) (K : pid -> A -> prog B) :
  steps s c c' -> steps s (bind_cfg c K) (bind_cfg c' K).
Proof. induction 1; [constructor|econstructor; eauto using bind_step]. Qed.

Lemma evals_ret {A} (R : pid -> A) : evals (fun i => Ret (R i)) R.
Proof. exists []. constructor. Qed.

Lemma evals_bind {A B} (P : pid -> prog A) (R : pid -> A) (K : pid -> A -> prog B) R' :
  evals P R -> evals (fun i => K i (R i)) R' -> evals (fun i => bind (P i) (K i)) R'.
Proof.
  intros [s Hs] [s' Hs']. exists (s ++ s'). eapply steps_app; [|exact Hs'].
  exact (bind_steps _ _ _ K Hs).
Qed.

Lemma evals_ext {A} (P P' : pid -> prog A) R R' :
  (forall i, P i = P' i) -> (forall i, R i = R' i) -> evals P R -> evals P' R'.
Proof.
  intros HP HR [s Hs]. exists s.
  unfold start, finished, tabulate in *. rewrite <- !HP, <- !HR. exact Hs.
Qed.

(** ** Weakest precondition of a joint execution *)
Definition wp {A} (P : pid -> prog A) (Q : (pid -> A) -> Prop) : Prop :=
  exists R, evals P R /\ Q R.

Lemma wp_ret {A} (R : pid -> A) (Q : (pid -> A) -> Prop) : Q R -> wp (fun i => Ret (R i)) Q.
Proof. intros H; exists R; split; [apply evals_ret|exact H]. Qed.

Lemma wp_bind {A B} (P : pid -> prog A) (K : pid -> A -> prog B) Q :
  wp P (fun R => wp (fun i => K i (R i)) Q) -> wp (fun i => bind (P i) (K i)) Q.
Proof. intros (R & HR & R' & HR' & HQ). exists R'. split; [eapply evals_bind; eauto|exact HQ]. Qed.

Lemma wp_mono {A} (P : pid -> prog A) (Q Q' : (pid -> A) -> Prop) :
  (forall R, Q R -> Q' R) -> wp P Q -> wp P Q'.
Proof. intros H (R & HR & HQ). exists R; auto. Qed.

Lemma wp_ext {A} (P P' : pid -> prog A) Q : (forall i, P i = P' i) -> wp P Q -> wp P' Q.
Proof. intros H (R & HR & HQ). exists R. split; [|exact HQ].
  eapply evals_ext; eauto. Qed.

(** Everybody sends to the next party, then receives from the previous one. *)
Lemma wp_send_and_receive (m : pid -> msg) (Q : (pid -> msg) -> Prop) :
  Q (fun i => m (prev i)) -> wp (fun i => send_and_receive i (m i)) Q.
Proof.
  intros HQ. exists (fun i => m (prev i)). split; [|exact HQ].
  exists [P0; P1; P2; P0; P1; P2].
  unfold start, finished, send_and_receive, tabulate.
  econstructor; [eapply (step_send P0 (Cfg _ _)); reflexivity|].
  econstructor; [eapply (step_send P1 (Cfg _ _)); reflexivity|].
  econstructor; [eapply (step_send P2 (Cfg _ _)); reflexivity|].
  econstructor; [eapply (step_recv P0 (Cfg _ _)); reflexivity|].
  econstructor; [eapply (step_recv P1 (Cfg _ _)); reflexivity|].
  econstructor; [eapply (step_recv P2 (Cfg _ _)); reflexivity|].
  constructor.
Qed.

(** ** The same for state-passing programs *)
Definition wpM {S A} (P : pid -> M S A) (s : pid -> S) (Q : (pid -> S) -> (pid -> A) -> Prop) : Prop :=
  wp (fun i => P i (s i)) (fun R => Q (fun i => fst (R i)) (fun i => snd (R i))).

Lemma wpM_ret {S A} (a : pid -> A) (s : pid -> S) (Q : (pid -> S) -> (pid -> A) -> Prop) :
  Q s a -> wpM (fun i => retM (a i)) s Q.
Proof. intros H. unfold wpM, retM. apply (wp_ret (fun i => (s i, a i))). exact H. Qed.

Lemma wpM_bind {S A B} (P : pid -> M S A) (F : pid -> A -> M S B) s Q :
  wpM P s (fun s' a => wpM (fun i => F i (a i)) s' Q) -> wpM (fun i => bindM (P i) (F i)) s Q.
Proof. intros H. unfold wpM, bindM in *. apply wp_bind. exact H. Qed.

Lemma wpM_mono {S A} (P : pid -> M S A) s (Q Q' : (pid -> S) -> (pid -> A) -> Prop) :
  (forall s' a, Q s' a -> Q' s' a) -> wpM P s Q -> wpM P s Q'.
Proof. intros H. apply wp_mono. intros R. apply H. Qed.

Lemma wpM_ext {S A} (P P' : pid -> M S A) s Q : (forall i, P i (s i) = P' i (s i)) -> wpM P s Q -> wpM P' s Q.
Proof. intros H. apply wp_ext. exact H. Qed.

Lemma wpM_lift {S A} (P : pid -> prog A) (s : pid -> S) (Q : (pid -> S) -> (pid -> A) -> Prop) :
  wp P (fun R => Q s R) -> wpM (fun i => liftM (P i)) s Q.
Proof.
  intros H. unfold wpM, liftM. apply wp_bind. eapply wp_mono; [|exact H].
  intros R HQ. apply (wp_ret (fun i => (s i, R i))). exact HQ.
Qed.

Lemma wpM_get {S} (s : pid -> S) (Q : (pid -> S) -> (pid -> S) -> Prop) :
  Q s s -> wpM (fun _ => getM) s Q.
Proof. intros H. unfold wpM, getM. apply (wp_ret (fun i => (s i, s i))). exact H. Qed.

Lemma wpM_put {S} (s s' : pid -> S) (Q : (pid -> S) -> (pid -> unit) -> Prop) :
  Q s' (fun _ => tt) -> wpM (fun i => putM (s' i)) s Q.
Proof. intros H. unfold wpM, putM. apply (wp_ret (fun i => (s' i, tt))). exact H. Qed.

(** A successful pure computation at every party. *)
Lemma wpM_res {S A} (r : pid -> res A) (a : pid -> A) (s : pid -> S) (Q : (pid -> S) -> (pid -> A) -> Prop) :
  (forall i, r i = Ok (a i)) -> Q s a -> wpM (fun i => resM (r i)) s Q.
Proof.
  intros Hr HQ. apply wpM_lift. apply (wp_ext (fun i => Ret (a i))).
  - intros i. rewrite Hr. reflexivity.
  - apply wp_ret. exact HQ.
Qed.

(** ** [unwrap] does not change a successful run. *)
Definition unwrap_cfg {A} (c : cfg A) : cfg A := Cfg (tabulate (fun i => unwrap (get (progs c) i))) (qs c).
Lemma unwrap_step {A} i (c c' : cfg A) : step i c c' -> step i (unwrap_cfg c) (unwrap_cfg c').
Proof.
  intros H. destruct H as [c to m k E|c from k m rest E Q].
  - replace (unwrap_cfg (Cfg (set (progs c) i k) (qset (qs c) i to (qget (qs c) i to ++ [m]))))
      with (Cfg (set (progs (unwrap_cfg c)) i (unwrap k))
              (qset (qs (unwrap_cfg c)) i to (qget (qs (unwrap_cfg c)) i to ++ [m]))).
    + apply step_send. simpl. rewrite get_tabulate, E. reflexivity.
    + unfold unwrap_cfg; simpl. f_equal. apply tri_eta. intros j. rewrite get_tabulate.
      destruct (pid_eqb_spec i j) as [->|Hne].
      * rewrite !get_set_eq. reflexivity.
      * rewrite !get_set_ne, get_tabulate by congruence. reflexivity.
  - replace (unwrap_cfg (Cfg (set (progs c) i (k m)) (qset (qs c) from i rest)))
      with (Cfg (set (progs (unwrap_cfg c)) i ((fun m => unwrap (k m)) m))
              (qset (qs (unwrap_cfg c)) from i rest)).
    + apply (step_recv i (unwrap_cfg c) from (fun m => unwrap (k m)) m rest); simpl.
      * rewrite get_tabulate, E. reflexivity.
      * exact Q.
    + unfold unwrap_cfg; simpl. f_equal. apply tri_eta. intros j. rewrite get_tabulate.
      destruct (pid_eqb_spec i j) as [->|Hne].
      * rewrite !get_set_eq. reflexivity.
      * rewrite !get_set_ne, get_tabulate by congruence. reflexivity.
Qed.
Lemma unwrap_steps {A} s (c c' : cfg A) : steps s c c' -> steps s (unwrap_cfg c) (unwrap_cfg c').
Proof. induction 1; [constructor|econstructor; eauto using unwrap_step]. Qed.
Lemma evals_unwrap {A} (P : pid -> prog A) R : evals P R -> evals (fun i => unwrap (P i)) R.
Proof. intros [s Hs]. exists s. exact (unwrap_steps _ _ _ Hs). Qed.
Lemma wpM_unwrap {S A} (P : pid -> M S A) s Q : wpM P s Q -> wpM (fun i => unwrapM (P i)) s Q.
Proof. intros (R & HR & HQ). exists R. split; [|exact HQ]. apply evals_unwrap, HR. Qed.
