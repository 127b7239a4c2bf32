(** Runs in which the parties may end differently, and programs that differ from another one only by stopping earlier. *)
From Verif Require Import Base Prog Sched FailProofs OutcomeSpec.

Definition outs {A} (P : pid -> prog A) (F : pid -> res A) : Prop := exists s, steps s (start P) (Cfg (tabulate (fun i => of_res (F i))) noq).
Lemma outs_stuck {A} (F : pid -> res A) : stuck (Cfg (tabulate (fun i => of_res (F i))) noq).
Proof. intros i c' Hs. inversion Hs as [c to m k E|c from k m rest E Q]; subst; cbn in E; rewrite get_tabulate in E; destruct (F i); discriminate. Qed.
Lemma outs_honest {S A} (P : pid -> M S A) s F : outs (fun i => P i (s i)) F -> honest_outcome P s F.
Proof.
  intros [sc Hs]. exists (length sc). intros sched c Hc.
  destruct (any_steps_complete _ _ _ Hc _ _ Hs (outs_stuck F)) as (s' & H1 & H2).
  split; [lia|]. split; [exists s'; split; [exact H1|lia]|].
  intros Hst. inversion H1; subst; [reflexivity|]. exfalso. eapply Hst; eassumption.
Qed.
(** A common run, then a local decision. *)
Lemma outs_decide {S A B} (P : pid -> M S A) (d : A -> res B) s s' (W : pid -> A) :
  evals (fun i => P i (s i)) (fun i => (s' i, W i)) -> outs (fun i => bindM (P i) (fun x => resM (d x)) (s i)) (fun i => rbind (d (W i)) (fun b => Ok (s' i, b))).
Proof.
  intros [sc Hs]. exists sc. apply (bind_steps _ _ _ (fun i sa => @resM S B (d (snd sa)) (fst sa))) in Hs.
  replace (Cfg (tabulate (fun i => of_res (rbind (d (W i)) (fun b => Ok (s' i, b))))) noq) with (bind_cfg (finished (fun i => (s' i, W i))) (fun i sa => @resM S B (d (snd sa)) (fst sa))); [exact Hs|].
  unfold bind_cfg, finished. cbn [progs qs]. f_equal. unfold tabulate. cbn [get t0 t1 t2 bind fst snd]. unfold resM, liftM. destruct (d (W P0)), (d (W P1)), (d (W P2)); reflexivity.
Qed.
Lemma outs_bind {S A B} (P : pid -> M S A) (Q : pid -> A -> M S B) s s' W F : evals (fun i => P i (s i)) (fun i => (s' i, W i)) ->
  outs (fun i => Q i (W i) (s' i)) F -> outs (fun i => bindM (P i) (Q i) (s i)) F.
Proof.
  intros [sc Hs] [sc' Hs']. exists (sc ++ sc'). eapply steps_app; [|exact Hs'].
  exact (bind_steps _ _ _ (fun i sa => Q i (snd sa) (fst sa)) Hs).
Qed.

(** ** Stopping earlier *)
Inductive le {A} : prog A -> prog A -> Prop :=
| le_fail e p : le (Fail e) p
| le_ret a : le (Ret a) (Ret a)
| le_send to m k k' : le k k' -> le (Send to m k) (Send to m k')
| le_recv from k k' : (forall m, le (k m) (k' m)) -> le (Recv from k) (Recv from k').
Definition leM {S A} (p q : M S A) : Prop := forall s, le (p s) (q s).
Lemma le_refl {A} (p : prog A) : le p p.
Proof. induction p; constructor; auto. Qed.
Lemma le_bind {A B} (p q : prog A) (f g : A -> prog B) : le p q -> (forall a, le (f a) (g a)) -> le (bind p f) (bind q g).
Proof. intros Hp Hf. induction Hp; cbn [bind]; [constructor|apply Hf|constructor; assumption|constructor; assumption]. Qed.
Lemma le_unwrap {A} (p q : prog A) : le p q -> le (unwrap p) (unwrap q).
Proof. intros Hp. induction Hp; cbn [unwrap]; constructor; auto. Qed.
Lemma leM_refl {S A} (p : M S A) : leM p p.
Proof. intros s. apply le_refl. Qed.
Lemma leM_bind {S A B} (p q : M S A) (f g : A -> M S B) : leM p q -> (forall a, leM (f a) (g a)) -> leM (bindM p f) (bindM q g).
Proof. intros Hp Hf s. apply le_bind; [apply Hp|]. intros sa. apply Hf. Qed.
Lemma leM_unwrap {S A} (p q : M S A) : leM p q -> leM (unwrapM p) (unwrapM q).
Proof. intros Hp s. apply le_unwrap, Hp. Qed.
Lemma leM_fail {S A} e (q : M S A) : leM (failM e) q.
Proof. intros s. constructor. Qed.

Definition le_cfg {A} (c c' : cfg A) : Prop := qs c = qs c' /\ forall i, le (get (progs c) i) (get (progs c') i).
Lemma le_step {A} i (c c1 c' : cfg A) : le_cfg c c' -> step i c c1 -> exists c1', step i c' c1' /\ le_cfg c1 c1'.
Proof.
  intros [Eq Hl] Hs. destruct Hs as [c to m k E|c from k m rest E Q].
  - pose proof (Hl i) as L. rewrite E in L. inversion L as [| |? ? ? k' Hk E1 E2|]; subst. eexists. split; [apply step_send; symmetry; eassumption|].
    split; cbn [progs qs]; [rewrite Eq; reflexivity|]. intros j. destruct (pid_eqb_spec i j) as [->|Hne]; [rewrite !get_set_eq; exact Hk|rewrite !get_set_ne by exact Hne; apply Hl].
  - pose proof (Hl i) as L. rewrite E in L. inversion L as [| | |? ? k' Hk E1 E2]; subst. eexists. split; [eapply step_recv; [symmetry; eassumption|rewrite <- Eq; exact Q]|].
    split; cbn [progs qs]; [rewrite Eq; reflexivity|]. intros j. destruct (pid_eqb_spec i j) as [->|Hne]; [rewrite !get_set_eq; apply Hk|rewrite !get_set_ne by exact Hne; apply Hl].
Qed.
Lemma le_steps {A} s (c c1 c' : cfg A) : le_cfg c c' -> steps s c c1 -> exists c1', steps s c' c1' /\ le_cfg c1 c1'.
Proof.
  intros Hl Hs. revert c' Hl. induction Hs as [c|i s c c1 c2 H1 _ IH]; intros c' Hl; [exists c'; split; [constructor|exact Hl]|].
  destruct (le_step _ _ _ _ Hl H1) as (c1' & S1 & L1). destruct (IH c1' L1) as (c2' & S2 & L2). exists c2'. split; [econstructor; eassumption|exact L2].
Qed.
Lemma fail_dec {A} (p : prog A) : (exists e, p = Fail e) \/ forall e, p <> Fail e.
Proof. destruct p as [a|e|to m k|from k]; [right; discriminate|left; eauto|right; discriminate|right; discriminate]. Qed.
Theorem le_runs {S A} (P Q : pid -> M S A) s (a : pid -> A) (post : (pid -> S) -> (pid -> A) -> Prop) :
  (forall i, leM (P i) (Q i)) -> wpM Q s post -> (forall s' b, post s' b -> forall i, b i = a i) -> right_or_stopped P s a.
Proof.
  intros HL (R & [sc Hs] & HQ) HP. exists (length sc). intros sched c Hc.
  assert (L0 : le_cfg (start (fun i => P i (s i))) (start (fun i => Q i (s i)))).
  { split; [reflexivity|]. intros i. unfold start. cbn [progs]. rewrite !get_tabulate. apply HL. }
  destruct (le_steps _ _ _ _ L0 Hc) as (c' & Hc' & Eq & HL'). destruct (any_steps_complete _ _ _ Hc' _ _ Hs (finished_stuck R)) as (s' & H1 & H2).
  assert (HR : forall i, snd (R i) = a i) by (intros i; apply (HP _ _ HQ i)).
  assert (HF : forall i x s0 (d d' : cfg (S * A)), steps s0 d d' -> get (progs d) i = Ret x -> get (progs d') i = Ret x).
  { clear. intros i x s0 d d' Hd. induction Hd as [d|j s0 d d1 d2 H1 _ IH]; intros E; [exact E|]. apply IH. destruct H1 as [d to m k E'|d from k m rest E' _]; cbn [progs];
    (destruct (pid_eqb_spec j i) as [->|Hne]; [congruence|rewrite get_set_ne by exact Hne; exact E]). }
  split; [lia|]. split.
  - intros i x E. pose proof (HL' i) as L. rewrite E in L. inversion L as [|? E1 E2| |]; subst. symmetry in E2. pose proof (HF _ _ _ _ _ H1 E2) as X.
    unfold finished in X. cbn [progs] in X. rewrite get_tabulate in X. injection X as <-. apply HR.
  - intros Hst. destruct (fail_dec (get (progs c) P0)) as [[e E]|N0]; [right; eauto|]. destruct (fail_dec (get (progs c) P1)) as [[e E]|N1]; [right; eauto|].
    destruct (fail_dec (get (progs c) P2)) as [[e E]|N2]; [right; eauto|]. left.
    assert (NF : forall i e, get (progs c) i <> Fail e) by (intros []; assumption).
    assert (Hst' : stuck c').
    { intros i c1 H. pose proof (HL' i) as L. destruct H as [c' to m k E|c' from k m rest E Q0].
      - rewrite E in L. inversion L as [e ? E1|? E1|? ? k0 ? Hk E1|]; subst; [exact (NF i e (eq_sym E1))|]. eapply Hst. apply step_send. symmetry. exact E1.
      - rewrite E in L. inversion L as [e ? E1|? E1| |? k0 ? Hk E1]; subst; [exact (NF i e (eq_sym E1))|]. eapply Hst. eapply step_recv; [symmetry; exact E1|rewrite Eq; exact Q0]. }
    assert (Ec : c' = finished R) by (inversion H1; subst; [reflexivity|exfalso; eapply Hst'; eassumption]).
    exists (fun i => fst (R i)). destruct c as [pc qc]. rewrite Ec in Eq, HL'. unfold finished in *. cbn [progs qs] in *. subst qc. f_equal. apply tri_eta. intros i. rewrite get_tabulate.
    specialize (HL' i). rewrite get_tabulate in HL'. inversion HL' as [e ? E1|? E1| |]; subst; [exfalso; exact (NF i e (eq_sym E1))|]. rewrite <- (HR i). destruct (R i); reflexivity.
Qed.
