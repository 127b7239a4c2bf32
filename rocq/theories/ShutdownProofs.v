(** Proofs about closing connections and crashes. *)
From Verif Require Import Base Prog Sched Shutdown.

Lemma qget_cut q i keep a b : qget (cut q i keep) a b = if pid_eqb i a then firstn (keep b) (qget q i b) else qget q a b.
Proof. unfold qget, cut. destruct i, a; cbn [pid_eqb set get t0 t1 t2]; try reflexivity; destruct b; reflexivity. Qed.
Lemma closing_same cl i : closing cl i i = true.
Proof. unfold closing. destruct i; reflexivity. Qed.
Lemma closing_ne cl i j : i <> j -> closing cl i j = cl j.
Proof. unfold closing. destruct (pid_eqb_spec i j); [contradiction|reflexivity]. Qed.
Lemma step_not_over {A} i (c c' : cfg A) : step i c c' -> ~ over (get (progs c) i).
Proof. intros [c0 to m k E|c0 from k m rest E Eq]; rewrite E; exact (fun H => H). Qed.

Section Sim.
  Context {A : Type}.
  Variables (P : pid -> prog A) (R : pid -> A).
  Hypothesis HE : evals P R.

  Lemma completes s d : steps s (start P) d -> exists s', steps s' d (finished R).
  Proof using HE. intros H. destruct (evals_always _ _ HE) as [n G]. destruct (G s d H) as (_ & (s' & G2 & _) & _). exists s'. exact G2. Qed.
  Lemma bounded : exists n, forall s d, steps s (start P) d -> (length s <= n)%nat.
  Proof using HE. destruct (evals_always _ _ HE) as [n G]. exists n. intros s d H. apply (G s d H). Qed.

  (* nobody who waits for ever *)
  Lemma no_wait (W : pid -> Prop) s' : forall d, steps s' d (finished R) ->
    (forall i, W i -> exists f k, get (progs d) i = Recv f k /\ (W f \/ over (get (progs d) f)) /\ qget (qs d) f i = []) -> forall i, ~ W i.
  Proof using Type.
    induction s' as [|p s' IH]; intros d H HW i Hi.
    - inversion H; subst. destruct (HW i Hi) as (f & k & E & _). unfold finished in E. cbn [progs] in E. rewrite get_tabulate in E. discriminate.
    - inversion H as [|? ? ? d' ? Hs Hr]; subst. apply (IH d' Hr) with (i := i); [|exact Hi]. clear i Hi Hr IH. intros i Hi.
      destruct (HW i Hi) as (f & k & E & Hf & Eq).
      assert (Hp : ~ W p). { intros Hp. destruct (HW p Hp) as (f' & k' & E' & _ & Eq'). destruct Hs as [d to m k0 E0|d from k0 m rest E0 Eq0]; [congruence|]. rewrite E' in E0. injection E0 as -> ->. congruence. }
      assert (Hpo : ~ over (get (progs d) p)) by (intros Ho; destruct Hs as [d to m k0 E0|d from k0 m rest E0 Eq0]; rewrite E0 in Ho; exact Ho).
      assert (Hpi : p <> i) by congruence. assert (Hpf : p <> f) by (intros ->; destruct Hf; contradiction).
      exists f, k. destruct Hs as [d to m k0 E0|d from k0 m rest E0 Eq0]; cbn [progs qs]; rewrite !get_set_ne by assumption.
      + rewrite qget_qset_ne by congruence. auto.
      + rewrite qget_qset_ne by congruence. auto.
  Qed.
  Lemma over_ret s d i : steps s (start P) d -> over (get (progs d) i) -> get (progs d) i = Ret (R i).
  Proof using HE.
    intros H Ho. destruct (completes _ _ H) as [s' G]. clear H. remember (finished R) as f. induction G as [c|p s' c c' c'' Hs G IH]; subst.
    - unfold finished. cbn [progs]. rewrite get_tabulate. reflexivity.
    - assert (p <> i) by (intros ->; destruct Hs as [c to m k E|c from k m rest E Eq]; rewrite E in Ho; exact Ho).
      assert (E : get (progs c') i = get (progs c) i) by (destruct Hs; cbn [progs]; apply get_set_ne; assumption). rewrite E in IH. auto.
  Qed.
  (* what has been sent to a party that has returned has been received *)
  Lemma over_empty s d i j : steps s (start P) d -> over (get (progs d) j) -> qget (qs d) i j = [].
  Proof using HE.
    intros H Ho. destruct (completes _ _ H) as [s' G]. clear H. remember (finished R) as f. induction G as [c|p s' c c' c'' Hs G IH]; subst.
    - destruct i, j; reflexivity.
    - assert (p <> j) by (intros ->; destruct Hs as [c to m k E|c from k m rest E Eq]; rewrite E in Ho; exact Ho).
      assert (E : get (progs c') j = get (progs c) j) by (destruct Hs; cbn [progs]; apply get_set_ne; assumption). rewrite E in IH. specialize (IH Ho eq_refl).
      destruct Hs as [c to m k E0|c from k m rest E0 Eq]; cbn [qs] in IH.
      + destruct (qpair_dec p to i j) as [D|D]; [injection D as -> ->; rewrite qget_qset_eq in IH; destruct (qget (qs c) i j); discriminate|].
        rewrite qget_qset_ne in IH by exact D. exact IH.
      + rewrite qget_qset_ne in IH by congruence. exact IH.
  Qed.

  Definition b2n (b : bool) : nat := if b then 1 else 0.
  Definition cnt (f : pid -> bool) : nat := (b2n (f P0) + b2n (f P1) + b2n (f P2))%nat.
  Lemma cnt_closing f i : f i = false -> cnt (closing f i) = S (cnt f).
  Proof using Type. unfold cnt, closing. destruct i; cbn [pid_eqb]; intros ->; cbn [b2n]; lia. Qed.
  Lemma cnt_le f : (cnt f <= 3)%nat.
  Proof using Type. unfold cnt, b2n. destruct (f P0), (f P1), (f P2); lia. Qed.

  Variables crashes orderly : bool.
  (* [f]: who has failed in c; d: where the run would be if nothing had been lost *)
  Record sim (k : nat) (c : ncfg A) (f : pid -> bool) (s : list pid) (d : cfg A) : Prop := {
    sm_run : steps s (start P) d;
    sm_ok : forall i, f i = false -> at_ c i = get (progs d) i;
    sm_bad : forall i, f i = true -> exists e, at_ c i = Fail e /\ (crashes = false -> e = EIO);
    sm_q : forall i j, exists l, qget (qs d) i j = qget (qs (n_cfg c)) i j ++ l;
    sm_open : forall i j, n_closed c i = false -> qget (qs (n_cfg c)) i j = qget (qs d) i j;
    sm_cl : forall i, n_closed c i = true -> over (at_ c i);
    sm_k : (k <= length s + cnt (n_closed c) + cnt f)%nat }.

  Lemma sim_start : sim 0 (fstart P) (fun _ => false) [] (start P).
  Proof using Type.
    split.
    - constructor.
    - intros; reflexivity.
    - intros; discriminate.
    - intros. exists []. rewrite app_nil_r. reflexivity.
    - intros; reflexivity.
    - intros; discriminate.
    - cbn. lia.
  Qed.

  Lemma steps_snoc s (c c' c'' : cfg A) i : steps s c c' -> step i c' c'' -> steps (s ++ [i]) c c''.
  Proof using Type. intros H H'. eapply steps_app; [exact H|]. econstructor; [exact H'|constructor]. Qed.

  (* an ordinary step is one of d too *)
  Lemma sim_run k i c c' cl f s d : sim k (NCfg c cl) f s d -> step i c c' -> exists d', sim (S k) (NCfg c' cl) f (s ++ [i]) d' /\
     step i d d' /\ forall a b, cl a = true -> forall l, qget (qs d) a b = qget (qs c) a b ++ l -> qget (qs d') a b = qget (qs c') a b ++ l.
  Proof using Type.
    intros [H1 H2 H3 H4 H5 H6 H7] Hs. unfold at_ in *. cbn [n_cfg n_closed] in *.
    assert (Hno : ~ over (get (progs c) i)) by (destruct Hs as [c to m k0 E|c from k0 m rest E Eq]; rewrite E; exact (fun H => H)).
    assert (Hfi : f i = false). { destruct (f i) eqn:E; [|reflexivity]. destruct (H3 i E) as (e & E' & _). rewrite E' in Hno. exfalso. apply Hno. exact I. }
    assert (Hci : cl i = false). { destruct (cl i) eqn:E; [|reflexivity]. destruct (Hno (H6 i E)). }
    pose proof (H2 i Hfi) as Ei.
    destruct Hs as [c to m k0 E|c from k0 m rest E Eq].
    - exists (Cfg (set (progs d) i k0) (qset (qs d) i to (qget (qs d) i to ++ [m]))).
      assert (SD : step i d (Cfg (set (progs d) i k0) (qset (qs d) i to (qget (qs d) i to ++ [m])))) by (apply step_send; congruence).
      assert (Hl : forall a b, cl a = true -> forall l, qget (qs d) a b = qget (qs c) a b ++ l ->
                qget (qset (qs d) i to (qget (qs d) i to ++ [m])) a b = qget (qset (qs c) i to (qget (qs c) i to ++ [m])) a b ++ l)
        by (intros a b Ha l El; rewrite !qget_qset_ne by congruence; exact El).
      split; [|split; [exact SD|exact Hl]].
      split; unfold at_; cbn [n_cfg n_closed progs qs].
      + eapply steps_snoc; eassumption.
      + intros j Hj. destruct (pid_eqb_spec i j) as [<-|Hne]; [rewrite !get_set_eq; reflexivity|rewrite !get_set_ne by assumption; auto].
      + intros j Hj. rewrite get_set_ne by congruence. auto.
      + intros a b. destruct (qpair_dec i to a b) as [D|D].
        * injection D as <- <-. exists []. rewrite !qget_qset_eq, app_nil_r, (H5 i to Hci). reflexivity.
        * rewrite !qget_qset_ne by exact D. apply H4.
      + intros a b Ha. destruct (qpair_dec i to a b) as [D|D].
        * injection D as <- <-. rewrite !qget_qset_eq, (H5 i to Hci). reflexivity.
        * rewrite !qget_qset_ne by exact D. auto.
      + intros j Hj. rewrite get_set_ne by congruence. auto.
      + rewrite app_length. cbn. lia.
    - destruct (H4 from i) as [l El]. rewrite Eq in El. cbn [app] in El.
      exists (Cfg (set (progs d) i (k0 m)) (qset (qs d) from i (rest ++ l))).
      assert (SD : step i d (Cfg (set (progs d) i (k0 m)) (qset (qs d) from i (rest ++ l)))) by (eapply step_recv; [congruence|exact El]).
      assert (Hl : forall a b, cl a = true -> forall l', qget (qs d) a b = qget (qs c) a b ++ l' ->
                qget (qset (qs d) from i (rest ++ l)) a b = qget (qset (qs c) from i rest) a b ++ l').
      { intros a b Ha l' El'. destruct (qpair_dec from i a b) as [D|D].
        - injection D as <- <-. rewrite Eq, El in El'. cbn [app] in El'. injection El' as El'. rewrite !qget_qset_eq. exact El'.
        - rewrite !qget_qset_ne by exact D. exact El'. }
      split; [|split; [exact SD|exact Hl]].
      split; unfold at_; cbn [n_cfg n_closed progs qs].
      + eapply steps_snoc; eassumption.
      + intros j Hj. destruct (pid_eqb_spec i j) as [<-|Hne]; [rewrite !get_set_eq; reflexivity|rewrite !get_set_ne by assumption; auto].
      + intros j Hj. rewrite get_set_ne by congruence. auto.
      + intros a b. destruct (qpair_dec from i a b) as [D|D].
        * injection D as <- <-. exists l. rewrite !qget_qset_eq. reflexivity.
        * rewrite !qget_qset_ne by exact D. apply H4.
      + intros a b Ha. destruct (qpair_dec from i a b) as [D|D].
        * injection D as <- <-. rewrite !qget_qset_eq. rewrite <- (H5 from i Ha), Eq in El. injection El as El. rewrite <- El. reflexivity.
        * rewrite !qget_qset_ne by exact D. auto.
      + intros j Hj. rewrite get_set_ne by congruence. auto.
      + rewrite app_length. cbn. lia.
  Qed.

  Lemma sim_step k c c' f s d : sim k c f s d -> fstep crashes orderly c c' ->
    exists f' s' d', sim (S k) c' f' s' d' /\
      (forall i, n_closed c i = true -> n_closed c' i = true) /\
      forall a b, n_closed c a = true -> forall l, qget (qs d) a b = qget (qs (n_cfg c)) a b ++ l -> qget (qs d') a b = qget (qs (n_cfg c')) a b ++ l.
  Proof using Type.
    intros HS Hs. destruct Hs as [i c c' cl Hs|i c cl keep Ho Hc Hk|j from k0 c cl E Hc Eq|i c cl Hcr Ho].
    - destruct (sim_run _ _ _ _ _ _ _ _ HS Hs) as (d' & G & _ & Gl). exists f, (s ++ [i]), d'. auto.
    - destruct HS as [H1 H2 H3 H4 H5 H6 H7]. unfold at_ in *. cbn [n_cfg n_closed] in *. exists f, s, d. split; [|split].
      + split; unfold at_; cbn [n_cfg n_closed progs qs]; try assumption.
        * intros a b. rewrite qget_cut. destruct (pid_eqb_spec i a) as [<-|Hne]; [|apply H4].
          exists (skipn (keep b) (qget (qs c) i b)). rewrite firstn_skipn. symmetry. apply H5. exact Hc.
        * intros a b Ha. rewrite qget_cut. destruct (pid_eqb_spec i a) as [<-|Hne]; [rewrite closing_same in Ha; discriminate|].
          rewrite closing_ne in Ha by exact Hne. auto.
        * intros a Ha. destruct (pid_eqb_spec i a) as [<-|Hne]; [exact Ho|]. rewrite closing_ne in Ha by exact Hne. auto.
        * rewrite cnt_closing by exact Hc. lia.
      + intros a Ha. destruct (pid_eqb_spec i a) as [<-|Hne]; [apply closing_same|]. rewrite closing_ne by exact Hne. exact Ha.
      + intros a b Ha l El. cbn [qs]. rewrite qget_cut. destruct (pid_eqb_spec i a) as [<-|Hne]; [cbn in Ha; congruence|exact El].
    - destruct HS as [H1 H2 H3 H4 H5 H6 H7]. unfold at_ in *. cbn [n_cfg n_closed] in *.
      assert (Hf : f j = false). { destruct (f j) eqn:Ef; [|reflexivity]. destruct (H3 j Ef) as (e & E' & _). congruence. }
      assert (Hj : cl j = false). { destruct (cl j) eqn:Ej; [|reflexivity]. pose proof (H6 j Ej) as Ho. rewrite E in Ho. destruct Ho. }
      exists (closing f j), s, d. split; [|split; [auto|auto]].
      split; unfold at_; cbn [n_cfg n_closed progs qs]; try assumption.
      + intros a Ha. destruct (pid_eqb_spec j a) as [<-|Hne]; [rewrite closing_same in Ha; discriminate|]. rewrite closing_ne in Ha by exact Hne. rewrite get_set_ne by exact Hne. auto.
      + intros a Ha. destruct (pid_eqb_spec j a) as [<-|Hne]; [rewrite get_set_eq; eauto|]. rewrite closing_ne in Ha by exact Hne. rewrite get_set_ne by exact Hne. auto.
      + intros a Ha. rewrite get_set_ne by congruence. auto.
      + rewrite cnt_closing by exact Hf. lia.
    - destruct HS as [H1 H2 H3 H4 H5 H6 H7]. unfold at_ in *. cbn [n_cfg n_closed] in *.
      assert (Hf : f i = false). { destruct (f i) eqn:Ef; [|reflexivity]. destruct (H3 i Ef) as (e & E' & _). rewrite E' in Ho. exfalso. apply Ho. exact I. }
      assert (Hj : cl i = false). { destruct (cl i) eqn:Ej; [|reflexivity]. destruct (Ho (H6 i Ej)). }
      exists (closing f i), s, d. split; [|split; [auto|auto]].
      split; unfold at_; cbn [n_cfg n_closed progs qs]; try assumption.
      + intros a Ha. destruct (pid_eqb_spec i a) as [<-|Hne]; [rewrite closing_same in Ha; discriminate|]. rewrite closing_ne in Ha by exact Hne. rewrite get_set_ne by exact Hne. auto.
      + intros a Ha. destruct (pid_eqb_spec i a) as [<-|Hne]; [rewrite get_set_eq; exists EOther; split; [reflexivity|congruence]|]. rewrite closing_ne in Ha by exact Hne. rewrite get_set_ne by exact Hne. auto.
      + intros a Ha. rewrite get_set_ne by congruence. auto.
      + rewrite cnt_closing by exact Hf. lia.
  Qed.

  Lemma sim_reach k c : fsteps crashes orderly k (fstart P) c -> exists f s d, sim k c f s d.
  Proof using Type.
    intros H. remember (fstart P) as c0. induction H as [c|k c c1 c2 H IH Hs]; subst; [exists (fun _ => false), [], (start P); apply sim_start|].
    destruct (IH eq_refl) as (f & s & d & HS). destruct (sim_step _ _ _ _ _ _ HS Hs) as (f' & s' & d' & G & _). eauto.
  Qed.

  Lemma fstuck_over k c f s d : sim k c f s d -> fstuck crashes orderly c -> forall i, over (at_ c i).
  Proof using HE.
    intros [H1 H2 H3 H4 H5 H6 H7] Hst. destruct c as [c cl]. unfold at_ in *. cbn [n_cfg n_closed] in *.
    destruct (completes _ _ H1) as [s' G].
    pose proof (no_wait (fun i => ~ over (get (progs c) i)) s' d G) as NW.
    assert (G2 : forall i, ~ ~ over (get (progs c) i)).
    { refine (NW _). intros i Hi.
      assert (Hfi : f i = false). { destruct (f i) eqn:Ef; [|reflexivity]. destruct (H3 i Ef) as (e & E' & _). rewrite E' in Hi. exfalso. apply Hi. exact I. }
      rewrite <- (H2 i Hfi). destruct (get (progs c) i) as [a|e|to m k0|from k0] eqn:E; try (exfalso; apply Hi; exact I).
      - exfalso. eapply Hst. eapply f_run, step_send. exact E.
      - exists from, k0. split; [reflexivity|].
        destruct (qget (qs c) from i) as [|m rest] eqn:Eq; [|exfalso; eapply Hst; eapply f_run, step_recv; eassumption].
        destruct (cl from) eqn:Ec; [exfalso; eapply Hst; eapply f_lost; eassumption|].
        assert (Hno : ~ over (get (progs c) from)).
        { intros Ho. eapply Hst. eapply (f_close _ _ from c cl (fun j => length (qget (qs c) from j))); [exact Ho|exact Ec|intros _ j; apply le_n]. }
        split; [left; exact Hno|]. rewrite <- (H5 from i Ec). exact Eq. }
    intros i. specialize (G2 i). destruct (get (progs c) i); cbn [over] in *; tauto.
  Qed.

  (* nothing can get lost: an orderly shutdown, or nobody returns before its messages have arrived *)
  Definition synced : Prop := forall s d i j, steps s (start P) d -> over (get (progs d) i) -> qget (qs d) i j = [].
  Definition early : Prop := exists s d i j, steps s (start P) d /\ over (get (progs d) i) /\ qget (qs d) i j <> [].
  Lemma harmless_or k c : crashes = false -> fsteps crashes orderly k (fstart P) c ->
    (orderly = false /\ early) \/ exists s d, steps s (start P) d /\ (forall i, at_ c i = get (progs d) i) /\ (forall i j, qget (qs (n_cfg c)) i j = qget (qs d) i j) /\
      forall i, n_closed c i = true -> over (at_ c i).
  Proof using HE.
    intros Hcr H. remember (fstart P) as c0. induction H as [c|k c c1 c2 H IH Hs]; subst c.
    - right. exists [], (start P). split; [constructor|]. split; [reflexivity|]. split; [reflexivity|]. intros; discriminate.
    - destruct (IH eq_refl) as [L|(s & d & H1 & H2 & H3 & H4)]; [left; exact L|]. clear IH. unfold at_ in *.
      destruct Hs as [i c c' cl Hs|i c cl keep Ho Hc Hk|j from k0 c cl E Hc Eq|i c cl Hcr' Ho]; cbn [n_cfg n_closed] in *; [..|congruence].
      + assert (Hno : ~ over (get (progs c) i)) by (destruct Hs as [c to m k0 E|c from k0 m rest E Eq]; rewrite E; exact (fun H => H)).
        destruct Hs as [c to m k0 E|c from k0 m rest E Eq].
        * right. exists (s ++ [i]), (Cfg (set (progs d) i k0) (qset (qs d) i to (qget (qs d) i to ++ [m]))). split; [eapply steps_snoc; [exact H1|apply step_send; rewrite <- H2; exact E]|].
          cbn [progs qs]. split; [|split].
          -- intros a. destruct (pid_eqb_spec i a) as [<-|Hne]; [rewrite !get_set_eq; reflexivity|rewrite !get_set_ne by exact Hne; apply H2].
          -- intros a b. destruct (qpair_dec i to a b) as [D|D]; [injection D as <- <-; rewrite !qget_qset_eq, H3; reflexivity|rewrite !qget_qset_ne by exact D; apply H3].
          -- intros a Ha. rewrite get_set_ne; [auto|]. intros <-. apply Hno, H4, Ha.
        * right. exists (s ++ [i]), (Cfg (set (progs d) i (k0 m)) (qset (qs d) from i rest)). split; [eapply steps_snoc; [exact H1|eapply step_recv; [rewrite <- H2; exact E|rewrite <- H3; exact Eq]]|].
          cbn [progs qs]. split; [|split].
          -- intros a. destruct (pid_eqb_spec i a) as [<-|Hne]; [rewrite !get_set_eq; reflexivity|rewrite !get_set_ne by exact Hne; apply H2].
          -- intros a b. destruct (qpair_dec from i a b) as [D|D]; [injection D as <- <-; rewrite !qget_qset_eq; reflexivity|rewrite !qget_qset_ne by exact D; apply H3].
          -- intros a Ha. rewrite get_set_ne; [auto|]. intros <-. apply Hno, H4, Ha.
      + assert (D : (orderly = false /\ early) \/ forall b, firstn (keep b) (qget (qs d) i b) = qget (qs d) i b).
        { destruct orderly; [right; intros b; rewrite <- H3; apply firstn_all2; auto|].
          assert (D : forall b, early \/ qget (qs d) i b = []).
          { intros b. destruct (qget (qs d) i b) eqn:Eb; [right; reflexivity|left]. exists s, d, i, b. rewrite Eb. split; [exact H1|]. split; [rewrite <- H2; exact Ho|discriminate]. }
          destruct (D P0) as [D0|D0]; [left; auto|]. destruct (D P1) as [D1|D1]; [left; auto|]. destruct (D P2) as [D2|D2]; [left; auto|].
          right. intros []; rewrite ?D0, ?D1, ?D2; apply firstn_nil. }
        destruct D as [D|D]; [left; exact D|right]. exists s, d. cbn [progs qs]. split; [exact H1|]. split; [exact H2|]. split.
        * intros a b. rewrite qget_cut. destruct (pid_eqb_spec i a) as [<-|Hne]; [|apply H3]. rewrite H3. apply D.
        * intros a Ha. destruct (pid_eqb_spec i a) as [<-|Hne]; [exact Ho|]. rewrite closing_ne in Ha by exact Hne. auto.
      + exfalso. destruct (completes _ _ H1) as [s' G]. refine (no_wait (fun i => i = j) s' d G _ j eq_refl).
        intros i ->. exists from, k0. split; [rewrite <- H2; exact E|]. split; [right; rewrite <- H2; auto|rewrite <- H3; exact Eq].
  Qed.
  Lemma harmless k c : crashes = false -> orderly = true \/ synced -> fsteps crashes orderly k (fstart P) c ->
    exists s d, steps s (start P) d /\ (forall i, at_ c i = get (progs d) i) /\ (forall i j, qget (qs (n_cfg c)) i j = qget (qs d) i j) /\
      forall i, n_closed c i = true -> over (at_ c i).
  Proof using HE.
    intros Hcr Hor H. destruct (harmless_or k c Hcr H) as [[Ho (s & d & i & j & H1 & H2 & H3)]|G]; [exfalso|exact G].
    destruct Hor as [Hor|Hs]; [congruence|]. exact (H3 (Hs s d i j H1 H2)).
  Qed.

  (* once a message of i to j is lost, j cannot return *)
  Lemma lost_stays k c f s d i j : sim k c f s d -> n_closed c i = true -> (exists l, l <> [] /\ qget (qs d) i j = qget (qs (n_cfg c)) i j ++ l) ->
    forall n c', fsteps crashes orderly n c c' -> exists k' f' s' d', sim k' c' f' s' d' /\ n_closed c' i = true /\ exists l, l <> [] /\ qget (qs d') i j = qget (qs (n_cfg c')) i j ++ l.
  Proof using Type.
    intros HS Hc Hl n c' H. induction H as [c|n c c1 c2 H IH Hs]; [exists k, f, s, d; auto|].
    destruct (IH HS Hc Hl) as (k' & f' & s' & d' & G1 & G2 & l & G3 & G4).
    destruct (sim_step _ _ _ _ _ _ G1 Hs) as (f2 & s2 & d2 & F1 & F2 & F3). exists (S k'), f2, s2, d2. split; [exact F1|]. split; [auto|]. exists l. auto.
  Qed.
  Lemma lost_fails k c f s d j i : sim k c f s d -> (exists l, l <> [] /\ qget (qs d) i j = qget (qs (n_cfg c)) i j ++ l) -> forall a, at_ c j <> Ret a.
  Proof using HE.
    intros [H1 H2 H3 H4 H5 H6 H7] (l & Hl & El) a E. destruct (f j) eqn:Ef; [destruct (H3 j Ef) as (e & E' & _); congruence|].
    rewrite (H2 j Ef) in E. rewrite (over_empty s d i j H1) in El; [|rewrite E; exact I]. destruct (qget (qs (n_cfg c)) i j); [|discriminate]. cbn in El. congruence.
  Qed.

  Lemma fstep_dec (c : ncfg A) : crashes = false -> (exists c', fstep crashes orderly c c') \/ fstuck crashes orderly c.
  Proof using Type.
    intros Hcr. destruct c as [c cl].
    assert (D : forall i, (exists c', fstep crashes orderly (NCfg c cl) c') \/
       (over (get (progs c) i) -> cl i = true) /\ (forall c', ~ step i c c') /\ (forall from k, get (progs c) i = Recv from k -> ~ (cl from = true /\ qget (qs c) from i = []))).
    { intros i. destruct (get (progs c) i) as [a|e|to m k0|from k0] eqn:E.
      1,2: destruct (cl i) eqn:Ec; [right; split; [auto|split; [intros c' Hs; destruct Hs; congruence|intros; discriminate]]|
           left; eexists; apply (f_close _ _ i c cl (fun j => length (qget (qs c) i j))); [rewrite E; exact I|exact Ec|intros _ j; apply le_n]].
      - left. eexists. eapply f_run, step_send. exact E.
      - destruct (qget (qs c) from i) as [|m rest] eqn:Eq; [|left; eexists; eapply f_run, step_recv; eassumption].
        destruct (cl from) eqn:Ec; [left; eexists; eapply f_lost; eassumption|].
        right. split; [intros []|]. split; [intros c' Hs; inversion Hs as [? to m k E'|? from' k m rest E' Eq']; subst; rewrite E in E'; [discriminate|]; injection E' as <- <-; congruence|].
        intros from' k1 E1 [G _]. injection E1 as <- <-. congruence. }
    destruct (D P0) as [?|D0]; [auto|]. destruct (D P1) as [?|D1]; [auto|]. destruct (D P2) as [?|D2]; [auto|]. right. clear D.
    assert (D : forall i, (over (get (progs c) i) -> cl i = true) /\ (forall c', ~ step i c c') /\ (forall from k, get (progs c) i = Recv from k -> ~ (cl from = true /\ qget (qs c) from i = [])))
      by (intros []; assumption).
    intros c' Hs. inversion Hs as [i c0 c1 cl0 Hs0|i c0 cl0 keep Ho Hc Hk|j from k0 c0 cl0 E Hc Eq|i c0 cl0 Hcr' Ho]; subst.
    - eapply (proj1 (proj2 (D i))); eassumption.
    - rewrite (proj1 (D i) Ho) in Hc. discriminate.
    - eapply (proj2 (proj2 (D j))); [exact E|auto].
    - congruence.
  Qed.
  Lemma fsteps_app n m (c c' c'' : ncfg A) : fsteps crashes orderly n c c' -> fsteps crashes orderly m c' c'' -> fsteps crashes orderly (n + m) c c''.
  Proof using Type. intros H H'. revert n c H. induction H' as [c'|m c' c1 c2 H' IH Hs]; intros n c H; [rewrite Nat.add_0_r; exact H|]. rewrite Nat.add_succ_r. econstructor; [apply IH; exact H|exact Hs]. Qed.
  Lemma run_fsteps s (c c' : cfg A) cl : steps s c c' -> fsteps crashes orderly (length s) (NCfg c cl) (NCfg c' cl).
  Proof using Type.
    intros H. induction H as [c|i s c c' c'' Hs H IH]; [constructor|]. cbn [length]. change (S (length s)) with (1 + length s)%nat.
    eapply fsteps_app; [|exact IH]. econstructor; [constructor|apply (f_run _ _ i); exact Hs].
  Qed.
  (* every run ends *)
  Lemma run_out k c : crashes = false -> fsteps crashes orderly k (fstart P) c -> exists m c', fsteps crashes orderly m c c' /\ fstuck crashes orderly c'.
  Proof using HE.
    intros Hcr. destruct bounded as [n Hn]. remember (n + 6 - k)%nat as fuel eqn:Ef. revert k c Ef. induction fuel as [|fuel IH]; intros k c Ef H.
    - exists 0%nat, c. split; [constructor|]. intros c' Hs. assert (H' : fsteps crashes orderly (S k) (fstart P) c') by (econstructor; eassumption).
      destruct (sim_reach _ _ H') as (f & s & d & HS). pose proof (sm_k _ _ _ _ _ HS). pose proof (Hn _ _ (sm_run _ _ _ _ _ HS)). pose proof (cnt_le f). pose proof (cnt_le (n_closed c')). lia.
    - destruct (fstep_dec c Hcr) as [[c1 Hs]|Hst]; [|exists 0%nat, c; split; [constructor|exact Hst]].
      destruct (IH (S k) c1) as (m & c2 & G1 & G2); [lia|econstructor; eassumption|]. exists (1 + m)%nat, c2. split; [|exact G2].
      eapply fsteps_app; [|exact G1]. econstructor; [constructor|exact Hs].
  Qed.
  Lemma race_fails s d i j : crashes = false -> orderly = false -> steps s (start P) d -> over (get (progs d) i) -> qget (qs d) i j <> [] ->
    exists k c, fsteps crashes orderly k (fstart P) c /\ at_ c i = Ret (R i) /\ at_ c j = Fail EIO.
  Proof using HE.
    intros Hcr Hor H Ho Hq. pose proof (run_fsteps s _ _ (fun _ => false) H) as F0.
    assert (F1 : fsteps crashes orderly (S (length s)) (fstart P) (NCfg (Cfg (progs d) (cut (qs d) i (fun _ => 0%nat))) (closing (fun _ => false) i))).
    { econstructor; [exact F0|]. apply f_close; [exact Ho|reflexivity|congruence]. }
    assert (S1 : sim (S (length s)) (NCfg (Cfg (progs d) (cut (qs d) i (fun _ => 0%nat))) (closing (fun _ => false) i)) (fun _ => false) s d).
    { split; unfold at_; cbn [n_cfg n_closed progs qs]; try reflexivity; try discriminate; try assumption.
      - intros a b. rewrite qget_cut. destruct (pid_eqb_spec i a) as [<-|Hne]; [exists (qget (qs d) i b); reflexivity|exists []; rewrite app_nil_r; reflexivity].
      - intros a b Ha. rewrite qget_cut. destruct (pid_eqb_spec i a) as [<-|Hne]; [rewrite closing_same in Ha; discriminate|reflexivity].
      - intros a Ha. destruct (pid_eqb_spec i a) as [<-|Hne]; [exact Ho|rewrite closing_ne in Ha by exact Hne; discriminate].
      - rewrite cnt_closing by reflexivity. cbn. lia. }
    destruct (run_out _ _ Hcr F1) as (m & c' & G1 & G2).
    destruct (lost_stays _ _ _ _ _ i j S1) with (n := m) (c' := c') as (k' & f' & s' & d' & T1 & T2 & T3); [apply closing_same| |exact G1|].
    { exists (qget (qs d) i j). split; [exact Hq|]. cbn [n_cfg qs]. rewrite qget_cut. destruct i; reflexivity. }
    exists (S (length s) + m)%nat, c'. split; [eapply fsteps_app; eassumption|].
    pose proof (fstuck_over _ _ _ _ _ T1 G2) as Hov.
    assert (Hi : at_ c' i = Ret (R i)).
    { (* i does not change any more *)
      assert (G : forall n c2, fsteps crashes orderly n (NCfg (Cfg (progs d) (cut (qs d) i (fun _ => 0%nat))) (closing (fun _ => false) i)) c2 -> at_ c2 i = get (progs d) i).
      { clear - Hcr Ho. intros n c2 F. remember (NCfg (Cfg (progs d) (cut (qs d) i (fun _ => 0%nat))) (closing (fun _ => false) i)) as c0. induction F as [c|n c c1 c2 F IH Hs]; subst c; [reflexivity|].
        specialize (IH eq_refl). unfold at_ in *. destruct Hs as [a c c3 cl Hs|a c cl keep Ho' Hc Hk|a from k0 c cl E Hc Eq|a c cl Hcr' Ho']; cbn [n_cfg progs] in *; [..|congruence].
        - assert (a <> i) by (intros ->; rewrite <- IH in Ho; exact (step_not_over _ _ _ Hs Ho)).
          rewrite <- IH. destruct Hs; cbn [progs]; apply get_set_ne; assumption.
        - exact IH.
        - rewrite get_set_ne; [exact IH|]. intros ->. rewrite <- IH, E in Ho. exact Ho. }
      rewrite (G _ _ G1). eapply over_ret; eassumption. }
    split; [exact Hi|]. pose proof (lost_fails _ _ _ _ _ j i T1 T3) as Hnr. specialize (Hov j).
    destruct (f' j) eqn:Ef; [destruct (sm_bad _ _ _ _ _ T1 j Ef) as (e & E & Ee); rewrite E, (Ee Hcr); reflexivity|].
    exfalso. pose proof (sm_ok _ _ _ _ _ T1 j Ef) as E. rewrite E in Hov. pose proof (over_ret _ _ _ (sm_run _ _ _ _ _ T1) Hov) as E'. apply (Hnr (R j)). congruence.
  Qed.
End Sim.
