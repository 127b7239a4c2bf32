(** A calculus for [same_to]: computations in which everything a party receives is masked by hidden
    randomness. *)
From Verif Require Import Base Ring RingProofs Prog Sched Rel Rng Net Aby3 ShareSpec SlicedProofs ViewSpec.

(** ** Programs equal up to extensionality of continuations *)
Inductive peq {A} : prog A -> prog A -> Prop :=
| pq_ret a : peq (Ret a) (Ret a)
| pq_fail e : peq (Fail e) (Fail e)
| pq_send to m k k' : peq k k' -> peq (Send to m k) (Send to m k')
| pq_recv from k k' : (forall m, peq (k m) (k' m)) -> peq (Recv from k) (Recv from k').
Lemma peq_refl {A} (p : prog A) : peq p p.
Proof. induction p; constructor; auto. Qed.
Definition ceq {A} (c c' : cfg A) : Prop := (forall i, peq (get (progs c) i) (get (progs c') i)) /\ qs c = qs c'.
Lemma ceq_set {A} (t t' : tri (prog A)) j k k' i : (forall i, peq (get t i) (get t' i)) -> peq k k' -> peq (get (set t j k) i) (get (set t' j k') i).
Proof. intros H Hk. destruct (pid_eqb_spec j i) as [->|Hne]; [rewrite !get_set_eq; exact Hk|rewrite !get_set_ne by exact Hne; apply H]. Qed.
Lemma ceq_step {A} i (c d c' : cfg A) : ceq c c' -> step i c d -> exists d', step i c' d' /\ ceq d d'.
Proof.
  intros [H Hq] Hs. destruct Hs as [c to m k E|c from k m rest E Eq]; pose proof (H i) as Hi; rewrite E in Hi;
    inversion Hi as [| |? ? ? k' Hk E1 E2|? ? k' Hk E1 E2]; subst.
  - eexists. split; [eapply step_send; symmetry; exact E2|]. split; cbn [progs qs]; [|rewrite Hq; reflexivity].
    intros j. apply ceq_set; assumption.
  - eexists. split; [eapply step_recv; [symmetry; exact E2|rewrite <- Hq; exact Eq]|]. split; cbn [progs qs]; [|rewrite Hq; reflexivity].
    intros j. apply ceq_set; [assumption|apply Hk].
Qed.
Lemma ceq_steps {A} s (c d c' : cfg A) : ceq c c' -> steps s c d -> exists d', steps s c' d' /\ ceq d d'.
Proof.
  intros H Hs. revert c' H. induction Hs as [c|i s c c1 c2 H1 H2 IH]; intros c' H.
  - exists c'. split; [constructor|exact H].
  - destruct (ceq_step _ _ _ _ H H1) as (d1 & S1 & E1). destruct (IH _ E1) as (d2 & S2 & E2).
    exists d2. split; [econstructor; eassumption|exact E2].
Qed.
Lemma evals_peq {A} (P P' : pid -> prog A) R : (forall i, peq (P i) (P' i)) -> evals P R -> evals P' R.
Proof.
  intros H [s Hs]. assert (C : ceq (start P) (start P')).
  { split; [|reflexivity]. intros i. cbn [start progs]. rewrite !get_tabulate. apply H. }
  destruct (ceq_steps s _ _ _ C Hs) as (d & S & [E Q]).
  exists s. replace (finished R) with d; [exact S|]. destruct d as [pr q]. unfold finished in *. cbn [progs qs] in *. subst q.
  f_equal. apply tri_eta. intros i. specialize (E i). rewrite get_tabulate in *. inversion E; reflexivity.
Qed.

Lemma spied_bind {A B} (p : prog A) (f : A -> prog B) :
  peq (bind (spied p) (fun r => bind (spied (f (snd r))) (fun r' => Ret (fst r ++ fst r', snd r')))) (spied (bind p f)).
Proof.
  induction p as [a|e|to m k IH|from k IH]; cbn [spied bind fst snd app].
  - generalize (spied (f a)). intros q. induction q as [[v b]|e|to m k IH|from k IH]; cbn [bind]; constructor; auto.
  - constructor.
  - constructor. exact IH.
  - constructor. intros m. specialize (IH m). cbn beta.
    assert (G : forall q q' : prog (list msg * B), peq q q' ->
       peq (bind q (fun r => Ret (m :: fst r, snd r))) (bind q' (fun r => Ret (m :: fst r, snd r)))).
    { intros q q' H. induction H; cbn [bind]; constructor; auto. }
    specialize (G _ _ IH). revert G. generalize (bind (spied (bind (k m) f)) (fun r => Ret (m :: fst r, snd r))). intros q' G.
    clear IH. revert q' G. generalize (spied (k m)). intros q. induction q as [[v a]|e|to' m' k' IH'|from' k' IH']; cbn [bind]; intros q' G.
    + cbn [fst snd app] in *. revert q' G. generalize (spied (f a)). intros q2.
      induction q2 as [[v2 b]|e|to' m' k' IH'|from' k' IH']; cbn [bind fst snd app]; intros q' G; inversion G; subst; constructor; auto.
    + exact G.
    + inversion G; subst. constructor. apply IH'. assumption.
    + inversion G; subst. constructor. intros m2. apply IH'. auto.
Qed.
Lemma spied_snd {A} (p : prog A) : peq (bind (spied p) (fun r => Ret (snd r))) p.
Proof.
  induction p as [a|e|to m k IH|from k IH]; cbn [spied bind]; constructor; auto. intros m. specialize (IH m).
  revert IH. generalize (k m) at 2 4. generalize (spied (k m)). intros q. 
  induction q as [[v a]|e|to' m' k' IH'|from' k' IH']; cbn [bind fst snd]; intros p2 H; inversion H; subst; constructor; auto.
Qed.
Lemma evals_spied_bind {A B} (P : pid -> prog A) (F : pid -> A -> prog B) V R V' R' :
  evals (fun j => spied (P j)) (fun j => (V j, R j)) -> evals (fun j => spied (F j (R j))) (fun j => (V' j, R' j)) ->
  evals (fun j => spied (bind (P j) (F j))) (fun j => (V j ++ V' j, R' j)).
Proof.
  intros H H'. apply (evals_peq _ _ _ (fun j => spied_bind (P j) (F j))).
  eapply (evals_bind _ _ (fun j r => bind (spied (F j (snd r))) (fun r' => Ret (fst r ++ fst r', snd r')))); [exact H|].
  cbn [fst snd]. eapply (evals_bind _ _ (fun j r' => Ret (V j ++ fst r', snd r'))); [exact H'|]. cbn [fst snd]. apply evals_ret.
Qed.
Lemma evals_spied {A} (P : pid -> prog A) R : evals (fun j => spied (P j)) R -> evals P (fun j => snd (R j)).
Proof.
  intros H. apply (evals_peq _ _ _ (fun j => spied_snd (P j))).
  eapply (evals_bind _ _ (fun j r => Ret (snd r))); [exact H|]. apply evals_ret.
Qed.

Lemma app_inv_head_len {A} (l1 l2 r1 r2 : list A) : l1 ++ r1 = l2 ++ r2 -> length l1 = length l2 -> l1 = l2 /\ r1 = r2.
Proof.
  revert l2. induction l1 as [|x l1 IH]; intros [|y l2] H L; cbn in *; try discriminate; [auto|].
  injection H as -> H. destruct (IH l2 H) as [-> ->]; [lia|auto].
Qed.

(** ** Runs on tapes *)
Section Priv.
  Variable i : pid.
  Notation st := (deal i).
  Notation MT := (M (prf tape)).

  (** From tapes a, b and w ++ h the three programs deliver R to the parties, who received V, and have
      consumed n bits of every tape (w of the hidden one). *)
  Definition runs {A} (n : nat) (P : pid -> MT A) (a b w : list bool) (V : pid -> list msg) (R : pid -> A) : Prop :=
    forall h, evals (fun j => spied (P j (st a b (w ++ h) j))) (fun j => (V j, (st (skipn n a) (skipn n b) h j, R j))).

  Lemma runs_unique {A} n (P : pid -> MT A) a b w V R V' R' : runs n P a b w V R -> runs n P a b w V' R' ->
    (forall j, V j = V' j) /\ (forall j, R j = R' j).
  Proof.
    intros H H'. pose proof (evals_unique _ _ _ (H []) (H' [])) as E. split; intros j; specialize (E j); congruence.
  Qed.
  Lemma runs_bind {A B} n n' (P : pid -> MT A) (F : pid -> A -> MT B) a b w w' V R V' R' :
    runs n P a b w V R -> runs n' (fun j => F j (R j)) (skipn n a) (skipn n b) w' V' R' ->
    runs (n + n') (fun j => bindM (P j) (F j)) a b (w ++ w') (fun j => V j ++ V' j) R'.
  Proof.
    intros H H' h. specialize (H (w' ++ h)). specialize (H' h). rewrite <- app_assoc.
    unfold bindM. eapply evals_ext; [intros j; reflexivity| |apply (evals_spied_bind _ (fun j sa => F j (snd sa) (fst sa)) _ _ _ _ H H')].
    intros j. cbn beta. rewrite !skipn_add. reflexivity.
  Qed.
  Lemma runs_wpM {A} n (P : pid -> MT A) a b w V R (Q : (pid -> prf tape) -> (pid -> A) -> Prop) : runs n P a b w V R ->
    (forall s s' R R', (forall j, s j = s' j) -> (forall j, R j = R' j) -> Q s R -> Q s' R') ->
    (forall h, wpM P (st a b (w ++ h)) Q) -> forall h, Q (st (skipn n a) (skipn n b) h) R.
  Proof.
    intros H E W h. destruct (W h) as (R0 & HR0 & HQ). pose proof (evals_spied _ _ (H h)) as H1.
    pose proof (evals_unique _ _ _ H1 HR0) as U. cbn [snd] in U.
    eapply E; [| |exact HQ]; intros j; cbn beta; rewrite <- U; reflexivity.
  Qed.

  (** ** Private computations.
      D: what is known about the joint inputs; f j: party j's program; E: what is known about the joint
      results.  Whatever the other parties hold, party i receives m messages, and for any two joint
      inputs that agree for party i, the hidden bits correspond one to one. *)
  Definition coup {A} (n m : nat) (P P' : pid -> MT A) (Q : (pid -> A) -> (pid -> A) -> Prop) : Prop :=
    forall a b w, length w = n -> exists V R w' V' R',
      length w' = n /\ runs n P a b w V R /\ runs n P' a b w' V' R' /\
      V i = V' i /\ length (V i) = m /\ R i = R' i /\ Q R R' /\
      forall w'' V'' R'', length w'' = n -> runs n P' a b w'' V'' R'' -> V'' i = V i -> w'' = w'.
  Definition priv {T A} (D : (pid -> T) -> Prop) (f : pid -> T -> MT A) (E : (pid -> T) -> (pid -> A) -> Prop) : Prop :=
    exists n m, forall X X', D X -> D X' -> X i = X' i ->
      coup n m (fun j => f j (X j)) (fun j => f j (X' j)) (fun R R' => E X R /\ E X' R').

  Lemma coup_mono {A} n m (P P' : pid -> MT A) (Q Q' : (pid -> A) -> (pid -> A) -> Prop) :
    (forall R R', Q R R' -> Q' R R') -> coup n m P P' Q -> coup n m P P' Q'.
  Proof.
    intros H C a b w Hw. destruct (C a b w Hw) as (V & R & w' & V' & R' & C1 & C2 & C3 & C4 & C5 & C6 & C7 & C8).
    exists V, R, w', V', R'. repeat (split; [assumption|]). split; [apply H; assumption|exact C8].
  Qed.
  Lemma priv_bind {T A B} (D : (pid -> T) -> Prop) (f : pid -> T -> MT A) E (g : pid -> T -> A -> MT B) E' :
    priv D f E ->
    priv (fun Z => D (fun j => fst (Z j)) /\ E (fun j => fst (Z j)) (fun j => snd (Z j)))
      (fun j z => g j (fst z) (snd z)) (fun Z => E' (fun j => fst (Z j))) ->
    priv D (fun j x => bindM (f j x) (g j x)) E'.
  Proof.
    intros (n & m & C) (n' & m' & C'). exists (n + n')%nat, (m + m')%nat. intros X X' HX HX' HXX a b w Hw.
    rewrite <- (firstn_skipn n w). set (w1 := firstn n w). set (w2 := skipn n w).
    assert (L1 : length w1 = n) by (unfold w1; rewrite firstn_length; lia).
    assert (L2 : length w2 = n') by (unfold w2; rewrite skipn_length; lia). clearbody w1 w2. clear Hw w.
    destruct (C X X' HX HX' HXX a b w1 L1) as (V1 & R1 & w1' & V1' & R1' & K1 & K2 & K3 & K4 & K5 & K6 & [K7 K7'] & K8).
    assert (C2 : forall R R', E X R -> E X' R' -> R i = R' i ->
       coup n' m' (fun j => g j (X j) (R j)) (fun j => g j (X' j) (R' j)) (fun S S' => E' X S /\ E' X' S')).
    { intros R R' HR HR' HRR. apply (C' (fun j => (X j, R j)) (fun j => (X' j, R' j))); cbn [fst snd]; [split; assumption|split; assumption|congruence]. }
    assert (C2' : forall R R', E X R -> E X' R' -> R i = R' i ->
       coup n' m' (fun j => g j (X' j) (R' j)) (fun j => g j (X j) (R j)) (fun S S' => E' X' S /\ E' X S')).
    { intros R R' HR HR' HRR. apply (C' (fun j => (X' j, R' j)) (fun j => (X j, R j))); cbn [fst snd]; [split; assumption|split; assumption|congruence]. }
    destruct (C2 R1 R1' K7 K7' K6 (skipn n a) (skipn n b) w2 L2) as (V2 & R2 & w2' & V2' & R2' & J1 & J2 & J3 & J4 & J5 & J6 & J7 & J8).
    exists (fun j => V1 j ++ V2 j), R2, (w1' ++ w2'), (fun j => V1' j ++ V2' j), R2'.
    split; [rewrite app_length; lia|]. split; [eapply runs_bind; eassumption|]. split; [eapply runs_bind; eassumption|].
    split; [rewrite K4, J4; reflexivity|]. split; [rewrite app_length; lia|]. split; [exact J6|]. split; [exact J7|].
    intros w V R Hl HR HV. rewrite <- (firstn_skipn n w) in HR |- *. set (u1 := firstn n w) in *. set (u2 := skipn n w) in *.
    assert (M1 : length u1 = n) by (unfold u1; rewrite firstn_length; lia).
    assert (M2 : length u2 = n') by (unfold u2; rewrite skipn_length; lia). clearbody u1 u2. clear Hl w.
    destruct (C X' X HX' HX (eq_sym HXX) a b u1 M1) as (Va & Ra & wb & Vb & Rb & I1 & I2 & I3 & I4 & I5 & I6 & [I7 I7'] & I8).
    destruct (C2' Rb Ra I7' I7 (eq_sym I6) (skipn n a) (skipn n b) u2 M2) as (Vc & Rc & wd & Vd & Rd & H1 & H2 & H3 & H4 & H5 & H6 & H7 & H8).
    destruct (runs_unique _ _ _ _ _ _ _ _ _ HR (runs_bind _ _ _ (fun j => g j (X' j)) _ _ _ _ _ _ _ _ I2 H2)) as [UV UR].
    rewrite UV in HV. apply app_inv_head_len in HV; [|congruence]. destruct HV as [HVa HVc].
    pose proof (K8 _ _ _ M1 I2 HVa) as ->. destruct (runs_unique _ _ _ _ _ _ _ _ _ I2 K3) as [_ UR1].
    f_equal. apply (J8 u2 Vc Rc M2); [|exact HVc].
    intros h. eapply evals_ext; [| |apply (H2 h)]; [|reflexivity]. intros j. cbn beta. rewrite (UR1 j). reflexivity.
  Qed.

  (** *** Structural rules *)
  Lemma priv_pre {T T' A} (D : (pid -> T) -> Prop) (f : pid -> T -> MT A) E (D' : (pid -> T') -> Prop) (g : pid -> T' -> MT A)
      (E' : (pid -> T') -> (pid -> A) -> Prop) (h : pid -> T' -> T) :
    priv D f E -> (forall X, D' X -> D (fun j => h j (X j))) ->
    (forall X, D' X -> forall j s, g j (X j) s = f j (h j (X j)) s) ->
    (forall X R, D' X -> E (fun j => h j (X j)) R -> E' X R) -> priv D' g E'.
  Proof.
    intros (n & m & C) HD Hg HE. exists n, m. intros X X' HX HX' HXX a b w Hw.
    destruct (C _ _ (HD X HX) (HD X' HX') (f_equal (h i) HXX) a b w Hw) as (V & R & w' & V' & R' & K1 & K2 & K3 & K4 & K5 & K6 & [K7 K7'] & K8).
    assert (T1 : forall Y, D' Y -> forall w V R, runs n (fun j => f j (h j (Y j))) a b w V R <-> runs n (fun j => g j (Y j)) a b w V R).
    { intros Y HY w0 V0 R0. split; intros H h0; (eapply evals_ext; [| |exact (H h0)]; [|reflexivity]); intros j; cbn beta; rewrite (Hg Y HY j); reflexivity. }
    exists V, R, w', V', R'. split; [exact K1|]. split; [apply (T1 X HX); exact K2|]. split; [apply (T1 X' HX'); exact K3|].
    split; [exact K4|]. split; [exact K5|]. split; [exact K6|]. split; [split; apply HE; assumption|].
    intros w'' V'' R'' Hl HR. apply (K8 w'' V'' R'' Hl). apply (T1 X' HX'). exact HR.
  Qed.
  Lemma priv_conseq {T A} (D D' : (pid -> T) -> Prop) (f : pid -> T -> MT A) (E E' : (pid -> T) -> (pid -> A) -> Prop) :
    priv D f E -> (forall X, D' X -> D X) -> (forall X R, D' X -> E X R -> E' X R) -> priv D' f E'.
  Proof. intros H HD HE. apply (priv_pre D f E D' f E' (fun _ x => x) H); auto. Qed.
  Lemma priv_eq {T A} (D : (pid -> T) -> Prop) (f g : pid -> T -> MT A) E :
    priv D f E -> (forall X, D X -> forall j s, g j (X j) s = f j (X j) s) -> priv D g E.
  Proof. intros H Hg. apply (priv_pre D f E D g E (fun _ x => x) H); auto. Qed.
  Lemma runs_ret {A} (r : pid -> A) a b : runs 0 (fun j => retM (r j)) a b [] (fun _ => []) r.
  Proof. intros h. unfold retM. cbn [spied app]. apply (evals_ret (fun j => ([], (st a b h j, r j)))). Qed.
  Lemma priv_ret {T A} (D : (pid -> T) -> Prop) (h : pid -> T -> A) :
    priv D (fun j x => retM (h j x)) (fun X R => forall j, R j = h j (X j)).
  Proof.
    exists O, O. intros X X' HX HX' HXX a b w Hw. destruct w; [|discriminate].
    exists (fun _ => []), (fun j => h j (X j)), [], (fun _ => []), (fun j => h j (X' j)).
    split; [reflexivity|]. split; [apply (runs_ret (fun j => h j (X j)))|]. split; [apply (runs_ret (fun j => h j (X' j)))|].
    split; [reflexivity|]. split; [reflexivity|]. split; [rewrite HXX; reflexivity|]. split; [split; reflexivity|].
    intros [|] ? ? Hl ? ?; [reflexivity|discriminate].
  Qed.
  Lemma priv_res {T A} (D : (pid -> T) -> Prop) (r : pid -> T -> res A) :
    (forall X, D X -> forall j, exists v, r j (X j) = Ok v) ->
    priv D (fun j x => resM (r j x)) (fun X R => forall j, r j (X j) = Ok (R j)).
  Proof.
    intros H. exists O, O.
    assert (G : forall X, D X -> exists R, forall j, r j (X j) = Ok (R j)).
    { intros X HX. destruct (H X HX P0) as [v0 E0], (H X HX P1) as [v1 E1], (H X HX P2) as [v2 E2].
      exists (fun j => match j with P0 => v0 | P1 => v1 | P2 => v2 end). intros []; assumption. }
    intros X X' HX HX' HXX a b w Hw. destruct w; [|discriminate].
    destruct (G X HX) as [R HR]. destruct (G X' HX') as [R' HR'].
    assert (T1 : forall Y S, (forall j, r j (Y j) = Ok (S j)) -> runs 0 (fun j => resM (r j (Y j))) a b [] (fun _ => []) S).
    { intros Y S HS h. eapply evals_ext; [| |apply (runs_ret S a b h)]; [|reflexivity]. intros j. cbn beta. rewrite HS. reflexivity. }
    exists (fun _ => []), R, [], (fun _ => []), R'. split; [reflexivity|]. split; [apply T1, HR|]. split; [apply T1, HR'|].
    split; [reflexivity|]. split; [reflexivity|]. split.
    { pose proof (HR i) as A1. pose proof (HR' i) as A2. rewrite HXX in A1. congruence. }
    split; [split; assumption|]. intros [|] ? ? Hl ? ?; [reflexivity|discriminate].
  Qed.
  (** What is known to hold of every run may be added. *)
  Lemma priv_know {T A} (D : (pid -> T) -> Prop) (f : pid -> T -> MT A) (E E1 : (pid -> T) -> (pid -> A) -> Prop) :
    priv D f E -> (forall X R R', (forall j, R j = R' j) -> E1 X R -> E1 X R') ->
    (forall X a b h, D X -> wpM (fun j => f j (X j)) (st a b h) (fun _ R => E1 X R)) ->
    priv D f (fun X R => E X R /\ E1 X R).
  Proof.
    intros (n & m & C) X1 W. exists n, m. intros X X' HX HX' HXX a b w Hw.
    destruct (C _ _ HX HX' HXX a b w Hw) as (V & R & w' & V' & R' & K1 & K2 & K3 & K4 & K5 & K6 & [K7 K7'] & K8).
    exists V, R, w', V', R'. repeat (split; [assumption|]). split; [|exact K8].
    split; (split; [assumption|]).
    - refine (runs_wpM _ _ _ _ _ _ _ (fun _ R => E1 X R) K2 _ _ []); [intros; eapply X1; eassumption|]. intros h. apply W, HX.
    - refine (runs_wpM _ _ _ _ _ _ _ (fun _ R => E1 X' R) K3 _ _ []); [intros; eapply X1; eassumption|]. intros h. apply W, HX'.
  Qed.

  (** Loops over joint vectors; every element has a public shape. *)
  Lemma priv_foldM {T U Y C} (u0 : U) (D : (pid -> T) -> Prop) (DU : (pid -> U) -> Y -> Prop) (I : (pid -> C) -> Prop)
      (f : pid -> T -> C -> U -> MT C) ys :
    (forall X X' y, (forall j, X j = X' j) -> DU X y -> DU X' y) -> (forall X X', (forall j, X j = X' j) -> I X -> I X') ->
    (forall y, In y ys -> priv (fun Z => D (fun j => fst (fst (Z j))) /\ I (fun j => snd (fst (Z j))) /\ DU (fun j => snd (Z j)) y)
       (fun j z => f j (fst (fst z)) (snd (fst z)) (snd z)) (fun _ R => I R)) ->
    priv (fun Z => D (fun j => fst (fst (Z j))) /\ I (fun j => snd (fst (Z j))) /\ RL DU (fun j => snd (Z j)) ys)
       (fun j z => foldM (f j (fst (fst z))) (snd z) (snd (fst z))) (fun _ R => I R).
  Proof.
    intros XU XI. induction ys as [|y ys IH]; intros H.
    - eapply (priv_pre _ _ _ _ _ _ (fun _ z => snd (fst z)) (priv_ret I (fun _ c => c))).
      + intros Z (_ & HI & _). exact HI.
      + intros Z (_ & _ & HL) j s. pose proof (RL_inv_nil _ _ HL j) as E. cbn beta in E. rewrite E. reflexivity.
      + intros Z R (_ & HI & _) E. eapply XI; [|exact HI]. intros j. symmetry. apply E.
    - eapply (priv_eq _ (fun j z => bindM (f j (fst (fst z)) (snd (fst z)) (hd u0 (snd z))) (fun c => foldM (f j (fst (fst z))) (tl (snd z)) c))).
      + eapply (priv_bind _ (fun j z => f j (fst (fst z)) (snd (fst z)) (hd u0 (snd z))) (fun _ R => I R) (fun j z c => foldM (f j (fst (fst z))) (tl (snd z)) c)).
        * eapply (priv_pre _ _ _ _ _ _ (fun _ z => (fst z, hd u0 (snd z))) (H y (or_introl eq_refl))); cbn [fst snd]; [|reflexivity|auto].
          intros Z (HD & HI & HL). split; [exact HD|]. split; [exact HI|]. apply RL_inv_cons in HL. destruct HL as (Y0 & X' & HX & HY & _).
          eapply XU; [|exact HY]. intros j. cbn beta. rewrite HX. reflexivity.
        * eapply (priv_pre _ _ _ _ _ _ (fun _ z => ((fst (fst (fst z)), snd z), tl (snd (fst z)))) (IH (fun y' Hy' => H y' (or_intror Hy')))); cbn [fst snd]; [|reflexivity|auto].
          intros Z ((HD & HI & HL) & HI'). split; [exact HD|]. split; [exact HI'|]. apply RL_inv_cons in HL. destruct HL as (Y0 & X' & HX & _ & HL).
          eapply RL_ext; [|exact HL]. intros j. cbn beta. rewrite HX. reflexivity.
      + intros Z (_ & _ & HL) j s. apply RL_inv_cons in HL. destruct HL as (Y0 & X' & HX & _). rewrite HX. reflexivity.
  Qed.
  Lemma priv_mapM2 {T U U' Y B Y'} (u0 : U) (u1 : U') (D : (pid -> T) -> Prop) (DU : (pid -> U) -> Y -> Prop) (DU' : (pid -> U') -> Y -> Prop)
      (DB : (pid -> B) -> Y' -> Prop) (sh : Y -> Y') (f : pid -> T -> U -> U' -> MT B) ys :
    (forall X X' y, (forall j, X j = X' j) -> DU X y -> DU X' y) -> (forall X X' y, (forall j, X j = X' j) -> DU' X y -> DU' X' y) ->
    (forall X X' y, (forall j, X j = X' j) -> DB X y -> DB X' y) ->
    (forall y, In y ys -> priv (fun Z => D (fun j => fst (fst (Z j))) /\ DU (fun j => snd (fst (Z j))) y /\ DU' (fun j => snd (Z j)) y)
       (fun j z => f j (fst (fst z)) (snd (fst z)) (snd z)) (fun _ R => DB R (sh y))) ->
    priv (fun Z => D (fun j => fst (fst (Z j))) /\ RL DU (fun j => snd (fst (Z j))) ys /\ RL DU' (fun j => snd (Z j)) ys)
       (fun j z => mapM2 (f j (fst (fst z))) (snd (fst z)) (snd z)) (fun _ R => RL DB R (map sh ys)).
  Proof.
    intros XU XU' XB. induction ys as [|y ys IH]; intros H.
    - eapply (priv_pre _ _ _ _ _ _ (fun _ z => snd z) (priv_ret (fun _ => True) (fun _ _ => []))).
      + exact (fun _ _ => I).
      + intros Z (_ & HL & _) j s. pose proof (RL_inv_nil _ _ HL j) as E. cbn beta in E. rewrite E. reflexivity.
      + intros Z R _ E. constructor. exact E.
    - eapply (priv_eq _ (fun j z => bindM (f j (fst (fst z)) (hd u0 (snd (fst z))) (hd u1 (snd z)))
                 (fun b => bindM (mapM2 (f j (fst (fst z))) (tl (snd (fst z))) (tl (snd z))) (fun bs => retM (b :: bs))))).
      + eapply (priv_bind _ _ (fun _ R => DB R (sh y))).
        * eapply (priv_pre _ _ _ _ _ _ (fun _ z => ((fst (fst z), hd u0 (snd (fst z))), hd u1 (snd z))) (H y (or_introl eq_refl))); cbn [fst snd]; [|reflexivity|auto].
          intros Z (HD & HL & HL'). split; [exact HD|]. apply RL_inv_cons in HL, HL'. destruct HL as (Y0 & X' & HX & HY & _). destruct HL' as (Y1 & X1 & HX1 & HY1 & _).
          split; [eapply XU; [|exact HY]|eapply XU'; [|exact HY1]]; intros j; cbn beta; rewrite ?HX, ?HX1; reflexivity.
        * eapply (priv_bind _ _ (fun _ R => RL DB R (map sh ys))).
          -- eapply (priv_pre _ _ _ _ _ _ (fun _ z => ((fst (fst (fst z)), tl (snd (fst (fst z)))), tl (snd (fst z)))) (IH (fun y' Hy' => H y' (or_intror Hy')))); cbn [fst snd]; [|reflexivity|auto].
             intros Z ((HD & HL & HL') & _). split; [exact HD|]. apply RL_inv_cons in HL, HL'. destruct HL as (Y0 & X' & HX & _ & HL). destruct HL' as (Y1 & X1 & HX1 & _ & HL').
             split; (eapply RL_ext; [|eassumption]); intros j; cbn beta; rewrite ?HX, ?HX1; reflexivity.
          -- eapply (priv_conseq _ _ _ _ _ (priv_ret _ (fun _ z => snd (fst z) :: snd z))); [intros Z HZ; exact HZ|]. cbn [fst snd].
             intros Z R (((HD & HL & HL') & HB) & HR) E. eapply RL_cons; [exact E|exact HB|exact HR].
      + intros Z (_ & HL & HL') j s. apply RL_inv_cons in HL, HL'. destruct HL as (Y0 & X' & HX & _). destruct HL' as (Y1 & X1 & HX1 & _).
        rewrite HX, HX1. reflexivity.
  Qed.

  (** ** Conditions on each party's own data *)
  Definition ppriv {T A} (D : T -> Prop) (f : pid -> T -> MT A) (E : T -> A -> Prop) : Prop :=
    priv (fun X => forall j, D (X j)) f (fun X R => forall j, E (X j) (R j)).
  Lemma pp_pre {T T' A} (D : T -> Prop) (f : pid -> T -> MT A) (E : T -> A -> Prop) (D' : T' -> Prop) (g : pid -> T' -> MT A)
      (E' : T' -> A -> Prop) (h : pid -> T' -> T) :
    ppriv D f E -> (forall j x, D' x -> D (h j x)) -> (forall j x s, D' x -> g j x s = f j (h j x) s) ->
    (forall j x r, D' x -> E (h j x) r -> E' x r) -> ppriv D' g E'.
  Proof.
    intros H HD Hg HE. eapply (priv_pre _ _ _ _ _ _ h H).
    - intros X HX j. apply HD, HX.
    - intros X HX j s. apply Hg, HX.
    - intros X R HX HR j. eapply HE; [apply HX|apply HR].
  Qed.
  Lemma pp_conseq {T A} (D D' : T -> Prop) (f : pid -> T -> MT A) (E E' : T -> A -> Prop) :
    ppriv D f E -> (forall x, D' x -> D x) -> (forall x r, D' x -> E x r -> E' x r) -> ppriv D' f E'.
  Proof. intros H HD HE. apply (pp_pre D f E D' f E' (fun _ x => x) H); auto. Qed.
  Lemma pp_eq {T A} (D : T -> Prop) (f g : pid -> T -> MT A) E :
    ppriv D f E -> (forall j x s, D x -> g j x s = f j x s) -> ppriv D g E.
  Proof. intros H Hg. apply (pp_pre D f E D g E (fun _ x => x) H); auto. Qed.
  Lemma pp_bind {T A B} (D : T -> Prop) (f : pid -> T -> MT A) E (g : pid -> T -> A -> MT B) (E' : T -> B -> Prop) :
    ppriv D f E -> ppriv (fun z => D (fst z) /\ E (fst z) (snd z)) (fun j z => g j (fst z) (snd z)) (fun z => E' (fst z)) ->
    ppriv D (fun j x => bindM (f j x) (g j x)) E'.
  Proof.
    intros H H'. eapply (priv_bind _ _ _ _ _ H). eapply (priv_conseq _ _ _ _ _ H').
    - intros X [H1 H2] j. split; [apply H1|apply H2].
    - intros X R _ HR. exact HR.
  Qed.
  Lemma pp_ret {T A} (D : T -> Prop) (h : pid -> T -> A) (E : T -> A -> Prop) :
    (forall j x, D x -> E x (h j x)) -> ppriv D (fun j x => retM (h j x)) E.
  Proof. intros H. eapply (priv_conseq _ _ _ _ _ (priv_ret _ h)); [intros X HX; exact HX|]. intros X R HX HR j. rewrite HR. apply H, HX. Qed.
  Lemma pp_res {T A} (D : T -> Prop) (r : pid -> T -> res A) (E : T -> A -> Prop) :
    (forall j x, D x -> exists v, r j x = Ok v /\ E x v) -> ppriv D (fun j x => resM (r j x)) E.
  Proof.
    intros H. eapply (priv_conseq _ _ _ _ _ (priv_res (fun X => forall j, D (X j)) r _)); [intros X HX; exact HX|].
    intros X R HX HR j. destruct (H j (X j) (HX j)) as (v & Hv & HE). rewrite HR in Hv. injection Hv as ->. exact HE.
    Unshelve. intros X HX j. destruct (H j (X j) (HX j)) as (v & Hv & _). eauto.
  Qed.
  Lemma RL_each {A B} (Q : A -> B -> Prop) X ys : RL (fun Y y => forall j : pid, Q (Y j) y) X ys <-> forall j, Forall2 Q (X j) ys.
  Proof.
    split.
    - intros H j. induction H as [X HX|X Y X' y ys HX HY HR IH]; rewrite HX; constructor; auto.
    - revert X. induction ys as [|y ys IH]; intros X H.
      + constructor. intros j. specialize (H j). inversion H. reflexivity.
      + assert (G : forall j, exists h t, X j = h :: t /\ Q h y /\ Forall2 Q t ys).
        { intros j. specialize (H j). inversion H as [|h ? t ? H1 H2 E]; subst. eauto. }
        destruct (G P0) as (h0 & u0 & E0 & A0 & B0), (G P1) as (h1 & u1 & E1 & A1 & B1), (G P2) as (h2 & u2 & E2 & A2 & B2).
        apply (RL_cons _ X (fun j => match j with P0 => h0 | P1 => h1 | P2 => h2 end) (fun j => match j with P0 => u0 | P1 => u1 | P2 => u2 end)).
        * intros []; assumption.
        * intros []; assumption.
        * apply IH. intros []; assumption.
  Qed.
  Lemma pp_foldM {T U Y C} (u0 : U) (D : T -> Prop) (DU : U -> Y -> Prop) (I : C -> Prop) (f : pid -> T -> C -> U -> MT C) ys :
    (forall y, In y ys -> ppriv (fun z => D (fst (fst z)) /\ I (snd (fst z)) /\ DU (snd z) y)
       (fun j z => f j (fst (fst z)) (snd (fst z)) (snd z)) (fun _ r => I r)) ->
    ppriv (fun z => D (fst (fst z)) /\ I (snd (fst z)) /\ Forall2 DU (snd z) ys)
       (fun j z => foldM (f j (fst (fst z))) (snd z) (snd (fst z))) (fun _ r => I r).
  Proof.
    intros H. eapply (priv_conseq _ _ _ _ _ (priv_foldM u0 (fun X => forall j, D (X j)) (fun Y y => forall j, DU (Y j) y) (fun X => forall j, I (X j)) f ys _ _ _)).
    - intros X HX. split; [intros j; apply HX|]. split; [intros j; apply HX|]. apply RL_each. intros j. apply HX.
    - intros X R _ HR. exact HR.
    Unshelve.
    + intros X X' y E HX j. rewrite <- E. apply HX.
    + intros X X' E HX j. rewrite <- E. apply HX.
    + intros y Hy. eapply (priv_conseq _ _ _ _ _ (H y Hy)); [|intros X R _ HR; exact HR].
      intros Z (H1 & H2 & H3) j. auto.
  Qed.
  Lemma pp_mapM2 {T U U' Y B Y'} (u0 : U) (u1 : U') (D : T -> Prop) (DU : U -> Y -> Prop) (DU' : U' -> Y -> Prop)
      (DB : B -> Y' -> Prop) (sh : Y -> Y') (f : pid -> T -> U -> U' -> MT B) ys :
    (forall y, In y ys -> ppriv (fun z => D (fst (fst z)) /\ DU (snd (fst z)) y /\ DU' (snd z) y)
       (fun j z => f j (fst (fst z)) (snd (fst z)) (snd z)) (fun _ r => DB r (sh y))) ->
    ppriv (fun z => D (fst (fst z)) /\ Forall2 DU (snd (fst z)) ys /\ Forall2 DU' (snd z) ys)
       (fun j z => mapM2 (f j (fst (fst z))) (snd (fst z)) (snd z)) (fun _ r => Forall2 DB r (map sh ys)).
  Proof.
    intros H. eapply (priv_conseq _ _ _ _ _ (priv_mapM2 u0 u1 (fun X => forall j, D (X j)) (fun Y y => forall j, DU (Y j) y) (fun Y y => forall j, DU' (Y j) y)
       (fun Y y => forall j, DB (Y j) y) sh f ys _ _ _ _)).
    - intros X HX. split; [intros j; apply HX|]. split; apply RL_each; intros j; apply HX.
    - intros X R _ HR. apply RL_each. exact HR.
    Unshelve.
    + intros X X' y E HX j. rewrite <- E. apply HX.
    + intros X X' y E HX j. rewrite <- E. apply HX.
    + intros X X' y E HX j. rewrite <- E. apply HX.
    + intros y Hy. eapply (priv_conseq _ _ _ _ _ (H y Hy)); [|intros X R _ HR; exact HR].
      intros Z (H1 & H2 & H3) j. auto.
  Qed.
End Priv.
