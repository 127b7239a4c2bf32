(** Joint values of the three parties: relations between what the parties hold and the plain value,
    lifted to vectors; program logic for loops. *)
From Verif Require Import Base Prog Sched.

(** ** Vectors: element n of the joint vector is related to element n of the plain vector. *)
Inductive RL {A B : Type} (R : (pid -> A) -> B -> Prop) : (pid -> list A) -> list B -> Prop :=
| RL_nil X : (forall i, X i = []) -> RL R X []
| RL_cons X Y X' y ys : (forall i, X i = Y i :: X' i) -> R Y y -> RL R X' ys -> RL R X (y :: ys).

Lemma RL_ext {A B} (R : (pid -> A) -> B -> Prop) X X' ys : (forall i, X i = X' i) -> RL R X ys -> RL R X' ys.
Proof.
  intros H HR. destruct HR as [X HX|X Y X0 y ys HX HY HR].
  - constructor. intros i. rewrite <- H. apply HX.
  - econstructor; [|exact HY|exact HR]. intros i. rewrite <- H. apply HX.
Qed.
Lemma RL_nil' {A B} (R : (pid -> A) -> B -> Prop) : RL R (fun _ => []) [].
Proof. constructor. reflexivity. Qed.
Lemma RL_cons' {A B} (R : (pid -> A) -> B -> Prop) Y y X ys : R Y y -> RL R X ys -> RL R (fun i => Y i :: X i) (y :: ys).
Proof. intros H H'. econstructor; [|exact H|exact H']. reflexivity. Qed.
Lemma RL_length {A B} (R : (pid -> A) -> B -> Prop) X ys : RL R X ys -> forall i, length (X i) = length ys.
Proof. induction 1 as [X HX|X Y X' y ys HX HY HR IH]; intros i; rewrite HX; [reflexivity|]. simpl. rewrite IH. reflexivity. Qed.
Lemma RL_mono {A B} (R R' : (pid -> A) -> B -> Prop) X ys : (forall Y y, R Y y -> R' Y y) -> RL R X ys -> RL R' X ys.
Proof. intros H. induction 1; econstructor; eauto. Qed.

Lemma RL_map {A B A' B'} (R : (pid -> A) -> B -> Prop) (R' : (pid -> A') -> B' -> Prop) (f : pid -> A -> A') (g : B -> B') X ys :
  (forall Y y, R Y y -> R' (fun i => f i (Y i)) (g y)) ->
  RL R X ys -> RL R' (fun i => map (f i) (X i)) (map g ys).
Proof.
  intros H. induction 1 as [X HX|X Y X' y ys HX HY HR IH].
  - constructor. intros i. rewrite HX. reflexivity.
  - econstructor; [|apply H, HY|exact IH]. intros i. rewrite HX. reflexivity.
Qed.

Lemma RL_map2 {A A' A'' B B' B''} (R : (pid -> A) -> B -> Prop) (R' : (pid -> A') -> B' -> Prop) (R'' : (pid -> A'') -> B'' -> Prop)
  (f : pid -> A -> A' -> A'') (g : B -> B' -> B'') X X' ys ys' :
  (forall Y y Y' y', R Y y -> R' Y' y' -> R'' (fun i => f i (Y i) (Y' i)) (g y y')) ->
  RL R X ys -> RL R' X' ys' -> RL R'' (fun i => map2 (f i) (X i) (X' i)) (map2 g ys ys').
Proof.
  intros H HX. revert X' ys'. induction HX as [X HX|X Y X0 y ys HX HY HR IH]; intros X' ys' HX'.
  - constructor. intros i. rewrite HX. reflexivity.
  - destruct HX' as [X' HX'|X' Y' X0' y' ys' HX' HY' HR'].
    + constructor. intros i. rewrite HX, HX'. reflexivity.
    + cbn [map2]. econstructor; [|apply H; [exact HY|exact HY']|apply IH, HR'].
      intros i. rewrite HX, HX'. reflexivity.
Qed.

Lemma RL_app {A B} (R : (pid -> A) -> B -> Prop) X X' ys ys' :
  RL R X ys -> RL R X' ys' -> RL R (fun i => X i ++ X' i) (ys ++ ys').
Proof.
  induction 1 as [X HX|X Y X0 y ys HX HY HR IH]; intros H'.
  - eapply RL_ext; [|exact H']. intros i. rewrite HX. reflexivity.
  - cbn [app]. econstructor; [|exact HY|apply IH, H']. intros i. rewrite HX. reflexivity.
Qed.
Lemma RL_firstn {A B} (R : (pid -> A) -> B -> Prop) X ys n : RL R X ys -> RL R (fun i => firstn n (X i)) (firstn n ys).
Proof.
  intros H. revert n. induction H as [X HX|X Y X0 y ys HX HY HR IH]; intros n.
  - rewrite firstn_nil. constructor. intros i. rewrite HX. apply firstn_nil.
  - destruct n as [|n]; [constructor; reflexivity|]. cbn [firstn].
    econstructor; [|exact HY|apply (IH n)]. intros i. rewrite HX. reflexivity.
Qed.
Lemma RL_skipn {A B} (R : (pid -> A) -> B -> Prop) X ys n : RL R X ys -> RL R (fun i => skipn n (X i)) (skipn n ys).
Proof.
  intros H. revert n. induction H as [X HX|X Y X0 y ys HX HY HR IH]; intros n.
  - rewrite skipn_nil. constructor. intros i. rewrite HX. apply skipn_nil.
  - destruct n as [|n].
    + cbn [skipn]. econstructor; [|exact HY|exact HR]. exact HX.
    + cbn [skipn]. eapply RL_ext; [|apply (IH n)]. intros i. cbn beta. rewrite HX. reflexivity.
Qed.
Lemma RL_repeat {A B} (R : (pid -> A) -> B -> Prop) Y y n : R Y y -> RL R (fun i => repeat (Y i) n) (repeat y n).
Proof.
  intros H. induction n as [|n IH]; [constructor; reflexivity|].
  cbn [repeat]. econstructor; [|exact H|exact IH]. reflexivity.
Qed.
Lemma RL_resize {A B} (R : (pid -> A) -> B -> Prop) X ys n Y y : RL R X ys -> R Y y ->
  RL R (fun i => resize n (Y i) (X i)) (resize n y ys).
Proof.
  intros H HY. unfold resize. pose proof (RL_length _ _ _ H) as Hl.
  eapply RL_ext; [|apply RL_app; [apply RL_firstn, H|apply (RL_repeat R Y y (n - length ys) HY)]].
  intros i. cbn beta. rewrite Hl. reflexivity.
Qed.
Lemma RL_concat {A B} (R : (pid -> A) -> B -> Prop) X ys : RL (RL R) X ys -> RL R (fun i => concat (X i)) (concat ys).
Proof.
  induction 1 as [X HX|X Y X0 y ys HX HY HR IH].
  - constructor. intros i. rewrite HX. reflexivity.
  - cbn [concat]. eapply RL_ext; [|apply RL_app; [exact HY|exact IH]]. intros i. cbn beta. rewrite HX. reflexivity.
Qed.
Lemma RL_rev {A B} (R : (pid -> A) -> B -> Prop) X ys : RL R X ys -> RL R (fun i => rev (X i)) (rev ys).
Proof.
  induction 1 as [X HX|X Y X0 y ys HX HY HR IH].
  - constructor. intros i. rewrite HX. reflexivity.
  - cbn [rev]. eapply RL_ext; [|apply RL_app; [exact IH|apply RL_cons'; [exact HY|apply RL_nil']]].
    intros i. cbn beta. rewrite HX. reflexivity.
Qed.

Lemma RL_chunks_fuel {A B} (R : (pid -> A) -> B -> Prop) fuel n X ys :
  RL R X ys -> RL (RL R) (fun i => chunks_fuel fuel n (X i)) (chunks_fuel fuel n ys).
Proof.
  revert X ys. induction fuel as [|fuel IH]; intros X ys H; [constructor; reflexivity|].
  pose proof (RL_firstn R X ys n H) as Hf. pose proof (RL_skipn R X ys n H) as Hs.
  destruct H as [X HX|X Y X0 y ys HX HY HR].
  - constructor. intros i. rewrite HX. reflexivity.
  - cbn [chunks_fuel]. econstructor; [|exact Hf|apply IH, Hs].
    intros i. cbn beta. rewrite HX. reflexivity.
Qed.
Lemma RL_chunks {A B} (R : (pid -> A) -> B -> Prop) n X ys :
  RL R X ys -> RL (RL R) (fun i => chunks n (X i)) (chunks n ys).
Proof.
  intros H. unfold chunks. pose proof (RL_length _ _ _ H) as Hl.
  eapply RL_ext; [|apply (RL_chunks_fuel R (length ys) n X ys H)]. intros i. cbn beta. rewrite Hl. reflexivity.
Qed.

Lemma RL_inv_nil {A B} (R : (pid -> A) -> B -> Prop) X : RL R X [] -> forall i, X i = [].
Proof. inversion 1; assumption. Qed.
Lemma RL_inv_cons {A B} (R : (pid -> A) -> B -> Prop) X y ys : RL R X (y :: ys) ->
  exists Y X', (forall i, X i = Y i :: X' i) /\ R Y y /\ RL R X' ys.
Proof. inversion 1; subst. eauto. Qed.
Lemma RL_nth_error {A B} (R : (pid -> A) -> B -> Prop) X ys n y : RL R X ys -> nth_error ys n = Some y ->
  exists Y, (forall i, nth_error (X i) n = Some (Y i)) /\ R Y y.
Proof.
  intros H. revert n. induction H as [X HX|X Y X0 y0 ys HX HY HR IH]; intros n Hn.
  - destruct n; discriminate.
  - destruct n as [|n]; simpl in Hn.
    + injection Hn as <-. exists Y. split; [|exact HY]. intros i. rewrite HX. reflexivity.
    + destruct (IH n Hn) as (Y' & HY' & HR'). exists Y'. split; [|exact HR']. intros i. rewrite HX. apply HY'.
Qed.
(** Fold over a joint vector. *)
Lemma RL_fold_left {A B C D} (R : (pid -> A) -> B -> Prop) (Q : (pid -> C) -> D -> Prop) (f : pid -> C -> A -> C) (g : D -> B -> D) X ys :
  (forall P p Y y, Q P p -> R Y y -> Q (fun i => f i (P i) (Y i)) (g p y)) ->
  (forall P P' p, (forall i, P i = P' i) -> Q P p -> Q P' p) ->
  RL R X ys -> forall P p, Q P p -> Q (fun i => fold_left (f i) (X i) (P i)) (fold_left g ys p).
Proof.
  intros H Hext. induction 1 as [X HX|X Y X0 y ys HX HY HR IH]; intros P p HP.
  - eapply Hext; [|exact HP]. intros i. rewrite HX. reflexivity.
  - cbn [fold_left]. eapply Hext; [|apply (IH _ _ (H _ _ _ _ HP HY))].
    intros i. cbn beta. rewrite HX. reflexivity.
Qed.

(** ** Loops over vectors in the state monad *)
Lemma wpM_mapM {S A A' B B'} (Inv : (pid -> S) -> Prop) (R : (pid -> A) -> B -> Prop) (R' : (pid -> A') -> B' -> Prop)
  (f : pid -> A -> M S A') (g : B -> B') :
  (forall s Y y, Inv s -> R Y y -> wpM (fun i => f i (Y i)) s (fun s' Z => Inv s' /\ R' Z (g y))) ->
  forall X ys s, Inv s -> RL R X ys ->
  wpM (fun i => mapM (f i) (X i)) s (fun s' Z => Inv s' /\ RL R' Z (map g ys)).
Proof.
  intros Hf X ys s Hs H. revert s Hs. induction H as [X HX|X Y X0 y ys HX HY HR IH]; intros s Hs.
  - apply (wpM_ext (fun _ => retM [])). { intros i. rewrite HX. reflexivity. }
    apply wpM_ret. split; [exact Hs|apply RL_nil'].
  - apply (wpM_ext (fun i => bindM (f i (Y i)) (fun b => bindM (mapM (f i) (X0 i)) (fun bs => retM (b :: bs))))).
    { intros i. rewrite HX. reflexivity. }
    apply (wpM_bind (fun i => f i (Y i)) (fun i b => bindM (mapM (f i) (X0 i)) (fun bs => retM (b :: bs)))).
    eapply wpM_mono; [|apply Hf; eassumption]. intros s1 Z1 [Hs1 HZ1].
    apply (wpM_bind (fun i => mapM (f i) (X0 i)) (fun i bs => retM (Z1 i :: bs))).
    eapply wpM_mono; [|apply IH, Hs1]. intros s2 Z2 [Hs2 HZ2].
    apply wpM_ret. split; [exact Hs2|]. cbn [map]. apply RL_cons'; assumption.
Qed.

Lemma wpM_mapM2 {S A A1 A' B B1 B'} (Inv : (pid -> S) -> Prop) (R : (pid -> A) -> B -> Prop)
  (R1 : (pid -> A1) -> B1 -> Prop) (R' : (pid -> A') -> B' -> Prop)
  (f : pid -> A -> A1 -> M S A') (g : B -> B1 -> B') :
  (forall s Y y Y1 y1, Inv s -> R Y y -> R1 Y1 y1 -> wpM (fun i => f i (Y i) (Y1 i)) s (fun s' Z => Inv s' /\ R' Z (g y y1))) ->
  forall X ys X1 ys1 s, Inv s -> RL R X ys -> RL R1 X1 ys1 ->
  wpM (fun i => mapM2 (f i) (X i) (X1 i)) s (fun s' Z => Inv s' /\ RL R' Z (map2 g ys ys1)).
Proof.
  intros Hf X ys X1 ys1 s Hs H. revert X1 ys1 s Hs.
  induction H as [X HX|X Y X0 y ys HX HY HR IH]; intros X1 ys1 s Hs H1.
  - apply (wpM_ext (fun _ => retM [])). { intros i. rewrite HX. reflexivity. }
    apply wpM_ret. split; [exact Hs|apply RL_nil'].
  - destruct H1 as [X1 HX1|X1 Y1 X10 y1 ys1 HX1 HY1 HR1].
    + apply (wpM_ext (fun _ => retM [])). { intros i. rewrite HX, HX1. reflexivity. }
      apply wpM_ret. split; [exact Hs|apply RL_nil'].
    + apply (wpM_ext (fun i => bindM (f i (Y i) (Y1 i)) (fun b => bindM (mapM2 (f i) (X0 i) (X10 i)) (fun bs => retM (b :: bs))))).
      { intros i. rewrite HX, HX1. reflexivity. }
      apply (wpM_bind (fun i => f i (Y i) (Y1 i)) (fun i b => bindM (mapM2 (f i) (X0 i) (X10 i)) (fun bs => retM (b :: bs)))).
      eapply wpM_mono; [|apply Hf; eassumption]. intros s1 Z1 [Hs1 HZ1].
      apply (wpM_bind (fun i => mapM2 (f i) (X0 i) (X10 i)) (fun i bs => retM (Z1 i :: bs))).
      eapply wpM_mono; [|apply IH; eassumption]. intros s2 Z2 [Hs2 HZ2].
      apply wpM_ret. split; [exact Hs2|]. cbn [map2]. apply RL_cons'; assumption.
Qed.
