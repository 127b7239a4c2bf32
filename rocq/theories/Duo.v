(** Two honest parties, i and its successor, against an arbitrary third party: a program logic for what
    holds whenever both honest parties finish. *)
From Verif Require Import Base Ring Prog Sched Conc.

Definition bytes (m : msg) : Prop := Forall (inr 8) m.
(** All messages a program sends consist of bytes, whatever it receives. *)
Definition sends_bytes {A} (p : prog A) : Prop := forall tr q j, lrun p tr q -> Forall bytes (sent_to j tr).

Section Duo.
  Variable i : pid.
  Notation j := (next i).
  (** [qij], [qji]: messages under way from i to j and from j to i. *)
  Definition duoq {A B} (p : prog A) (q : prog B) (qij qji : list msg) (Q : A -> B -> Prop) : Prop :=
    forall ti a tj b xi yi xj yj, lrun p ti (Ret a) -> lrun q tj (Ret b) ->
      Forall bytes (rcvd_from (prev i) ti) -> Forall bytes (rcvd_from (next j) tj) ->
      rcvd_from j ti ++ xi = qji ++ sent_to i tj ++ yi ->
      rcvd_from i tj ++ xj = qij ++ sent_to j ti ++ yj ->
      xi = yi /\ xj = yj /\ Q a b.
  Definition duo {A B} (p : prog A) (q : prog B) (Q : A -> B -> Prop) : Prop := duoq p q [] [] Q.

  Lemma duo_mono {A B} (p : prog A) (q : prog B) (Q Q' : A -> B -> Prop) : (forall a b, Q a b -> Q' a b) -> duo p q Q -> duo p q Q'.
  Proof. intros HQ H ti a tj b xi yi xj yj L1 L2 B1 B2 E1 E2. destruct (H ti a tj b xi yi xj yj L1 L2 B1 B2 E1 E2) as (? & ? & ?). auto. Qed.
  Lemma duo_bind {A B C D} (p : prog A) (q : prog B) (f : A -> prog C) (g : B -> prog D) Q :
    duo p q (fun a b => duo (f a) (g b) Q) -> duo (bind p f) (bind q g) Q.
  Proof.
    intros H ti c tj d xi yi xj yj L1 L2 B1 B2 E1 E2.
    apply lrun_bind in L1. destruct L1 as (t1 & a & t2 & L1 & L1' & ->). apply lrun_bind in L2. destruct L2 as (u1 & b & u2 & L2 & L2' & ->).
    rewrite rcvd_app in B1, B2. apply Forall_app in B1, B2. destruct B1 as [B1 B1'], B2 as [B2 B2'].
    rewrite rcvd_app, sent_app, <- !app_assoc in E1. rewrite rcvd_app, sent_app, <- !app_assoc in E2.
    destruct (H _ _ _ _ _ _ _ _ L1 L2 B1 B2 E1 E2) as (E1' & E2' & HQ). exact (HQ _ _ _ _ _ _ _ _ L1' L2' B1' B2' E1' E2').
  Qed.
  Lemma duo_ret {A B} (a : A) (b : B) (Q : A -> B -> Prop) : Q a b -> duo (Ret a) (Ret b) Q.
  Proof.
    intros HQ ti a' tj b' xi yi xj yj L1 L2 B1 B2 E1 E2. apply lrun_ret in L1, L2. destruct L1 as [-> ->], L2 as [-> ->].
    cbn in E1, E2. auto.
  Qed.
  Lemma duo_fail_l {A B} e (q : prog B) qij qji (Q : A -> B -> Prop) : duoq (Fail e) q qij qji Q.
  Proof. intros ti a tj b xi yi xj yj L1. inversion L1. Qed.
  Lemma duo_fail_r {A B} e (p : prog A) qij qji (Q : A -> B -> Prop) : duoq p (Fail e) qij qji Q.
  Proof. intros ti a tj b xi yi xj yj _ L1. inversion L1. Qed.

  (** Single steps. *)
  Lemma eqb_next_prev : pid_eqb (prev i) j = false /\ pid_eqb j j = true /\ pid_eqb i i = true /\ pid_eqb (prev i) i = false /\ prev j = i /\ next j = prev i.
  Proof. destruct i; repeat split; reflexivity. Qed.
  Lemma duo_send_next {A B} m (k : prog A) (q : prog B) qij qji Q : duoq k q (qij ++ [m]) qji Q -> duoq (Send j m k) q qij qji Q.
  Proof.
    intros H ti a tj b xi yi xj yj L1 L2 B1 B2 E1 E2. inversion L1; subst. cbn [sent_to rcvd_from] in *.
    rewrite (proj1 (proj2 eqb_next_prev)) in E2. refine (H _ _ _ _ _ _ _ _ _ L2 B1 B2 E1 _); [eassumption|]. rewrite E2, <- app_assoc. reflexivity.
  Qed.
  Lemma duo_send_prev {A B} m (k : prog A) (q : prog B) qij qji Q : duoq k q qij qji Q -> duoq (Send (prev i) m k) q qij qji Q.
  Proof.
    intros H ti a tj b xi yi xj yj L1 L2 B1 B2 E1 E2. inversion L1; subst. cbn [sent_to rcvd_from] in *.
    rewrite (proj1 eqb_next_prev) in E2. eapply H; eassumption.
  Qed.
  Lemma duo_recv_prev {A B} (k : msg -> prog A) (q : prog B) qij qji Q : (forall m, bytes m -> duoq (k m) q qij qji Q) -> duoq (Recv (prev i) k) q qij qji Q.
  Proof.
    intros H ti a tj b xi yi xj yj L1 L2 B1 B2 E1 E2. inversion L1; subst. cbn [sent_to rcvd_from] in *.
    rewrite (proj1 eqb_next_prev) in E1. replace (pid_eqb (prev i) (prev i)) with true in B1 by (destruct i; reflexivity).
    inversion B1; subst. eapply H; eassumption.
  Qed.
  Lemma duo_recv_next {A B} m (k : msg -> prog A) (q : prog B) qij qji Q : duoq (k m) q qij qji Q -> duoq (Recv j k) q qij (m :: qji) Q.
  Proof.
    intros H ti a tj b xi yi xj yj L1 L2 B1 B2 E1 E2. inversion L1; subst. cbn [sent_to rcvd_from] in *.
    rewrite (proj1 (proj2 eqb_next_prev)) in E1. replace (pid_eqb j (prev i)) with false in B1 by (destruct i; reflexivity).
    injection E1 as -> E1. eapply H; eassumption.
  Qed.
  Lemma duo_r_send_prev {A B} m (p : prog A) (k : prog B) qij qji Q : duoq p k qij (qji ++ [m]) Q -> duoq p (Send (prev j) m k) qij qji Q.
  Proof.
    intros H ti a tj b xi yi xj yj L1 L2 B1 B2 E1 E2. inversion L2; subst. cbn [sent_to rcvd_from] in *.
    replace (pid_eqb (prev j) i) with true in E1 by (destruct i; reflexivity).
    refine (H _ _ _ _ _ _ _ _ L1 _ B1 B2 _ E2); [eassumption|]. rewrite E1, <- app_assoc. reflexivity.
  Qed.
  Lemma duo_r_send_next {A B} m (p : prog A) (k : prog B) qij qji Q : duoq p k qij qji Q -> duoq p (Send (next j) m k) qij qji Q.
  Proof.
    intros H ti a tj b xi yi xj yj L1 L2 B1 B2 E1 E2. inversion L2; subst. cbn [sent_to rcvd_from] in *.
    replace (pid_eqb (next j) i) with false in E1 by (destruct i; reflexivity). eapply H; eassumption.
  Qed.
  Lemma duo_r_recv_next {A B} (p : prog A) (k : msg -> prog B) qij qji Q : (forall m, bytes m -> duoq p (k m) qij qji Q) -> duoq p (Recv (next j) k) qij qji Q.
  Proof.
    intros H ti a tj b xi yi xj yj L1 L2 B1 B2 E1 E2. inversion L2; subst. cbn [sent_to rcvd_from] in *.
    replace (pid_eqb (next j) i) with false in E2 by (destruct i; reflexivity).
    replace (pid_eqb (next j) (next j)) with true in B2 by (destruct i; reflexivity). inversion B2; subst. eapply H; eassumption.
  Qed.
  Lemma duo_r_recv_prev {A B} m (p : prog A) (k : msg -> prog B) qij qji Q : duoq p (k m) qij qji Q -> duoq p (Recv (prev j) k) (m :: qij) qji Q.
  Proof.
    intros H ti a tj b xi yi xj yj L1 L2 B1 B2 E1 E2. inversion L2; subst. cbn [sent_to rcvd_from] in *.
    replace (pid_eqb (prev j) i) with true in E2 by (destruct i; reflexivity). replace (pid_eqb (prev j) (next j)) with false in B2 by (destruct i; reflexivity).
    injection E2 as -> E2. eapply H; eassumption.
  Qed.

  (** Every execution of the three parties in which i and j finish. *)
  Lemma duo_sound {A} (P : pid -> prog A) (Q : A -> A -> Prop) sched c a b : sends_bytes (P (prev i)) -> duo (P i) (P j) Q ->
    steps sched (start P) c -> get (progs c) i = Ret a -> get (progs c) j = Ret b -> Q a b.
  Proof.
    intros HB H Hst Ha Hb. destruct (project P sched c Hst) as (tr & L & E).
    pose proof (L i) as L1. pose proof (L j) as L2. rewrite Ha in L1. rewrite Hb in L2.
    apply (H (tr i) a (tr j) b (qget (qs c) j i) [] (qget (qs c) i j) [] L1 L2); try (rewrite app_nil_r; apply E).
    - specialize (HB _ _ i (L (prev i))). rewrite <- E in HB. apply Forall_app in HB. apply HB.
    - specialize (HB _ _ j (L (prev i))). rewrite <- E in HB. apply Forall_app in HB. replace (next j) with (prev i) by (destruct i; reflexivity). apply HB.
  Qed.

  (** Monadic versions. *)
  Definition duoM {S A} (p q : M S A) (s t : S) (Q : S -> A -> S -> A -> Prop) : Prop :=
    duo (p s) (q t) (fun x y => Q (fst x) (snd x) (fst y) (snd y)).
  Lemma duoM_mono {S A} (p q : M S A) s t (Q Q' : S -> A -> S -> A -> Prop) :
    (forall s a t b, Q s a t b -> Q' s a t b) -> duoM p q s t Q -> duoM p q s t Q'.
  Proof. intros HQ. apply duo_mono. intros [] []. apply HQ. Qed.
  Lemma duoM_bind {S A B} (p q : M S A) (f g : A -> M S B) s t Q :
    duoM p q s t (fun s' a t' b => duoM (f a) (g b) s' t' Q) -> duoM (bindM p f) (bindM q g) s t Q.
  Proof. intros H. unfold duoM, bindM. apply duo_bind. eapply duo_mono; [|exact H]. intros [] []. exact (fun x => x). Qed.
  Lemma duoM_ret {S A} (a b : A) (s t : S) (Q : S -> A -> S -> A -> Prop) : Q s a t b -> duoM (retM a) (retM b) s t Q.
  Proof. intros. unfold duoM, retM. apply duo_ret. assumption. Qed.
  Lemma duoM_get {S} (s t : S) (Q : S -> S -> S -> S -> Prop) : Q s s t t -> duoM getM getM s t Q.
  Proof. intros. apply duo_ret. assumption. Qed.
  Lemma duoM_put {S} (s t s' t' : S) (Q : S -> unit -> S -> unit -> Prop) : Q s' tt t' tt -> duoM (putM s') (putM t') s t Q.
  Proof. intros. apply duo_ret. assumption. Qed.
  Lemma duoM_lift {S A} (p q : prog A) (s t : S) (Q : S -> A -> S -> A -> Prop) : duo p q (fun a b => Q s a t b) -> duoM (liftM p) (liftM q) s t Q.
  Proof. intros H. unfold duoM, liftM. apply duo_bind. eapply duo_mono; [|exact H]. intros a b HQ. apply duo_ret. exact HQ. Qed.
  Lemma duoM_res {S A} (p q : res A) (s t : S) (Q : S -> A -> S -> A -> Prop) :
    (forall a b, p = Ok a -> q = Ok b -> Q s a t b) -> duoM (resM p) (resM q) s t Q.
  Proof.
    intros H. destruct p, q; cbv [duoM resM liftM of_res bind]; try apply duo_fail_l; try apply duo_fail_r. apply duo_ret. cbn. auto.
  Qed.
End Duo.
