(** Operations after which a party can return before its messages have arrived. *)
From Coq Require Import ZifyBool ZifyNat.
From Verif Require Import Base Ring RingProofs Prog Sched Rel Rng Net BinTrait Iris IrisSpec IrisProofs MpcSpec ShareSpec Protocol Aby3 Aby3Proofs Aby3Proofs2
  BinProofs AddProofs SlicedProofs BitArith Jmp JmpProofs Aby3Mal Aby3MalProofs Aby3MalProofs2 ProtocolProofs Shutdown ShutdownProofs.

(** Somebody has returned although a message of his is still under way. *)
Definition racy {A} (P : pid -> prog A) : Prop :=
  exists s d i j, steps s (start P) d /\ over (get (progs d) i) /\ qget (qs d) i j <> [].
Definition racyM {S A} (P : pid -> M S A) (s : pid -> S) : Prop := racy (fun i => P i (s i)).

Lemma racy_ext {A} (P P' : pid -> prog A) : (forall i, P i = P' i) -> racy P -> racy P'.
Proof. intros HP. unfold racy, start, tabulate. rewrite !HP. auto. Qed.
Lemma racy_bind {A B} (P : pid -> prog A) (K : pid -> A -> prog B) :
  wp P (fun R => racy (fun i => K i (R i))) -> racy (fun i => bind (P i) (K i)).
Proof.
  intros (R & [s Hs] & s' & d & i & j & H1 & H2 & H3). exists (s ++ s'), d, i, j. split; [|auto]. eapply steps_app; [|exact H1]. exact (bind_steps _ _ _ K Hs).
Qed.
Lemma racyM_bind {S A B} (P : pid -> M S A) (F : pid -> A -> M S B) s :
  wpM P s (fun s' a => racyM (fun i => F i (a i)) s') -> racyM (fun i => bindM (P i) (F i)) s.
Proof. intros H. unfold racyM, bindM. apply racy_bind. exact H. Qed.
Lemma racy_bind_l {A B} (P : pid -> prog A) (K : pid -> A -> prog B) : (forall i a, over (K i a)) -> racy P -> racy (fun i => bind (P i) (K i)).
Proof.
  intros HK (s & d & i & j & H1 & H2 & H3). exists s, (bind_cfg d K), i, j. split; [exact (bind_steps _ _ _ K H1)|]. split; [|exact H3].
  cbn [bind_cfg progs]. rewrite get_tabulate. destruct (get (progs d) i); try contradiction; cbn [bind]; [apply HK|exact I].
Qed.

(** Programs that first send and then receive *)
Inductive takes {A} : prog A -> Prop :=
| tk_ret a : takes (Ret a)
| tk_fail e : takes (Fail e)
| tk_recv from k : (forall m, takes (k m)) -> takes (Recv from k).
Inductive gives {A} : prog A -> Prop :=
| gv_takes p : takes p -> gives p
| gv_send to m k : gives k -> gives (Send to m k).
Lemma takes_res {A} (r : res A) : takes (of_res r).
Proof. destruct r; constructor. Qed.
Lemma takes_bind {A B} (p : prog A) (f : A -> prog B) : takes p -> (forall a, takes (f a)) -> takes (bind p f).
Proof. intros H Hf. induction H as [a|e|from k Hk IH]; cbn [bind]; [apply Hf|constructor|constructor; exact IH]. Qed.
Lemma gives_bind {A B} (p : prog A) (f : A -> prog B) : gives p -> (forall a, takes (f a)) -> gives (bind p f).
Proof. intros H Hf. induction H as [p H|to m k H IH]; cbn [bind]; [constructor; apply takes_bind; assumption|constructor; exact IH]. Qed.

(** What party p can do on its own with what is in its queues *)
Inductive drains {A} : (pid -> list msg) -> prog A -> Prop :=
| dr_over q p : over p -> drains q p
| dr_recv q from k m rest : q from = m :: rest -> drains (fun f => if pid_eqb from f then rest else q f) (k m) -> drains q (Recv from k).
Lemma drains_ext {A} q q' (p : prog A) : (forall f, q f = q' f) -> drains q p -> drains q' p.
Proof.
  intros Hq H. revert q' Hq. induction H as [q p H|q from k m rest E H IH]; intros q' Hq; [constructor; exact H|].
  eapply dr_recv; [rewrite <- Hq; exact E|]. apply IH. intros f. destruct (pid_eqb from f); auto.
Qed.
Lemma drains_of {A} (R : pid -> A) p s : forall d, steps s d (finished R) -> (forall i, takes (get (progs d) i)) ->
  drains (fun f => qget (qs d) f p) (get (progs d) p).
Proof.
  induction s as [|i s IH]; intros d H Ht.
  - inversion H; subst. constructor. unfold finished. cbn [progs]. rewrite get_tabulate. exact I.
  - inversion H as [|? ? ? d' ? Hs Hr]; subst. destruct Hs as [d to m k E|d from k m rest E Eq].
    + exfalso. specialize (Ht i). rewrite E in Ht. inversion Ht.
    + assert (Ht' : forall j, takes (get (progs (Cfg (set (progs d) i (k m)) (qset (qs d) from i rest))) j)).
      { intros j. cbn [progs]. destruct (pid_eqb_spec i j) as [<-|Hne]; [|rewrite get_set_ne by exact Hne; apply Ht].
        rewrite get_set_eq. specialize (Ht i). rewrite E in Ht. inversion Ht. auto. }
      specialize (IH _ Hr Ht'). cbn [progs qs] in IH. destruct (pid_eqb_spec i p) as [->|Hne].
      * rewrite get_set_eq in IH. rewrite E. eapply dr_recv; [exact Eq|]. eapply drains_ext; [|exact IH]. intros f. cbv beta.
        destruct (pid_eqb_spec from f) as [<-|Hf]; [apply qget_qset_eq|apply qget_qset_ne; congruence].
      * rewrite get_set_ne in IH by exact Hne. eapply drains_ext; [|exact IH]. intros f. cbv beta. apply qget_qset_ne. congruence.
Qed.
Lemma drains_run {A} p q (x : prog A) : drains q x -> forall d : cfg A, get (progs d) p = x -> (forall f, qget (qs d) f p = q f) ->
  exists s d', steps s d d' /\ over (get (progs d') p) /\ forall i j, j <> p -> qget (qs d') i j = qget (qs d) i j.
Proof.
  induction 1 as [q x H|q from k m rest E H IH]; intros d Ex Eq.
  - exists [], d. split; [constructor|]. rewrite Ex. auto.
  - destruct (IH (Cfg (set (progs d) p (k m)) (qset (qs d) from p rest))) as (s & d' & G1 & G2 & G3); cbn [progs qs].
    + apply get_set_eq.
    + intros f. destruct (pid_eqb_spec from f) as [<-|Hf]; [apply qget_qset_eq|rewrite qget_qset_ne by congruence; apply Eq].
    + exists (p :: s), d'. split; [econstructor; [eapply step_recv; [exact Ex|rewrite Eq; exact E]|exact G1]|]. split; [exact G2|].
      intros i j Hj. rewrite (G3 i j Hj). cbn [qs]. apply qget_qset_ne. congruence.
Qed.
(* party i sends everything it has to send *)
Lemma gives_run {A} i (p : prog A) : gives p -> forall d : cfg A, get (progs d) i = p ->
  exists s d', steps s d d' /\ takes (get (progs d') i) /\ (forall j, j <> i -> get (progs d') j = get (progs d) j) /\
    forall a b, exists l, qget (qs d') a b = qget (qs d) a b ++ l /\ (forall m k, p = Send b m k -> a = i -> l <> []).
Proof.
  induction 1 as [p H|to m k H IH]; intros d E.
  - exists [], d. split; [constructor|]. split; [rewrite E; exact H|]. split; [auto|]. intros a b. exists []. rewrite app_nil_r. split; [reflexivity|].
    intros m k -> . inversion H.
  - destruct (IH (Cfg (set (progs d) i k) (qset (qs d) i to (qget (qs d) i to ++ [m])))) as (s & d' & G1 & G2 & G3 & G4); [apply get_set_eq|].
    exists (i :: s), d'. split; [econstructor; [apply step_send; exact E|exact G1]|]. split; [exact G2|]. split.
    + intros j Hj. rewrite (G3 j Hj). cbn [progs]. apply get_set_ne. congruence.
    + intros a b. destruct (G4 a b) as (l & El & _). cbn [qs] in El. destruct (qpair_dec i to a b) as [D|D].
      * injection D as <- <-. rewrite qget_qset_eq, <- app_assoc in El. exists ([m] ++ l). split; [exact El|]. intros. discriminate.
      * rewrite qget_qset_ne in El by exact D. exists l. split; [exact El|]. intros m' k' E' ->. injection E' as -> _ _. congruence.
Qed.

Lemma racy_exchange {A} (P : pid -> prog A) R i j m k : evals P R -> (forall a, gives (P a)) -> P i = Send j m k -> j <> i -> racy P.
Proof.
  intros HE Hg Ei Hj.
  assert (G0 : forall l : list pid, NoDup l -> exists s d, steps s (start P) d /\ (forall a, In a l -> takes (get (progs d) a)) /\ (forall a, ~ In a l -> get (progs d) a = P a) /\
             (In i l -> qget (qs d) i j <> [])).
  { induction l as [|a l IH]; intros Hn.
    - exists [], (start P). split; [constructor|]. split; [intros ? []|]. split; [intros; apply get_tabulate|intros []].
    - inversion Hn as [|? ? Ha Hn']; subst. destruct (IH Hn') as (s & d & H1 & H2 & H3 & H4).
      destruct (gives_run a (P a) (Hg a) d (H3 a Ha)) as (s' & d' & G1 & G2 & G3 & G4). exists (s ++ s'), d'. split; [eapply steps_app; eassumption|]. split; [|split].
      + intros b Hb. destruct (pid_eqb_spec a b) as [<-|Hne]; [exact G2|]. rewrite G3 by congruence. apply H2. destruct Hb; [congruence|assumption].
      + intros b Hb. rewrite G3 by (intros ->; apply Hb; left; reflexivity). apply H3. intros Hb'. apply Hb. right. exact Hb'.
      + intros Hi. destruct (G4 i j) as (l' & El & Hl). rewrite El. destruct Hi as [<-|Hi].
        * intros C. apply app_eq_nil in C. destruct C as [_ C]. exact (Hl m k Ei eq_refl C).
        * intros C. apply app_eq_nil in C. destruct C as [C _]. exact (H4 Hi C). }
  destruct (G0 [P0; P1; P2]) as (s & d & H1 & H2 & _ & H4); [repeat constructor; cbn; intuition discriminate|].
  assert (Hall : forall a, In a [P0; P1; P2]) by (intros []; cbn; auto).
  destruct (completes P R HE s d H1) as [s' Hf].
  pose proof (drains_of R i s' d Hf (fun a => H2 a (Hall a))) as D.
  destruct (drains_run i _ _ D d eq_refl (fun f => eq_refl)) as (s2 & d2 & F1 & F2 & F3).
  exists (s ++ s2), d2, i, j. split; [eapply steps_app; eassumption|]. split; [exact F2|]. rewrite F3 by exact Hj. apply H4, Hall.
Qed.

(** The iris protocol on any engine whose opening is such an operation *)
Section Contract.
  Context {Gh S A B : Type}.
  Variable E : pid -> mpc S A B.
  Variable K : Z.
  Variables (AR : (pid -> A) -> Z -> Prop) (BR : (pid -> B) -> bool -> Prop) (Inv : Gh -> (pid -> S) -> Prop).
  Variables (g_pre : Z -> Gh -> Gh) (g_dot g_msb : nat -> Gh -> Gh) (g_or : nat -> nat -> Gh -> Gh) (ver_ok : Gh -> Prop) (g_ver : Gh -> Gh).
  Hypothesis OK : mpc_ok E K AR BR Inv g_pre g_dot g_msb g_or ver_ok g_ver.
  Hypothesis HK : 16 <= K.
  Variable signed : bool.
  Hypothesis HR : forall g s X b, Inv g s -> BR X b -> racyM (fun i => m_open_bit (E i) (X i)) s.

  Theorem iris_in_db_racy g s X a DB (bs : list iris) chunk : Inv g s -> wf_iris a -> Forall wf_iris bs ->
    Forall (enough_valid a) bs -> (0 < length bs)%nat -> (0 < chunk)%nat ->
    RL AR X (code_vals (ir_code a)) -> RL (RL AR) DB (map (fun b => code_vals (ir_code b)) bs) ->
    ver_ok (g_db K g_pre g_dot g_msb g_or (length bs) chunk g) ->
    racyM (fun i => iris_in_db (E i) signed (X i) (DB i) (ir_mask a) (map ir_mask bs) chunk) s.
  Proof using OK HK HR.
    intros Hs Ha Hbs Hv Hl Hc HX HD Hver. unfold iris_in_db.
    pose (N := triples_requested K (Z.of_nat (length bs)) (Z.of_nat chunk)).
    pose (body := fun i acc (dm : list (list A) * list code) => bindM (compare_iris_many (E i) signed (X i) (fst dm) (ir_mask a) (snd dm)) (fun r => retM (acc ++ r))).
    apply (racy_ext (fun i => bindM (m_precompute (E i) N) (fun _ =>
      bindM (foldM (body i) (combine (chunks chunk (DB i)) (map (map ir_mask) (chunks chunk bs))) []) (fun bool_shares =>
      bindM (m_reduce_binary_or (E i) bool_shares chunk) (fun res =>
      bindM (unwrapM (m_verify (E i))) (fun _ => m_open_bit (E i) res)))) (s i))).
    { intros i. rewrite (RL_length _ _ _ HD), !map_length, Nat.eqb_refl.
      replace (Nat.eqb (length bs) 0) with false by (symmetry; apply Nat.eqb_neq; lia).
      replace (Nat.eqb chunk 0) with false by (symmetry; apply Nat.eqb_neq; lia). cbn [negb orb].
      rewrite chunks_map. unfold num_and_triples, msb_and_gates. rewrite (mo_width _ _ _ _ _ _ _ _ _ _ _ OK). reflexivity. }
    unfold body. apply (racyM_bind (fun i => m_precompute (E i) N)).
    eapply wpM_mono; [|apply (mo_pre _ _ _ _ _ _ _ _ _ _ _ OK g s N Hs)]. cbn beta. intros s1 _ Hs1.
    apply (racyM_bind (fun i => foldM (body i) (combine (chunks chunk (DB i)) (map (map ir_mask) (chunks chunk bs))) [])).
    assert (HCh : RL (RL (RL AR)) (fun i => chunks chunk (DB i)) (map (map (fun b => code_vals (ir_code b))) (chunks chunk bs))).
    { rewrite <- chunks_map. apply RL_chunks, HD. }
    eapply wpM_mono; [|apply (compare_chunks_ok E K AR BR Inv g_pre g_dot g_msb g_or ver_ok g_ver OK HK signed a X (chunks chunk bs) Ha HX) with (g := g_pre N g) (s := s1) (acc := fun _ => []) (accs := @nil bool); auto].
    2:{ apply chunks_fuel_nonempty, Hc. }
    2:{ apply Forall_concat. rewrite chunks_concat by exact Hc. exact Hbs. }
    2:{ apply Forall_concat. rewrite chunks_concat by exact Hc. exact Hv. }
    2:{ apply RL_nil'. }
    cbn beta. intros s2 W [Hs2 HW]. cbn [app] in HW. rewrite <- concat_map, chunks_concat in HW by exact Hc.
    apply (racyM_bind (fun i => m_reduce_binary_or (E i) (W i) chunk)).
    eapply wpM_mono; [|eapply (mo_or _ _ _ _ _ _ _ _ _ _ _ OK _ s2 W _ chunk Hs2 Hc); [|exact HW]; rewrite map_length; exact Hl].
    cbn beta. intros s3 V [Hs3 HV]. rewrite map_length in Hs3.
    apply (racyM_bind (fun i => unwrapM (m_verify (E i)))). apply wpM_unwrap.
    rewrite <- (chunk_sizes_spec) in Hs3. fold (g_db K g_pre g_dot g_msb g_or (length bs) chunk g) in Hs3.
    eapply wpM_mono; [|apply (mo_ver _ _ _ _ _ _ _ _ _ _ _ OK _ s3 Hs3 Hver)]. cbn beta. intros s4 _ Hs4.
    apply (HR _ s4 V _ Hs4 HV).
  Qed.
End Contract.
