(** The three stages of Swift3's verify, in an execution with one malicious party. *)
From Verif Require Import Base Ring Prog Sched Conc Duo CheatSpec Rng Rel Net Aby3 Jmp JmpProofs Poly Dzkp Galois Swift3 Swift3Setup Swift3SetupProofs Swift3Verify Swift3VerifyProofs Swift3VerifyDuo.
Local Open Scope list_scope.

(** An execution, taken as one stretch. *)
Theorem finish_end {A} i (p q : prog A) P c tr : both_finish i p q P c tr -> both_end i p q tr.
Proof.
  intros (Ei & Ej & HB & (_ & L & Q) & (x & Hi) & (y & Hj)). split; [|split; [|split]].
  - exists x. rewrite <- Ei, <- Hi. apply L.
  - exists y. rewrite <- Ej, <- Hj. apply L.
  - intros a b _ _. eexists. apply Q.
  - intros k. exact (HB _ _ k (L (prev i))).
Qed.

(** ** What a finished run leaves in the state *)
Definition leaves {S A} (p : M S A) (f : S -> S) : Prop := forall s tr s' a, lrun (p s) tr (Ret (s', a)) -> s' = f s.
Definition keeps {S A} (p : M S A) : Prop := leaves p (fun s => s).
Lemma leaves_bind {S A B} (p : M S A) (f : A -> M S B) g : leaves p g -> (forall a, keeps (f a)) -> leaves (bindM p f) g.
Proof.
  intros H1 H2 s tr s' b L. unfold bindM in L. apply lrun_bind in L. destruct L as (t1 & [s1 a] & t2 & L1 & L2 & ->).
  apply H1 in L1. apply H2 in L2. cbn [fst snd] in L2. congruence.
Qed.
Lemma keeps_then {S A B} (p : M S A) (f : A -> M S B) g : keeps p -> (forall a, leaves (f a) g) -> leaves (bindM p f) g.
Proof.
  intros H1 H2 s tr s' b L. unfold bindM in L. apply lrun_bind in L. destruct L as (t1 & [s1 a] & t2 & L1 & L2 & ->).
  apply H1 in L1. apply H2 in L2. cbn [fst snd] in L2. congruence.
Qed.
Lemma keeps_bind {S A B} (p : M S A) (f : A -> M S B) : keeps p -> (forall a, keeps (f a)) -> keeps (bindM p f).
Proof. intros H1 H2. apply leaves_bind; assumption. Qed.
Lemma keeps_ret {S A} (a : A) : @keeps S A (retM a).
Proof. intros s tr s' b L. inversion L; reflexivity. Qed.
Lemma keeps_fail {S A} e : @keeps S A (failM e).
Proof. intros s tr s' b L. inversion L. Qed.
Lemma keeps_lift {S A} (p : prog A) : @keeps S A (liftM p).
Proof. intros s tr s' b L. unfold liftM in L. apply lrun_bind in L. destruct L as (t1 & a & t2 & L1 & L2 & _). inversion L2; reflexivity. Qed.
Lemma keeps_res {S A} (r : res A) : @keeps S A (resM r).
Proof. apply keeps_lift. Qed.

Definition seeded G (s : sst G) : sst G := w_set_p G s (fst (draw_bytes G 32 (w_p G s))).
Lemma dz_leaves {A} (O : rops A) red eqb n cf enc dec G H draw_el again fuel i l m lag coords V Vp Vn ent :
  leaves (dz_verify O red eqb n cf enc dec G H draw_el again fuel i l m lag coords V Vp Vn ent) (seeded G).
Proof.
  unfold dz_verify. apply leaves_bind; [|intros; apply keeps_res]. unfold dz_exchange. apply leaves_bind.
  - intros s tr s' a L. unfold gen_seed, seeded in *. destruct (draw_bytes G 32 (w_p G s)). inversion L. reflexivity.
  - intros seed. apply keeps_bind; [apply keeps_res|]. intros pr. apply keeps_bind.
    { unfold exchange_proofs. apply keeps_bind; [apply keeps_lift|]. intros b. apply keeps_bind; [apply keeps_res|]. intros p. apply keeps_bind; [apply keeps_lift|]. intros sn. destruct (negb _); [apply keeps_fail|apply keeps_ret]. }
    intros ps. destruct (draw_bytes G 32 (fst pr)) as [s1 cs]. destruct (draw_bytes G 32 s1) as [s2 cr]. apply keeps_bind.
    { unfold w_coin. apply keeps_bind; [apply keeps_lift|]. intros r. destruct (_ || _); [apply keeps_fail|]. apply keeps_bind; [apply keeps_lift|]. intros q. destruct (_ || _); [apply keeps_fail|].
      destruct (negb _); [apply keeps_fail|]. destruct (negb _); [apply keeps_fail|]. apply keeps_ret. }
    intros coin. destruct (draw_three G draw_el m (rseed G coin)) as [s3 betas]. apply keeps_bind; [apply keeps_res|]. intros sp. apply keeps_bind; [apply keeps_res|]. intros sn.
    apply keeps_bind; [apply keeps_lift|]. intros b. apply keeps_bind; [apply keeps_res|]. intros rcv. apply keeps_ret.
Qed.
(** How many messages a party exchanges in one stage. *)
Definition counts i (tr : list act) : Prop :=
  length (rcvd_from (prev i) tr) = 4%nat /\ length (rcvd_from (next i) tr) = 3%nat /\ length (sent_to (next i) tr) = 4%nat /\ length (sent_to (prev i) tr) = 3%nat.
Lemma dz_counts {A} (O : rops A) red eqb n cf enc dec G H draw_el again fuel i l m lag coords V Vp Vn ent (s : sst G) tr x :
  lrun (dz_verify O red eqb n cf enc dec G H draw_el again fuel i l m lag coords V Vp Vn ent s) tr (Ret x) -> counts i tr.
Proof.
  intros L. destruct (dz_local _ _ _ _ _ _ _ _ _ _ _ _ _ _ _ _ _ _ _ _ _ _ _ _ L) as (pr & _ & m1 & c1 & o1 & sh & m2 & c2 & o2 & p1 & coin & sp & sn & rcv & A1 & A2 & A3 & A4 & _).
  unfold counts. rewrite A1, A2, A3, A4. auto.
Qed.

Section Stages.
  Variables (G : rng) (H : hasher) (K : Z) (fuel : nat) (i : pid).
  Notation seed p := (fst (draw_bytes G 32 p)).
  Lemma mul_stage ent (s : sst G) tr s' u : lrun (mul_verify G H K fuel i ent s) tr (Ret (s', u)) ->
    counts i tr /\ w_p G s' = seed (w_p G s) /\ w_and G s' = w_and G s /\ w_dot G s' = w_dot G s.
  Proof.
    intros L. unfold mul_verify, getM, bindM at 1 in L. cbn [bind fst snd] in L. destruct (calc_params _) as [l m]. destruct (Nat.ltb _ _); [inversion L|].
    unfold gr_verify, bindM, resM, liftM, putM in L. destruct (irreducible_poly _) as [f|e]; [|inversion L]. cbn [of_res bind fst snd] in L. destruct (gr_lagrange _ _ _) as [lag|e]; [|inversion L]. cbn [of_res bind fst snd] in L.
    split; [exact (dz_counts _ _ _ _ _ _ _ _ _ _ _ _ _ _ _ _ _ _ _ _ _ _ _ _ L)|]. apply dz_leaves in L. subst s'. destruct s; cbn; auto.
  Qed.
  Lemma and_stage ent (s : sst G) tr s' u : lrun (and_verify G H fuel i ent s) tr (Ret (s', u)) ->
    counts i tr /\ w_p G s' = seed (w_p G s) /\ w_mul G s' = w_mul G s /\ w_dot G s' = w_dot G s.
  Proof.
    intros L. unfold and_verify, getM, bindM at 1 in L. cbn [bind fst snd] in L. destruct (calc_params _) as [l m]. unfold and_set_parameters, getM, bindM in L. cbn [bind fst snd] in L. destruct (Nat.ltb _ _); [inversion L|]. destruct (negb _); [inversion L|].
    unfold resM, liftM, putM in L. cbn [bind fst snd] in L. destruct (gf_lagrange _) as [lag|e]; [|inversion L]. cbn [of_res bind fst snd] in L.
    split; [exact (dz_counts _ _ _ _ _ _ _ _ _ _ _ _ _ _ _ _ _ _ _ _ _ _ _ _ L)|]. apply dz_leaves in L. subst s'. destruct s; cbn; auto.
  Qed.
  Lemma dot_stage ent (s : sst G) tr s' u : lrun (dot_verify G H K fuel i ent s) tr (Ret (s', u)) -> counts i tr.
  Proof.
    intros L. unfold dot_verify, getM, bindM at 1 in L. cbn [bind fst snd] in L. destruct (dot_params _ _) as [l m]. destruct (Nat.ltb _ _); [inversion L|].
    unfold gr_verify, bindM, resM, liftM, putM in L. destruct (irreducible_poly _) as [f|e]; [|inversion L]. cbn [of_res bind fst snd] in L. destruct (gr_lagrange _ _ _) as [lag|e]; [|inversion L]. cbn [of_res bind fst snd] in L.
    exact (dz_counts _ _ _ _ _ _ _ _ _ _ _ _ _ _ _ _ _ _ _ _ _ _ _ _ L).
  Qed.
  (** The local run of verify. *)
  Definition after (b : bool) (p : rstate G) : rstate G := if b then seed p else p.
  Definition stage_trace (b : bool) (tr : list act) : Prop := if b then counts i tr else tr = [].
  Lemma verify_local em ea ed (s : sst G) tr x : lrun (sw_verify G H K fuel i em ea ed s) tr (Ret x) ->
    let bm := nonempty (w_mul G s) in let ba := nonempty (w_and G s) in let bd := nonempty (dr_entries (w_dot G s)) in
    exists s1 s2 t1 t2 t3, tr = t1 ++ t2 ++ t3 /\ stage_trace bm t1 /\ stage_trace ba t2 /\ stage_trace bd t3 /\
      w_p G s1 = after bm (w_p G s) /\ w_and G s1 = w_and G s /\ w_p G s2 = after ba (w_p G s1) /\ w_dot G s2 = w_dot G s /\
      (bm = true -> exists x, lrun (mul_verify G H K fuel i em s) t1 (Ret x)) /\
      (ba = true -> exists x, lrun (and_verify G H fuel i ea s1) t2 (Ret x)) /\
      (bd = true -> exists x, lrun (dot_verify G H K fuel i ed s2) t3 (Ret x)).
  Proof.
    intros L bm ba bd. unfold sw_verify in L. unfold bindM at 1 in L. apply lrun_bind in L. destruct L as (t1 & [s1 []] & t' & L1 & L & ->). cbn [fst snd] in L.
    unfold bindM at 1 in L. apply lrun_bind in L. destruct L as (t2 & [s2 []] & t3 & L2 & L3 & ->). cbn [fst snd] in L3.
    unfold getM, bindM in L1, L2, L3. cbn [bind fst snd] in L1, L2, L3. fold bm in L1.
    assert (E1 : stage_trace bm t1 /\ w_p G s1 = after bm (w_p G s) /\ w_and G s1 = w_and G s /\ w_dot G s1 = w_dot G s /\ (bm = true -> exists x, lrun (mul_verify G H K fuel i em s) t1 (Ret x))).
    { unfold stage_trace, after. destruct bm.
      - destruct (mul_stage em s t1 s1 tt L1) as (? & ? & ? & ?). repeat (split; [assumption|]). eauto.
      - inversion L1; subst. repeat (split; [reflexivity|]). discriminate. }
    destruct E1 as (T1 & P1 & A1 & D1 & R1). rewrite A1 in L2. fold ba in L2.
    assert (E2 : stage_trace ba t2 /\ w_p G s2 = after ba (w_p G s1) /\ w_dot G s2 = w_dot G s1 /\ (ba = true -> exists x, lrun (and_verify G H fuel i ea s1) t2 (Ret x))).
    { unfold stage_trace, after. destruct ba.
      - destruct (and_stage ea s1 t2 s2 tt L2) as (? & ? & ? & ?). repeat (split; [assumption|]). eauto.
      - inversion L2; subst. repeat (split; [reflexivity|]). discriminate. }
    destruct E2 as (T2 & P2 & D2 & R2). rewrite D2, D1 in L3. fold bd in L3.
    assert (E3 : stage_trace bd t3 /\ (bd = true -> exists x, lrun (dot_verify G H K fuel i ed s2) t3 (Ret x))).
    { unfold stage_trace. destruct bd.
      - destruct x as [s3 []]. split; [exact (dot_stage ed s2 t3 s3 tt L3)|eauto].
      - inversion L3; subst. split; [reflexivity|discriminate]. }
    destruct E3 as (T3 & R3). exists s1, s2, t1, t2, t3. repeat (split; [first [assumption|reflexivity|congruence]|]). assumption.
  Qed.
End Stages.

(** ** Both parties *)
Lemma app_split {A} (a b c d : list A) : length a = length c -> a ++ b = c ++ d -> a = c /\ b = d.
Proof. revert c. induction a as [|x a IH]; intros [|y c] L E; try discriminate; [auto|]. cbn in *. injection L as L. injection E as -> E. destruct (IH c L E). subst. auto. Qed.
(** The stretch of a stage: what i and next i did, and the messages they received from the third. *)
Definition stretch i (ti tj : list act) (k : pid) : list act :=
  if pid_eqb k i then ti else if pid_eqb k (next i) then tj else map (ASend i) (rcvd_from (prev i) ti) ++ map (ASend (next i)) (rcvd_from (prev i) tj).
Lemma stretch_i i ti tj : stretch i ti tj i = ti.
Proof. destruct i; reflexivity. Qed.
Lemma stretch_j i ti tj : stretch i ti tj (next i) = tj.
Proof. destruct i; reflexivity. Qed.
Lemma sent_map k to ms : sent_to k (map (ASend to) ms) = if pid_eqb to k then ms else [].
Proof. induction ms as [|m ms IH]; cbn; [destruct (pid_eqb to k); reflexivity|]. rewrite IH. destruct (pid_eqb to k); reflexivity. Qed.
Lemma stretch_k i ti tj : sent_to i (stretch i ti tj (prev i)) = rcvd_from (prev i) ti /\ sent_to (next i) (stretch i ti tj (prev i)) = rcvd_from (prev i) tj /\ sent_to (prev i) (stretch i ti tj (prev i)) = [].
Proof.
  unfold stretch. replace (pid_eqb (prev i) i) with false by (destruct i; reflexivity). replace (pid_eqb (prev i) (next i)) with false by (destruct i; reflexivity).
  rewrite !sent_app, !sent_map. destruct i; cbn; rewrite ?app_nil_r; auto.
Qed.
Lemma stage_align i b (ti ti' tj tj' : list act) r1 r2 : stage_trace i b ti -> stage_trace (next i) b tj ->
  rcvd_from i (tj ++ tj') ++ r1 = sent_to (next i) (ti ++ ti') -> rcvd_from (next i) (ti ++ ti') ++ r2 = sent_to i (tj ++ tj') ->
  rcvd_from i tj = sent_to (next i) ti /\ rcvd_from (next i) ti = sent_to i tj /\ rcvd_from i tj' ++ r1 = sent_to (next i) ti' /\ rcvd_from (next i) ti' ++ r2 = sent_to i tj'.
Proof.
  intros H1 H2 E1 E2. assert (L : length (rcvd_from i tj) = length (sent_to (next i) ti) /\ length (rcvd_from (next i) ti) = length (sent_to i tj)).
  { destruct b; cbn in H1, H2; [|subst; auto]. unfold counts in H1, H2. replace (prev (next i)) with i in H2 by (destruct i; reflexivity). destruct H1 as (? & ? & ? & ?). destruct H2 as (? & ? & ? & ?). lia. }
  rewrite !rcvd_app, !sent_app, <- !app_assoc in E1, E2. destruct L as [L1 L2]. apply (app_split _ _ _ _ L1) in E1. apply (app_split _ _ _ _ L2) in E2. intuition.
Qed.
Lemma stretch_end {A} i (p q : prog A) ti tj : (exists x, lrun p ti (Ret x)) -> (exists y, lrun q tj (Ret y)) -> rcvd_from i tj = sent_to (next i) ti -> rcvd_from (next i) ti = sent_to i tj ->
  Forall bytes (rcvd_from (prev i) ti) -> Forall bytes (rcvd_from (prev i) tj) -> both_end i p q (stretch i ti tj).
Proof.
  intros Hp Hq E1 E2 B1 B2. destruct (stretch_k i ti tj) as (S1 & S2 & S3). unfold both_end. rewrite stretch_i, stretch_j. split; [exact Hp|]. split; [exact Hq|]. split.
  - intros a b Hb Hab. exists []. rewrite app_nil_r.
    assert (Cb : b = i \/ b = next i) by (destruct i, b; auto; destruct Hb; reflexivity).
    assert (Ca : a = i \/ a = next i \/ a = prev i) by (destruct i, a; auto).
    destruct Cb as [->| ->]; rewrite ?stretch_i, ?stretch_j; destruct Ca as [->|[->| ->]]; rewrite ?stretch_i, ?stretch_j; try congruence.
  - intros k. assert (Ck : k = i \/ k = next i \/ k = prev i) by (destruct i, k; auto). destruct Ck as [->|[->| ->]]; rewrite ?S1, ?S2, ?S3; auto.
Qed.

Section Both.
  Variables (G : rng) (H : hasher) (K : Z) (fuel : nat) (i : pid).
  Notation j := (next i).
  Lemma bool_ends (b : bool) (p q : prog (sst G * unit)) ti tj :
    (b = true -> exists x, lrun p ti (Ret x)) -> (b = true -> exists x, lrun q tj (Ret x)) -> rcvd_from i tj = sent_to (next i) ti -> rcvd_from (next i) ti = sent_to i tj ->
    Forall bytes (rcvd_from (prev i) ti) -> Forall bytes (rcvd_from (prev i) tj) -> b = true -> both_end i p q (stretch i ti tj).
  Proof. intros H1 H2 E1 E2 B1 B2 Hb. apply stretch_end; auto. Qed.
  Theorem verify_stages eim eia eid ejm eja ejd (s t : sst G) tr :
    let bm := nonempty (w_mul G s) in let ba := nonempty (w_and G s) in let bd := nonempty (dr_entries (w_dot G s)) in
    nonempty (w_mul G t) = bm -> nonempty (w_and G t) = ba -> nonempty (dr_entries (w_dot G t)) = bd -> w_p G t = w_p G s ->
    both_end i (sw_verify G H K fuel i eim eia eid s) (sw_verify G H K fuel j ejm eja ejd t) tr ->
    exists s1 s2 t1 t2 tr1 tr2 tr3,
      (bm = true -> both_end i (mul_verify G H K fuel i eim s) (mul_verify G H K fuel j ejm t) tr1) /\
      (ba = true -> both_end i (and_verify G H fuel i eia s1) (and_verify G H fuel j eja t1) tr2) /\
      (bd = true -> both_end i (dot_verify G H K fuel i eid s2) (dot_verify G H K fuel j ejd t2) tr3) /\
      w_p G s1 = after G bm (w_p G s) /\ w_p G t1 = w_p G s1 /\ w_and G s1 = w_and G s /\ w_and G t1 = w_and G t /\
      w_p G s2 = after G ba (w_p G s1) /\ w_p G t2 = w_p G s2 /\ w_dot G s2 = w_dot G s /\ w_dot G t2 = w_dot G t /\
      (forall k, k <> prev i -> tr k = tr1 k ++ tr2 k ++ tr3 k /\
        exists rest, sent_to k (tr (prev i)) = sent_to k (tr1 (prev i)) ++ sent_to k (tr2 (prev i)) ++ sent_to k (tr3 (prev i)) ++ rest).
  Proof.
    intros bm ba bd Em Ea Ed Hp ((x & Li) & (y & Lj) & Q & HB).
    destruct (verify_local G H K fuel i _ _ _ _ _ _ Li) as (s1 & s2 & a1 & a2 & a3 & Ei & X1 & X2 & X3 & X4 & X5 & X6 & X7 & X8 & X9 & X10).
    destruct (verify_local G H K fuel j _ _ _ _ _ _ Lj) as (t1 & t2 & b1 & b2 & b3 & Ej & Y1 & Y2 & Y3 & Y4 & Y5 & Y6 & Y7 & Y8 & Y9 & Y10).
    cbv zeta in *. fold bm ba bd in X1, X2, X3, X4, X6, X8, X9, X10. rewrite Em, Ea, Ed in *.
    destruct (Q i j) as (r1 & Q1); [destruct i; discriminate|destruct i; discriminate|]. destruct (Q j i) as (r2 & Q2); [destruct i; discriminate|destruct i; discriminate|].
    destruct (Q (prev i) i) as (r3 & Q3); [destruct i; discriminate|destruct i; discriminate|]. destruct (Q (prev i) j) as (r4 & Q4); [destruct i; discriminate|destruct i; discriminate|].
    rewrite Ei, Ej in Q1, Q2. destruct (stage_align i bm _ _ _ _ _ _ X1 Y1 Q1 Q2) as (Z1 & Z2 & Q1' & Q2'). destruct (stage_align i ba _ _ _ _ _ _ X2 Y2 Q1' Q2') as (Z3 & Z4 & Q1'' & Q2'').
    rewrite <- (app_nil_r a3), <- (app_nil_r b3) in Q1'', Q2''. destruct (stage_align i bd _ _ _ _ _ _ X3 Y3 Q1'' Q2'') as (Z5 & Z6 & _). clear Q1 Q2 Q1' Q2' Q1'' Q2''.
    pose proof (HB i) as B1. pose proof (HB j) as B2. rewrite <- Q3 in B1. rewrite <- Q4 in B2. rewrite Ei in B1, Q3. rewrite Ej in B2, Q4. rewrite !rcvd_app, <- !app_assoc in B1, B2, Q3, Q4.
    repeat (apply Forall_app in B1; destruct B1 as [? B1]). repeat (apply Forall_app in B2; destruct B2 as [? B2]).
    exists s1, s2, t1, t2, (stretch i a1 b1), (stretch i a2 b2), (stretch i a3 b3).
    split; [apply bool_ends; assumption|]. split; [apply bool_ends; assumption|]. split; [apply bool_ends; assumption|].
    do 8 (split; [congruence|]). intros k Hk. destruct (stretch_k i a1 b1) as (U1 & V1 & _). destruct (stretch_k i a2 b2) as (U2 & V2 & _). destruct (stretch_k i a3 b3) as (U3 & V3 & _).
    assert (Ck : k = i \/ k = j) by (destruct i, k; auto; destruct Hk; reflexivity).
    destruct Ck as [->| ->]; rewrite ?stretch_i, ?stretch_j.
    - split; [exact Ei|]. exists r3. rewrite U1, U2, U3. symmetry. exact Q3.
    - split; [exact Ej|]. exists r4. rewrite V1, V2, V3. symmetry. exact Q4.
  Qed.
End Both.
