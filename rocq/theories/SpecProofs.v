(** Links between the proof vocabulary (RL, wpM) and the specification vocabulary. *)
From Verif Require Import Base Ring RingProofs Prog Sched Rel Iris IrisSpec IrisProofs BinTrait Protocol MpcSpec ShareSpec ProtocolProofs.

Lemma wpM_honest {S A} (P : pid -> M S A) s Q : wpM P s Q -> honest_run P s Q.
Proof.
  intros (R & HR & HQ). exists (fun i => fst (R i)), (fun i => snd (R i)). split; [|exact HQ].
  apply evals_always. eapply evals_ext; [reflexivity| |exact HR]. intros i. apply surjective_pairing.
Qed.
Lemma honest_mono {S A} (P : pid -> M S A) s (Q Q' : (pid -> S) -> (pid -> A) -> Prop) :
  (forall s' a, Q s' a -> Q' s' a) -> honest_run P s Q -> honest_run P s Q'.
Proof. intros H (s' & a & H1 & H2). exists s', a. auto. Qed.

Lemma RL_vec {A B} (R : (pid -> A) -> B -> Prop) X xs : RL R X xs -> vec_shared R X xs.
Proof.
  intros H. split; [intros i; apply (RL_length _ _ _ H)|]. intros n x Hn. apply (RL_nth_error _ _ _ _ _ H Hn).
Qed.
Lemma vec_RL {A B} (R : (pid -> A) -> B -> Prop) X xs : vec_shared R X xs -> RL R X xs.
Proof.
  revert X. induction xs as [|x xs IH]; intros X [Hl Hn].
  - apply RL_nil. intros i. specialize (Hl i). destruct (X i); [reflexivity|discriminate].
  - destruct (Hn 0%nat x eq_refl) as (Y & HY & HR).
    apply (RL_cons _ _ Y (fun i => tl (X i))).
    + intros i. specialize (HY i). destruct (X i) as [|y t]; [discriminate|]. cbn in *. congruence.
    + exact HR.
    + apply IH. split.
      * intros i. specialize (Hl i). destruct (X i); [discriminate|]. cbn in *. congruence.
      * intros n y Hy. destruct (Hn (S n) y Hy) as (Y' & HY' & HR'). exists Y'. split; [|exact HR'].
        intros i. specialize (HY' i). destruct (X i); [destruct n; discriminate|exact HY'].
Qed.
Lemma vec_mono {A B} (R R' : (pid -> A) -> B -> Prop) X xs : (forall Y y, R Y y -> R' Y y) -> vec_shared R X xs -> vec_shared R' X xs.
Proof. intros H [H1 H2]. split; [exact H1|]. intros n x Hn. destruct (H2 n x Hn) as (Y & HY & HR). exists Y. auto. Qed.
Lemma vec2_RL {A B} (R : (pid -> A) -> B -> Prop) X xss : vec_shared (vec_shared R) X xss -> RL (RL R) X xss.
Proof. intros H. apply vec_RL. eapply vec_mono; [|exact H]. intros; apply vec_RL; assumption. Qed.
Lemma RL_vec2 {A B} (R : (pid -> A) -> B -> Prop) X xss : RL (RL R) X xss -> vec_shared (vec_shared R) X xss.
Proof. intros H. apply RL_vec. eapply RL_mono; [|exact H]. intros; apply RL_vec; assumption. Qed.

(** ** Programs without a result *)
Lemma no_result_bind_l {A B} (p : prog A) (f : A -> prog B) : no_result p -> no_result (bind p f).
Proof. induction 1; cbn; constructor; auto. Qed.
Lemma no_result_bind_r {A B} (p : prog A) (f : A -> prog B) : (forall a, no_result (f a)) -> no_result (bind p f).
Proof. intros H. induction p; cbn; [apply H|constructor|constructor; assumption|constructor; intros; auto]. Qed.
Definition no_resultM {S A} (p : M S A) : Prop := forall s, no_result (p s).
Lemma no_resultM_bind_l {S A B} (p : M S A) (f : A -> M S B) : no_resultM p -> no_resultM (bindM p f).
Proof. intros H s. apply no_result_bind_l, H. Qed.
Lemma no_resultM_bind_r {S A B} (p : M S A) (f : A -> M S B) : (forall a, no_resultM (f a)) -> no_resultM (bindM p f).
Proof. intros H s. apply no_result_bind_r. intros [s' a]. apply H. Qed.
Lemma no_resultM_foldM {S A C} (f : C -> A -> M S C) l a : In a l -> (forall c, no_resultM (f c a)) -> forall c, no_resultM (foldM f l c).
Proof.
  intros Hin H. induction l as [|b l IH]; [contradiction|]. intros c. cbn [foldM]. destruct Hin as [->|Hin].
  - apply no_resultM_bind_l, H.
  - apply no_resultM_bind_r. intros c'. apply IH, Hin.
Qed.

(** ** Rejected queries *)
Section Reject.
  Context {S A B : Type} (e : mpc S A B) (signed : bool).

  Lemma iris_in_db_bad_size iris db mask masks chunk s : length db <> length masks \/ db = [] ->
    iris_in_db e signed iris db mask masks chunk s = Fail EInvalidSize.
  Proof.
    intros H. unfold iris_in_db. destruct H as [H| ->].
    - replace (Nat.eqb (length db) (length masks)) with false by (symmetry; apply Nat.eqb_neq, H). reflexivity.
    - cbn [length]. rewrite orb_true_r. reflexivity.
  Qed.
  Lemma iris_in_db_zero_chunk iris db mask masks s : length db = length masks -> db <> [] ->
    iris_in_db e signed iris db mask masks 0 s = Fail EPanic.
  Proof.
    intros H Hd. unfold iris_in_db. rewrite H, Nat.eqb_refl.
    replace (Nat.eqb (length masks) 0) with false by (symmetry; apply Nat.eqb_neq; rewrite <- H; destruct db; [congruence|discriminate]).
    reflexivity.
  Qed.

  Lemma low_mask mask m ms : wf_code mask -> wf_code m -> In m ms ->
    count (fun i => bit_at mask i && bit_at m i) < 8960 ->
    exists err, mapM_res (combine_masks mask) ms = Err err /\ err = EMaskHW.
  Proof.
    intros Hw Hm Hin Hc. induction ms as [|m' ms IH]; [contradiction|].
    cbn [mapM_res]. destruct (combine_masks mask m') as [c|er] eqn:E.
    - destruct Hin as [->|Hin].
      + exfalso. unfold combine_masks in E. rewrite count_ones_spec in E by (apply code_and_wf; assumption).
        rewrite (count_ext _ (fun i => bit_at mask i && bit_at m i)) in E by (intros; apply code_and_bit; assumption).
        rewrite mask_threshold_exact in E. destruct (Z.ltb_spec (count (fun i => bit_at mask i && bit_at m i)) 8960); [discriminate|lia].
      + destruct (IH Hin) as (er & -> & ->). eauto.
    - exists er. split; [reflexivity|]. unfold combine_masks in E. destruct (_ <? _); [congruence|discriminate].
  Qed.

  Lemma compare_low_mask a b mask ms m : wf_code mask -> wf_code m -> In m ms ->
    count (fun i => bit_at mask i && bit_at m i) < 8960 -> length b = length ms ->
    forall s, compare_iris_many e signed a b mask ms s = Fail EMaskHW.
  Proof.
    intros Hw Hm Hin Hc Hl s. unfold compare_iris_many. rewrite Hl, Nat.eqb_refl.
    replace (Nat.eqb (length ms) 0) with false by (symmetry; apply Nat.eqb_neq; destruct ms; [contradiction|discriminate]).
    cbn [negb orb]. destruct (low_mask mask m ms Hw Hm Hin Hc) as (er & E & ->). rewrite E. reflexivity.
  Qed.
  Lemma compare_low_mask_none a b mask ms m : wf_code mask -> wf_code m -> In m ms ->
    count (fun i => bit_at mask i && bit_at m i) < 8960 -> no_resultM (compare_iris_many e signed a b mask ms).
  Proof.
    intros Hw Hm Hin Hc s. unfold compare_iris_many. destruct (negb _ || _); [constructor|].
    destruct (low_mask mask m ms Hw Hm Hin Hc) as (er & E & ->). rewrite E. constructor.
  Qed.

  Lemma chunks_in {T} (n : nat) (l : list T) x : (0 < n)%nat -> In x l -> exists c, In c (chunks n l) /\ In x c.
  Proof. intros Hn Hx. rewrite <- (BinProofs.chunks_concat n l Hn) in Hx. apply in_concat in Hx. destruct Hx as (c & H1 & H2). eauto. Qed.

  Lemma combine_in_r {T U} (l : list T) (l' : list U) y : length l = length l' -> In y l' -> exists x, In (x, y) (combine l l').
  Proof.
    revert l'. induction l as [|a l IH]; intros [|b l'] H Hy; try discriminate; [contradiction|].
    destruct Hy as [->|Hy]; [exists a; left; reflexivity|]. destruct (IH l' ltac:(cbn in H; lia) Hy) as (x & Hx). exists x. right. exact Hx.
  Qed.

  Lemma iris_in_db_low_mask iris db mask masks m chunk : wf_code mask -> wf_code m -> In m masks ->
    count (fun i => bit_at mask i && bit_at m i) < 8960 ->
    forall s, no_result (iris_in_db e signed iris db mask masks chunk s).
  Proof.
    intros Hw Hm Hin Hc s. unfold iris_in_db. destruct (negb _ || _) eqn:El; [constructor|].
    destruct (Nat.eqb chunk 0) eqn:Ec; [constructor|]. revert s.
    change (no_resultM (bindM (m_precompute e (num_and_triples e (Z.of_nat (length db)) (Z.of_nat chunk))) (fun _ =>
      bindM (foldM (fun acc dm => bindM (compare_iris_many e signed iris (fst dm) mask (snd dm)) (fun r => retM (acc ++ r)))
        (combine (chunks chunk db) (chunks chunk masks)) []) (fun bool_shares =>
      bindM (m_reduce_binary_or e bool_shares chunk) (fun res =>
      bindM (unwrapM (m_verify e)) (fun _ => m_open_bit e res)))))).
    apply no_resultM_bind_r. intros _. apply no_resultM_bind_l.
    apply Nat.eqb_neq in Ec. apply orb_false_iff in El. destruct El as [El _]. apply negb_false_iff, Nat.eqb_eq in El.
    destruct (chunks_in chunk masks m ltac:(lia) Hin) as (cm & H1 & H2).
    destruct (combine_in_r (chunks chunk db) (chunks chunk masks) cm) as (cd & Hcd); [|exact H1|].
    - rewrite !SlicedProofs.chunks_length by lia. rewrite El. reflexivity.
    - apply (no_resultM_foldM _ _ (cd, cm) Hcd). intros acc. apply no_resultM_bind_l. cbn [snd fst].
      apply (compare_low_mask_none _ _ _ _ m); assumption.
  Qed.

  (** A low mask in the first chunk: nothing is sent if precomputation is a no-op. *)
  Lemma iris_in_db_low_mask_first iris db mask masks m chunk s : wf_code mask -> wf_code m -> (0 < chunk)%nat ->
    length db = length masks -> In m (firstn chunk masks) ->
    count (fun i => bit_at mask i && bit_at m i) < 8960 -> (forall n s, m_precompute e n s = Ret (s, tt)) ->
    iris_in_db e signed iris db mask masks chunk s = Fail EMaskHW.
  Proof.
    intros Hw Hm Hch Hl Hin Hc Hpre. unfold iris_in_db. rewrite Hl, Nat.eqb_refl.
    destruct masks as [|m0 masks]; [rewrite firstn_nil in Hin; contradiction|]. cbn [length].
    replace (Nat.eqb (Datatypes.S (length masks)) 0) with false by reflexivity.
    replace (Nat.eqb chunk 0) with false by (symmetry; apply Nat.eqb_neq; lia). cbn [negb orb].
    unfold bindM at 1. rewrite Hpre. cbn [bind fst snd].
    destruct db as [|d0 db]; [discriminate|].
    assert (Ecm : chunks chunk (m0 :: masks) = firstn chunk (m0 :: masks) :: chunks_fuel (length masks) chunk (skipn chunk (m0 :: masks))) by reflexivity.
    assert (Ecd : chunks chunk (d0 :: db) = firstn chunk (d0 :: db) :: chunks_fuel (length db) chunk (skipn chunk (d0 :: db))) by reflexivity.
    rewrite Ecm, Ecd. cbn [combine foldM]. unfold bindM at 1 2 3. cbn [fst snd].
    rewrite (compare_low_mask _ _ _ _ m Hw Hm Hin Hc).
    - reflexivity.
    - rewrite !firstn_length, Hl. reflexivity.
  Qed.
End Reject.
