(** The circuits of the semi-honest engine are private. *)
From Verif Require Import Base Ring RingProofs BitArith Prog Sched Rel Rng Net BinTrait BinProofs Iris Aby3 ShareSpec Aby3Proofs SlicedProofs ViewSpec Private PrivateOps PrivateAby3.

(** ** Shapes and ranges *)
Lemma okS_xor K x y : 0 <= K -> okS K x -> okS K y -> okS K (sh_xor x y).
Proof. intros HK [? ?] [? ?]. split; cbn [sh_xor sa sb]; apply inr_lxor; auto. Qed.
Lemma okS_shl K x n : 0 < K -> okS K x -> okS K (sh_shl K x n).
Proof. intros HK [? ?]. split; cbn [sh_shl sa sb]; apply inr_rshl; auto. Qed.
Lemma okS_zero K : 0 <= K -> okS K szero.
Proof. intros HK. pose proof (pow2_pos K HK). split; unfold inr; cbn; lia. Qed.
Lemma okL_map2 {K n} (f : share -> share -> share) a b : (forall x y, okS K x -> okS K y -> okS K (f x y)) -> okL K n a -> okL K n b -> okL K n (map2 f a b).
Proof.
  intros Hf. revert a b. induction n as [|n IH]; intros a b [La Ha] [Lb Hb]; destruct a, b; try discriminate; [split; [reflexivity|constructor]|].
  inversion Ha; subst. inversion Hb; subst. destruct (IH a b) as [H H']; [split; auto|split; auto|].
  split; [cbn [map2 length]; lia|]. constructor; auto.
Qed.
Lemma okL_app {K n m} a b : okL K n a -> okL K m b -> okL K (n + m) (a ++ b).
Proof. intros [? ?] [? ?]. split; [rewrite app_length; lia|apply Forall_app; auto]. Qed.
Lemma okL_firstn {K n} m l : (m <= n)%nat -> okL K n l -> okL K m (firstn m l).
Proof. intros Hm [H1 H2]. split; [rewrite firstn_length; lia|]. rewrite <- (firstn_skipn m l) in H2. apply Forall_app in H2. apply H2. Qed.
Lemma okL_skipn {K n} m l : okL K n l -> okL K (n - m) (skipn m l).
Proof. intros [H1 H2]. split; [rewrite skipn_length; lia|]. rewrite <- (firstn_skipn m l) in H2. apply Forall_app in H2. apply H2. Qed.
Lemma okL_index {K n} l k : okL K n l -> (k < n)%nat -> exists s, index l k = Ok s /\ okS K s.
Proof.
  intros [H1 H2] Hk. unfold index. destruct (nth_error l k) as [s|] eqn:E.
  - exists s. split; [reflexivity|]. rewrite Forall_forall in H2. apply H2. eapply nth_error_In. exact E.
  - apply nth_error_None in E. lia.
Qed.
Lemma okL_one K x : okS K x -> okL K 1 [x].
Proof. intros H. split; [reflexivity|]. constructor; [exact H|constructor]. Qed.

Lemma Forall2_eq {A} (l : list A) : Forall2 eq l l.
Proof. induction l; constructor; auto. Qed.

Section Circ.
  Variable i : pid.
  Notation MT := (M (prf tape)).
  Notation pq D f E := (ppriv i D f (fun _ r => E r)).
  Notation pair2 Q := (fun z => Q (fst z) /\ Q (snd z)).

  Lemma pq_step {T T0 A B} (D0 : T0 -> Prop) (f0 : pid -> T0 -> MT A) (E0 : A -> Prop) (D : T -> Prop) (h : pid -> T -> T0) (g : pid -> T -> A -> MT B) (E : B -> Prop) :
    pq D0 f0 E0 -> (forall j x, D x -> D0 (h j x)) ->
    pq (fun z : T * A => D (fst z) /\ E0 (snd z)) (fun j z => g j (fst z) (snd z)) E ->
    pq D (fun j x => bindM (f0 j (h j x)) (g j x)) E.
  Proof.
    intros H0 Hh Hg. apply (pp_bind i D (fun j x => f0 j (h j x)) (fun _ r => E0 r) g).
    - apply (pp_pre i D0 f0 (fun _ r => E0 r) D (fun j x => f0 j (h j x)) (fun _ r => E0 r) h H0 Hh); auto.
    - exact Hg.
  Qed.
  Lemma pq_res {T A B} (D : T -> Prop) (r : pid -> T -> res A) (E0 : A -> Prop) (g : pid -> T -> A -> MT B) (E : B -> Prop) :
    (forall j x, D x -> exists v, r j x = Ok v /\ E0 v) ->
    pq (fun z : T * A => D (fst z) /\ E0 (snd z)) (fun j z => g j (fst z) (snd z)) E ->
    pq D (fun j x => bindM (resM (r j x)) (g j x)) E.
  Proof.
    intros H Hg. apply (pp_bind i D (fun j x => resM (r j x)) (fun _ v => E0 v) g).
    - apply pp_res. exact H.
    - exact Hg.
  Qed.
  Lemma pq_ret {T A} (D : T -> Prop) (h : pid -> T -> A) (E : A -> Prop) : (forall j x, D x -> E (h j x)) -> pq D (fun j x => retM (h j x)) E.
  Proof. intros H. apply pp_ret. exact H. Qed.
  Lemma pq_end {T A} (D : T -> Prop) (r : pid -> T -> res A) (E : A -> Prop) : (forall j x, D x -> exists v, r j x = Ok v /\ E v) -> pq D (fun j x => resM (r j x)) E.
  Proof. intros H. apply pp_res. exact H. Qed.
  Lemma pq_to {T T0 A} (D0 : T0 -> Prop) (f0 : pid -> T0 -> MT A) (D : T -> Prop) (g : pid -> T -> MT A) (h : pid -> T -> T0) (E : A -> Prop) :
    pq D0 f0 E -> (forall j x, D x -> D0 (h j x)) -> (forall j x s, D x -> g j x s = f0 j (h j x) s) -> pq D g E.
  Proof. intros H Hh Hg. apply (pp_pre i D0 f0 (fun _ r => E r) D g (fun _ r => E r) h H Hh Hg). auto. Qed.

  (** ** traits/binary_trait.rs *)
  Section Width.
    Context (K : Z) (HW : In K widths).
    Notation e := (fun j => aby3_bin tape j K).
    Lemma K0 : 0 <= K. Proof using HW. pose proof (width_pos K HW). lia. Qed.
    Lemma xor_many_ok' j n a b : okL K n a -> okL K n b -> exists v, xor_many (aby3_bin tape j K) a b = Ok v /\ okL K n v.
    Proof using HW.
      intros Ha Hb. unfold xor_many. rewrite (proj1 Ha), (proj1 Hb), Nat.eqb_refl. eexists. split; [reflexivity|].
      apply okL_map2; [intros; apply okS_xor; auto using K0|exact Ha|exact Hb].
    Qed.
    Lemma pp_or : pq (pair2 (okS K)) (fun j z => b_or (e j) (fst z) (snd z)) (okS K).
    Proof using HW.
      unfold b_or. eapply (pq_step _ _ _ _ (fun _ z => z) (fun j z y => retM (b_xor (e j) (b_xor (e j) (fst z) (snd z)) y)) _ (pp_and i K HW)).
      - intros j z Hz. exact Hz.
      - apply (pq_ret _ (fun j z => sh_xor (sh_xor (fst (fst z)) (snd (fst z))) (snd z))). intros j z [[H1 H2] H3]. auto using okS_xor, K0.
    Qed.
    Lemma pp_or_many n : pq (pair2 (okL K n)) (fun j z => or_many (e j) (fst z) (snd z)) (okL K n).
    Proof using HW.
      eapply pq_to with (h := fun _ z => z) (f0 := fun j z => bindM (b_and_many (e j) (fst z) (snd z)) (fun y => bindM (resM (xor_many (e j) (fst z) (snd z))) (fun x => resM (xor_many (e j) y x)))).
      - eapply (pq_step _ _ _ _ (fun _ z => z) (fun j z y => bindM (resM (xor_many (e j) (fst z) (snd z))) (fun x => resM (xor_many (e j) y x))) _ (pp_and_many i K HW n)); [intros j z Hz; exact Hz|].
        apply (pq_res _ (fun j z => xor_many (e j) (fst (fst z)) (snd (fst z))) (okL K n) (fun j z x => resM (xor_many (e j) (snd z) x))).
        + intros j z [[H1 H2] H3]. apply xor_many_ok'; assumption.
        + apply (pq_end _ (fun j z => xor_many (e j) (snd (fst z)) (snd z))). intros j z [[[H1 H2] H3] H4]. apply xor_many_ok'; assumption.
      - intros j z Hz. exact Hz.
      - intros j z s [[H1 _] [H2 _]]. unfold or_many. rewrite H1, H2, Nat.eqb_refl. reflexivity.
    Qed.
    Lemma pp_ks_round k : pq (pair2 (okS K)) (fun j z => ks_round (e j) z k) (pair2 (okS K)).
    Proof using HW.
      pose proof (width_pos K HW) as HK.
      eapply pq_to with (D0 := pair2 (okS K)) (h := fun _ z => z) (f0 := fun j z =>
        bindM (b_and_many (e j) [fst z; fst z] [sh_shl K (snd z) (2 ^ Z.of_nat k); sh_shl K (fst z) (2 ^ Z.of_nat k)]) (fun r =>
        bindM (resM (index r 1)) (fun p' => bindM (resM (index r 0)) (fun r0 => retM (p', sh_xor (snd z) r0))))).
      - eapply (pq_step _ _ _ _ (fun _ z => ([fst z; fst z], [sh_shl K (snd z) (2 ^ Z.of_nat k); sh_shl K (fst z) (2 ^ Z.of_nat k)]))
          (fun j z r => bindM (resM (index r 1)) (fun p' => bindM (resM (index r 0)) (fun r0 => retM (p', sh_xor (snd z) r0)))) _ (pp_and_many i K HW 2)).
        + intros j z [H1 H2]. cbn [fst snd]. split; (split; [reflexivity|]); repeat constructor; try apply H1; apply okS_shl; assumption.
        + apply (pq_res _ (fun j z => index (snd z) 1) (okS K) (fun j z p' => bindM (resM (index (snd z) 0)) (fun r0 => retM (p', sh_xor (snd (fst z)) r0)))).
          { intros j z [_ H]. apply (okL_index _ _ H). lia. }
          apply (pq_res _ (fun j z => index (snd (fst z)) 0) (okS K) (fun j z r0 => retM (snd z, sh_xor (snd (fst (fst z))) r0))).
          { intros j z [[_ H] _]. apply (okL_index _ _ H). lia. }
          apply (pq_ret _ (fun j z => (snd (fst z), sh_xor (snd (fst (fst (fst z)))) (snd z)))).
          intros j z H. destruct H as [[[[H1 H2] H3] H4] H5]. cbn [fst snd]. split; [exact H4|]. apply okS_xor; [lia|assumption|assumption].
      - intros j z Hz. exact Hz.
      - intros j [p g] s _. reflexivity.
    Qed.
    Definition three (z : share * share * share) : Prop := okS K (fst (fst z)) /\ okS K (snd (fst z)) /\ okS K (snd z).
    Lemma pp_add3 : pq three (fun j z => binary_add_3 (e j) (fst (fst z)) (snd (fst z)) (snd z)) (okS K).
    Proof using HW.
      pose proof (width_pos K HW) as HK.
      unfold binary_add_3. cbv zeta.
      eapply (pq_step _ _ _ _ (fun _ z => (sh_xor (fst (fst z)) (snd z), sh_xor (snd (fst z)) (snd z)))
        (fun j z c0 => bindM (b_and (e j) (sh_xor (fst (fst z)) (sh_xor (snd (fst z)) (snd z))) (sh_shl K (sh_xor c0 (snd z)) 1)) (fun g =>
           bindM (foldM (ks_round (e j)) (seq 0 (ceil_log2 K)) (sh_xor (sh_xor (fst (fst z)) (sh_xor (snd (fst z)) (snd z))) (sh_shl K (sh_xor c0 (snd z)) 1), g)) (fun pg =>
           retM (sh_xor (sh_xor (sh_xor (fst (fst z)) (sh_xor (snd (fst z)) (snd z))) (sh_shl K (sh_xor c0 (snd z)) 1)) (sh_shl K (snd pg) 1))))) _ (pp_and i K HW)).
      { intros j z (H1 & H2 & H3). cbn [fst snd]. split; apply okS_xor; auto; lia. }
      eapply (pq_step _ _ _ _ (fun _ z => (sh_xor (fst (fst (fst z))) (sh_xor (snd (fst (fst z))) (snd (fst z))), sh_shl K (sh_xor (snd z) (snd (fst z))) 1))
        (fun j z g => bindM (foldM (ks_round (e j)) (seq 0 (ceil_log2 K)) (sh_xor (sh_xor (fst (fst (fst z))) (sh_xor (snd (fst (fst z))) (snd (fst z)))) (sh_shl K (sh_xor (snd z) (snd (fst z))) 1), g)) (fun pg =>
           retM (sh_xor (sh_xor (sh_xor (fst (fst (fst z))) (sh_xor (snd (fst (fst z))) (snd (fst z)))) (sh_shl K (sh_xor (snd z) (snd (fst z))) 1)) (sh_shl K (snd pg) 1)))) _ (pp_and i K HW)).
      { intros j z [(H1 & H2 & H3) H4]. cbn [fst snd]. split; repeat first [apply okS_shl|apply okS_xor]; auto; lia. }
      eapply (pq_step _ _ _ _ (fun _ z => ((tt, (sh_xor (sh_xor (fst (fst (fst (fst z)))) (sh_xor (snd (fst (fst (fst z)))) (snd (fst (fst z))))) (sh_shl K (sh_xor (snd (fst z)) (snd (fst (fst z)))) 1), snd z)), seq 0 (ceil_log2 K)))
        (fun j z pg => retM (sh_xor (sh_xor (sh_xor (fst (fst (fst (fst z)))) (sh_xor (snd (fst (fst (fst z)))) (snd (fst (fst z))))) (sh_shl K (sh_xor (snd (fst z)) (snd (fst (fst z)))) 1)) (sh_shl K (snd pg) 1)))
        _ (pp_foldM i O (fun _ : unit => True) (@eq nat) (pair2 (okS K)) (fun j _ pg k => ks_round (e j) pg k) (seq 0 (ceil_log2 K)) _)).
      { intros j z [[(H1 & H2 & H3) H4] H5]. cbn [fst snd]. split; [exact I|]. split; [|apply Forall2_eq].
        split; [|exact H5]. repeat first [apply okS_shl|apply okS_xor]; auto; lia. }
      apply (pq_ret _ (fun j z => sh_xor (sh_xor (sh_xor (fst (fst (fst (fst (fst z))))) (sh_xor (snd (fst (fst (fst (fst z))))) (snd (fst (fst (fst z)))))) (sh_shl K (sh_xor (snd (fst (fst z))) (snd (fst (fst (fst z))))) 1)) (sh_shl K (snd (snd z)) 1))).
      { intros j z [[[(H1 & H2 & H3) H4] H5] [H6 H7]]. repeat first [apply okS_shl|apply okS_xor]; auto; lia. }
      Unshelve. intros y _. eapply pq_to with (h := fun _ z => snd (fst z)); [apply (pp_ks_round y)| |].
      + intros j z (_ & H & _). exact H.
      + intros j z s (_ & _ & H). rewrite H. reflexivity.
    Qed.
    Lemma a2b_pre_ok j x : okS K x -> three (a2b_pre j x).
    Proof using HW.
      intros [H1 H2]. pose proof (pow2_pos K K0). assert (Z0 : inr K 0) by (unfold inr; lia).
      unfold three. destruct j; cbn [a2b_pre fst snd]; unfold okS; cbn [sa sb szero]; repeat match goal with |- _ /\ _ => split end; assumption.
    Qed.
    Lemma pp_a2b : pq (okS K) (fun j x => arithmetic_to_binary tape j K x) (okS K).
    Proof using HW.
      eapply pq_to with (h := fun j x => a2b_pre j x); [apply pp_add3|intros j x Hx; apply a2b_pre_ok, Hx|].
      intros j x s _. unfold arithmetic_to_binary. destruct (a2b_pre j x) as [[a b] c]. reflexivity.
    Qed.
    Lemma pp_msb : pq (okS K) (fun j x => get_msb_share tape j K x) (okS 1).
    Proof using HW.
      unfold get_msb_share. eapply (pq_step _ _ _ _ (fun _ x => x) (fun j x b => retM (sh_get_msb K b)) _ pp_a2b); [auto|].
      apply (pq_ret _ (fun j z => sh_get_msb K (snd z))). intros j z _. unfold sh_get_msb, get_msb.
      split; cbn [sa sb]; match goal with |- context [if ?b then _ else _] => destruct b end; unfold inr; cbn; lia.
    Qed.
  End Width.
End Circ.
