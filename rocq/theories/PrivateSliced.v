(** The bit-sliced circuits of the semi-honest engine are private. *)
From Verif Require Import Base Ring RingProofs BitArith Prog Sched Rel Rng Net BinTrait BinProofs Iris Aby3 ShareSpec Aby3Proofs Aby3MalProofs SlicedProofs ViewSpec Private PrivateOps PrivateAby3 PrivateCirc.

Lemma W128 : In 128 widths. Proof. cbn; tauto. Qed.
Lemma W1 : In 1 widths. Proof. cbn; tauto. Qed.

(** k rows of n words each. *)
Definition okR (k n : nat) (rows : list (list share)) : Prop := length rows = k /\ Forall (okL 128 n) rows.
Lemma rshl128_bit b n : inr 128 (rshl 128 (if (b : bool) then 1 else 0) n).
Proof. apply inr_rshl; [lia|]. destruct b; unfold inr; split; try lia; reflexivity. Qed.
Lemma transpose_word_in f r l : inr 128 (transpose_word f r l).
Proof.
  unfold transpose_word. assert (G : forall (l : list (nat * share)) acc, inr 128 acc -> inr 128 (fold_left (fun acc nx => ror acc (rshl 128 (if rand_ (Z.shiftr (f (snd nx)) (Z.of_nat r)) 1 =? 1 then 1 else 0) (Z.of_nat (fst nx)))) l acc)).
  { clear l. induction l as [|x l IH]; intros acc Ha; [exact Ha|]. cbn [fold_left]. apply IH. apply inr_lor; [lia|exact Ha|apply rshl128_bit]. }
  apply G. unfold inr. lia.
Qed.
Lemma transpose_input_ok K l : okL 128 (Z.to_nat K) (transpose_shared_input K l).
Proof.
  unfold transpose_shared_input. split; [rewrite map_length, seq_length; reflexivity|]. apply Forall_map, Forall_forall. intros r _.
  split; apply transpose_word_in.
Qed.
Lemma transpose_pack_ok K l : okR (Z.to_nat K) (nchunks 128 (length l)) (transpose_pack_u128 K l).
Proof.
  unfold transpose_pack_u128. rewrite <- (chunks_length 128 l) by lia.
  assert (G : forall chs n res, okR (Z.to_nat K) n res -> okR (Z.to_nat K) (n + length chs)
     (fold_left (fun res ch => map2 (fun des src => des ++ [src]) res (transpose_shared_input K ch)) chs res)).
  { induction chs as [|ch chs IH]; intros n res H; [rewrite Nat.add_0_r; exact H|]. cbn [fold_left length].
    rewrite <- Nat.add_succ_comm. apply IH. destruct H as [H1 H2]. destruct (transpose_input_ok K ch) as [H3 H4].
    revert H3 H4. generalize (transpose_shared_input K ch). rewrite <- H1. clear - H2. revert n H2. unfold okR.
    induction res as [|r res IH]; intros n H2 t H3 H4; destruct t as [|x t]; try discriminate; [split; [reflexivity|constructor]|].
    cbn [map2 length]. inversion H2; subst. inversion H4; subst. destruct (IH n H5 t) as [I1 I2]; [cbn in H3; lia|assumption|].
    split; [lia|]. constructor; [|exact I2]. replace (S n) with (n + 1)%nat by lia. apply okL_app; [assumption|apply okL_one; assumption]. }
  apply (G _ O). split; [apply repeat_length|]. apply Forall_forall. intros x Hx. apply repeat_spec in Hx. subst x. split; [reflexivity|constructor].
Qed.
Lemma okR_xor k n a b : okR k n a -> okR k n b -> okR k n (transposed_pack_xor a b).
Proof.
  unfold transposed_pack_xor. intros [Ha Ha'] [Hb Hb']. revert a b Ha Ha' Hb Hb'. unfold okR.
  induction k as [|k IH]; intros a b Ha Ha' Hb Hb'; destruct a, b; try discriminate; [split; [reflexivity|constructor]|].
  cbn [map2 length]. inversion Ha'; subst. inversion Hb'; subst. destruct (IH a b) as [H H']; auto. split; [lia|]. constructor; [|exact H'].
  apply okL_map2; [intros; apply okS_xor; auto; lia|assumption|assumption].
Qed.
Lemma okR_pop k n a : okR (S k) n a -> exists v, pop a = Ok v /\ okR k n (fst v) /\ okL 128 n (snd v).
Proof.
  intros [H1 H2]. destruct (exists_last (l := a)) as (l & x & ->); [destruct a; discriminate|].
  rewrite app_length in H1. cbn in H1. apply Forall_app in H2. destruct H2 as [H2 H3]. inversion H3; subst.
  exists (l, x). unfold pop. rewrite rev_app_distr. cbn [rev app]. rewrite rev_involutive. split; [reflexivity|].
  cbn [fst snd]. split; [split; [lia|exact H2]|assumption].
Qed.
Lemma okR_index k n a m : okR k n a -> (m < k)%nat -> exists v, index a m = Ok v /\ okL 128 n v.
Proof.
  intros [H1 H2] Hm. unfold index. destruct (nth_error a m) as [s|] eqn:E.
  - exists s. split; [reflexivity|]. rewrite Forall_forall in H2. apply H2. eapply nth_error_In. exact E.
  - apply nth_error_None in E. lia.
Qed.
Lemma okR_concat k n a : okR k n a -> okL 128 (n * k) (concat a).
Proof.
  unfold okR. revert a. induction k as [|k IH]; intros a [H1 H2]; destruct a as [|r a]; try discriminate; [split; [cbn; lia|constructor]|].
  inversion H2; subst. cbn [concat]. replace (n * S k)%nat with (n + n * k)%nat by lia. apply okL_app; [assumption|].
  apply IH. split; [cbn in H1; lia|assumption].
Qed.
Lemma okR_chunks k n l : (0 < n)%nat -> okL 128 (n * k) l -> okR k n (chunks n l).
Proof.
  intros Hn [H1 H2]. destruct (chunks_exact n k l Hn H1) as [E1 E2]. split; [exact E2|].
  pose proof (chunks_incl (okS 128) n l H2) as E3. rewrite Forall_forall in *. intros c Hc. split; auto.
Qed.
Lemma okR_skipn k n m a : okR k n a -> okR (k - m) n (skipn m a).
Proof. intros [H1 H2]. split; [rewrite skipn_length; lia|]. rewrite <- (firstn_skipn m a) in H2. apply Forall_app in H2. apply H2. Qed.
Lemma Forall2_combine {A B Y} (P : A -> Prop) (Q : B -> Prop) a b (ys : list Y) : length a = length ys -> length b = length ys -> Forall P a -> Forall Q b ->
  Forall2 (fun (z : A * B) (_ : Y) => P (fst z) /\ Q (snd z)) (combine a b) ys.
Proof.
  revert b ys. induction a as [|x a IH]; intros [|y b] [|z ys] H H' Ha Hb; try discriminate; constructor.
  - inversion Ha; inversion Hb; subst; auto.
  - inversion Ha; inversion Hb; subst. apply IH; auto.
Qed.

Section Sliced.
  Variable i : pid.
  Notation MT := (M (prf tape)).
  Notation pq D f E := (ppriv i D f (fun _ r => E r)).
  Notation pair2 Q := (fun z => Q (fst z) /\ Q (snd z)).
  Notation e := (fun K j => aby3_bin tape j K).

  Lemma pp_tp_and k n : (0 < k)%nat -> (0 < n)%nat -> pq (pair2 (okR k n)) (fun j z => transposed_pack_and (e 128 j) (fst z) (snd z)) (okR k n).
  Proof.
    intros Hk Hn. unfold transposed_pack_and.
    eapply (pq_res i _ (fun j z => index (fst z) 0) (okL 128 n) (fun j z r0 => bindM (b_and_many (e 128 j) (concat (fst z)) (concat (snd z))) (fun x3 => if Nat.eqb (length r0) 0 then failM EPanic else retM (chunks (length r0) x3)))).
    { intros j z [H _]. apply (okR_index _ _ _ _ H Hk). }
    eapply (pq_step i _ _ _ _ (fun j z => (concat (fst (fst z)), concat (snd (fst z)))) (fun j z x3 => if Nat.eqb (length (snd z)) 0 then failM EPanic else retM (chunks (length (snd z)) x3)) _ (pp_and_many i 128 W128 (n * k))).
    { intros j z [[H1 H2] _]. cbn [fst snd]. split; apply okR_concat; assumption. }
    eapply (pq_to i _ _ _ _ (fun _ z => z)); [apply (pq_ret i (fun z : list (list share) * list (list share) * list share * list share => okL 128 n (snd (fst z)) /\ okL 128 (n * k) (snd z)) (fun j z => chunks (length (snd (fst z))) (snd z)) (okR k n))| |].
    - intros j z [[H1 H1'] H2]. rewrite H1. apply okR_chunks; assumption.
    - intros j z [[_ H1] H2]. auto.
    - intros j z s [[_ [H1 _]] H2]. rewrite H1. destruct n; [lia|reflexivity].
  Qed.
  Lemma pp_ripple n : pq (fun z => okL 128 n (fst z) /\ (okL 128 n (fst (snd z)) /\ okL 128 n (snd (snd z)))) (fun j z => ripple_step (e 128 j) (fst z) (snd z)) (okL 128 n).
  Proof.
    unfold ripple_step.
    eapply (pq_res i _ (fun j z => xor_many (e 128 j) (fst (snd z)) (fst z)) (okL 128 n) (fun j z ta => bindM (resM (xor_many (e 128 j) (snd (snd z)) (fst z))) (fun tb => bindM (b_and_many (e 128 j) ta tb) (fun tc => resM (xor_many (e 128 j) tc (fst z)))))).
    { intros j z (H1 & H2 & H3). apply xor_many_ok'; auto using W128. }
    eapply (pq_res i _ (fun j z => xor_many (e 128 j) (snd (snd (fst z))) (fst (fst z))) (okL 128 n) (fun j z tb => bindM (b_and_many (e 128 j) (snd z) tb) (fun tc => resM (xor_many (e 128 j) tc (fst (fst z)))))).
    { intros j z ((H1 & H2 & H3) & H4). apply xor_many_ok'; auto using W128. }
    eapply (pq_step i _ _ _ _ (fun j z => (snd (fst z), snd z)) (fun j z tc => resM (xor_many (e 128 j) tc (fst (fst (fst z))))) _ (pp_and_many i 128 W128 n)).
    { intros j z (((H1 & H2 & H3) & H4) & H5). cbn [fst snd]. auto. }
    apply (pq_end i _ (fun j z => xor_many (e 128 j) (snd z) (fst (fst (fst (fst z)))))).
    intros j z ((((H1 & H2 & H3) & H4) & H5) & H6). apply xor_many_ok'; auto using W128.
  Qed.

  Definition rows3 (k n : nat) (z : list (list share) * list (list share) * list (list share)) : Prop :=
    okR k n (fst (fst z)) /\ okR k n (snd (fst z)) /\ okR k n (snd z).
  Definition adder_core (j : pid) (len : nat) (x1 x2 x3 : list (list share)) : MT (list share) :=
      let x2x3 := transposed_pack_xor x2 x3 in
      let s := transposed_pack_xor x1 x2x3 in
      let x1x3 := transposed_pack_xor x1 x3 in
      bindM (resM (pop x1x3)) (fun x1x3 => bindM (resM (pop x2x3)) (fun x2x3 => bindM (resM (pop x3)) (fun x3 =>
      bindM (transposed_pack_and (e 128 j) (fst x1x3) (fst x2x3)) (fun c =>
      let a := s in
      let b := transposed_pack_xor c (fst x3) in
      bindM (resM (index a 1)) (fun a1 => bindM (resM (index b 0)) (fun b0 => bindM (b_and_many (e 128 j) a1 b0) (fun c =>
      bindM (resM (pop a)) (fun a => bindM (resM (pop b)) (fun b =>
      bindM (foldM (ripple_step (e 128 j)) (combine (skipn 2 (fst a)) (skipn 1 (fst b))) c) (fun c =>
      bindM (resM (xor_many (e 128 j) (snd a) (snd b))) (fun r => bindM (resM (xor_many (e 128 j) r c)) (fun r =>
      retM (resize len szero (flat_map (sh_to_bits 128) r)))))))))))))).
  Lemma to_bits_in K a : Forall (inr 1) (to_bits K a).
  Proof. unfold to_bits. apply Forall_map, Forall_forall. intros r _. match goal with |- context [if ?b then _ else _] => destruct b end; unfold inr; cbn; lia. Qed.
  Lemma sh_to_bits_in K x : Forall (okS 1) (sh_to_bits K x).
  Proof.
    unfold sh_to_bits. pose proof (to_bits_in K (sa x)) as H1. pose proof (to_bits_in K (sb x)) as H2. revert H1 H2. generalize (to_bits K (sa x)) (to_bits K (sb x)). clear.
    induction l as [|a l IH]; intros [|b l0] H1 H2; cbn [map2]; constructor.
    - inversion H1; inversion H2; subst; split; assumption.
    - inversion H1; inversion H2; subst. apply IH; assumption.
  Qed.
  Lemma resize_ok K n l : 0 <= K -> Forall (okS K) l -> okL K n (resize n szero l).
  Proof.
    intros HK H. unfold resize. split; [rewrite app_length, firstn_length, repeat_length; lia|]. apply Forall_app. split.
    - rewrite <- (firstn_skipn n l) in H. apply Forall_app in H. apply H.
    - apply Forall_forall. intros x Hx. apply repeat_spec in Hx. subst x. apply okS_zero, HK.
  Qed.
  Lemma pp_adder_core k n len : (0 < n)%nat ->
    pq (rows3 (S (S (S k))) n) (fun j z => adder_core j len (fst (fst z)) (snd (fst z)) (snd z)) (okL 1 len).
  Proof.
    intros Hn. unfold adder_core. cbv zeta.
    pose (x1 := fun z : list (list share) * list (list share) * list (list share) => fst (fst z)). pose (x2 := fun z : list (list share) * list (list share) * list (list share) => snd (fst z)).
    pose (x3 := fun z : list (list share) * list (list share) * list (list share) => snd z).
    pose (u := fun z => transposed_pack_xor (x2 z) (x3 z)). pose (s := fun z => transposed_pack_xor (x1 z) (u z)). pose (w := fun z => transposed_pack_xor (x1 z) (x3 z)).
    set (N := S (S (S k))).
    assert (Hs : forall z, rows3 N n z -> okR N n (s z)) by (intros z (H1 & H2 & H3); unfold s, u; repeat apply okR_xor; assumption).
    assert (Hu : forall z, rows3 N n z -> okR N n (u z)) by (intros z (H1 & H2 & H3); unfold u; repeat apply okR_xor; assumption).
    assert (Hw : forall z, rows3 N n z -> okR N n (w z)) by (intros z (H1 & H2 & H3); unfold w; repeat apply okR_xor; assumption).
    pose (popped := fun v : list (list share) * list share => okR (S (S k)) n (fst v) /\ okL 128 n (snd v)).
    pose (fin := fun (j : pid) (a : list (list share) * list share) (b : list (list share) * list share) (c : list share) =>
      bindM (resM (xor_many (e 128 j) (snd a) (snd b))) (fun r => bindM (resM (xor_many (e 128 j) r c)) (fun r => retM (resize len szero (flat_map (sh_to_bits 128) r)))) : MT (list share)).
    pose (k5 := fun (j : pid) (a : list (list share)) (b : list (list share)) (c : list share) =>
      bindM (resM (pop a)) (fun a => bindM (resM (pop b)) (fun b =>
      bindM (foldM (ripple_step (e 128 j)) (combine (skipn 2 (fst a)) (skipn 1 (fst b))) c) (fin j a b))) : MT (list share)).
    pose (k4 := fun (j : pid) (a : list (list share)) (b : list (list share)) =>
      bindM (resM (index a 1)) (fun a1 => bindM (resM (index b 0)) (fun b0 => bindM (b_and_many (e 128 j) a1 b0) (k5 j a b))) : MT (list share)).
    (* the end: exclusive or and unpacking *)
    assert (Pfin : pq (fun z => okL 128 n (snd (fst (fst z))) /\ okL 128 n (snd (snd (fst z))) /\ okL 128 n (snd z)) (fun j z => fin j (fst (fst z)) (snd (fst z)) (snd z)) (okL 1 len)).
    { unfold fin.
      eapply (pq_res i _ (fun j z => xor_many (e 128 j) (snd (fst (fst z))) (snd (snd (fst z)))) (okL 128 n) (fun j z r => bindM (resM (xor_many (e 128 j) r (snd z))) (fun r => retM (resize len szero (flat_map (sh_to_bits 128) r))))).
      { intros j z (H1 & H2 & H3). apply xor_many_ok'; auto using W128. }
      eapply (pq_res i _ (fun j z => xor_many (e 128 j) (snd z) (snd (fst z))) (okL 128 n) (fun j z r => retM (resize len szero (flat_map (sh_to_bits 128) r)))).
      { intros j z ((H1 & H2 & H3) & H4). apply xor_many_ok'; auto using W128. }
      apply (pq_ret i _ (fun j z => resize len szero (flat_map (sh_to_bits 128) (snd z)))). intros j z _. apply resize_ok; [lia|].
      apply Forall_flat_map, Forall_forall. intros x _. apply sh_to_bits_in. }
    (* the carry chain *)
    assert (P5 : pq (fun z => okR N n (fst (fst z)) /\ okR (S (S k)) n (snd (fst z)) /\ okL 128 n (snd z)) (fun j z => k5 j (fst (fst z)) (snd (fst z)) (snd z)) (okL 1 len)).
    { unfold k5.
      eapply (pq_res i _ (fun j z => pop (fst (fst z))) popped (fun j z a => bindM (resM (pop (snd (fst z)))) (fun b =>
         bindM (foldM (ripple_step (e 128 j)) (combine (skipn 2 (fst a)) (skipn 1 (fst b))) (snd z)) (fin j a b)))).
      { intros j z (H1 & H2 & H3). apply okR_pop, H1. }
      eapply (pq_res i _ (fun j z => pop (snd (fst (fst z)))) (fun v => okR (S k) n (fst v) /\ okL 128 n (snd v)) (fun j z b =>
         bindM (foldM (ripple_step (e 128 j)) (combine (skipn 2 (fst (snd z))) (skipn 1 (fst b))) (snd (fst z))) (fin j (snd z) b))).
      { intros j z ((H1 & H2 & H3) & H4). apply okR_pop, H2. }
      eapply (pq_step i _ _ _ _ (fun j z => ((tt, snd (fst (fst z))), combine (skipn 2 (fst (snd (fst z)))) (skipn 1 (fst (snd z))))) (fun j z c => fin j (snd (fst z)) (snd z) c) _
        (pp_foldM i ([], []) (fun _ : unit => True) (fun (ab : list share * list share) (_ : nat) => okL 128 n (fst ab) /\ okL 128 n (snd ab)) (okL 128 n) (fun j _ c ab => ripple_step (e 128 j) c ab) (seq 0 k) _)).
      { intros j z (((H1 & H2 & H3) & [H4 H4']) & [H5 H5']). cbn [fst snd]. split; [exact I|]. split; [exact H3|].
        pose proof (okR_skipn _ _ 2 _ H4) as [Q1 Q2]. pose proof (okR_skipn _ _ 1 _ H5) as [Q3 Q4].
        apply Forall2_combine; try assumption; rewrite seq_length; lia. }
      eapply (pq_to i _ _ _ _ (fun _ z => (snd (fst (fst z)), snd (fst z), snd z)) _ Pfin); [|reflexivity].
      intros j z ((((H1 & H2 & H3) & [H4 H4']) & [H5 H5']) & H6). cbn [fst snd]. auto.
      Unshelve. intros y _. eapply (pq_to i _ _ _ _ (fun _ z => (snd (fst z), snd z)) _ (pp_ripple n)); [|reflexivity].
      intros j z (_ & H1 & H2). cbn [fst snd]. auto. }
    assert (P4 : pq (fun z => okR N n (fst z) /\ okR (S (S k)) n (snd z)) (fun j z => k4 j (fst z) (snd z)) (okL 1 len)).
    { unfold k4.
      eapply (pq_res i _ (fun j z => index (fst z) 1) (okL 128 n) (fun j z a1 => bindM (resM (index (snd z) 0)) (fun b0 => bindM (b_and_many (e 128 j) a1 b0) (k5 j (fst z) (snd z))))).
      { intros j z [H _]. apply (okR_index _ _ _ _ H). unfold N. lia. }
      eapply (pq_res i _ (fun j z => index (snd (fst z)) 0) (okL 128 n) (fun j z b0 => bindM (b_and_many (e 128 j) (snd z) b0) (k5 j (fst (fst z)) (snd (fst z))))).
      { intros j z [[_ H] _]. apply (okR_index _ _ _ _ H). lia. }
      eapply (pq_step i _ _ _ _ (fun j z => (snd (fst z), snd z)) (fun j z c => k5 j (fst (fst (fst z))) (snd (fst (fst z))) c) _ (pp_and_many i 128 W128 n)).
      { intros j z [[[H1 H2] H3] H4]. cbn [fst snd]. auto. }
      eapply (pq_to i _ _ _ _ (fun _ z => (fst (fst (fst (fst z))), snd (fst (fst (fst z))), snd z)) _ P5); [|reflexivity].
      intros j z [[[[H1 H2] H3] H4] H5]. cbn [fst snd]. auto. }
    eapply (pq_res i _ (fun j z => pop (w z)) popped (fun j z a => bindM (resM (pop (u z))) (fun b => bindM (resM (pop (x3 z))) (fun c =>
       bindM (transposed_pack_and (e 128 j) (fst a) (fst b)) (fun d => k4 j (s z) (transposed_pack_xor d (fst c))))))).
    { intros j z H. apply okR_pop, Hw, H. }
    eapply (pq_res i _ (fun j z => pop (u (fst z))) popped (fun j z b => bindM (resM (pop (x3 (fst z)))) (fun c =>
       bindM (transposed_pack_and (e 128 j) (fst (snd z)) (fst b)) (fun d => k4 j (s (fst z)) (transposed_pack_xor d (fst c)))))).
    { intros j z [H _]. apply okR_pop, Hu, H. }
    eapply (pq_res i _ (fun j z => pop (x3 (fst (fst z)))) popped (fun j z c =>
       bindM (transposed_pack_and (e 128 j) (fst (snd (fst z))) (fst (snd z))) (fun d => k4 j (s (fst (fst z))) (transposed_pack_xor d (fst c))))).
    { intros j z [[(_ & _ & H) _] _]. apply okR_pop, H. }
    eapply (pq_step i _ _ _ _ (fun j z => (fst (snd (fst (fst z))), fst (snd (fst z)))) (fun j z d => k4 j (s (fst (fst (fst z)))) (transposed_pack_xor d (fst (snd z)))) _ (pp_tp_and (S (S k)) n ltac:(lia) Hn)).
    { intros j z [[[H1 [H2 _]] [H3 _]] _]. cbn [fst snd]. auto. }
    eapply (pq_to i _ _ _ _ (fun _ z => (s (fst (fst (fst (fst z)))), transposed_pack_xor (snd z) (fst (snd (fst z))))) _ P4); [|reflexivity].
    intros j z [[[[H1 [H2 _]] [H3 _]] [H4 _]] H5]. cbn [fst snd]. split; [apply Hs, H1|apply okR_xor; assumption].
  Qed.
  Lemma pp_msb_adder K len : 3 <= K -> (0 < len)%nat ->
    pq (fun z => length (fst (fst z)) = len /\ length (snd (fst z)) = len /\ length (snd z) = len)
       (fun j z => msb_adder_many (e 128 j) K (fst (fst z)) (snd (fst z)) (snd z)) (okL 1 len).
  Proof.
    intros HK Hlen. assert (Hn : (0 < nchunks 128 len)%nat) by (apply (nchunks_bound 128 len); lia).
    destruct (Z.to_nat K) as [|[|[|k]]] eqn:EK; [lia|lia|lia|].
    eapply (pq_to i _ _ _ _ (fun _ z => (transpose_pack_u128 K (fst (fst z)), transpose_pack_u128 K (snd (fst z)), transpose_pack_u128 K (snd z))) _ (pp_adder_core k (nchunks 128 len) len Hn)).
    - intros j z (H1 & H2 & H3). unfold rows3. cbn [fst snd]. rewrite <- EK.
      assert (G : forall l : list share, length l = len -> okR (Z.to_nat K) (nchunks 128 len) (transpose_pack_u128 K l)) by (intros l <-; apply transpose_pack_ok).
      auto.
    - intros j z st (H1 & H2 & H3). unfold msb_adder_many. rewrite H1, H2, H3, Nat.eqb_refl. cbn [negb orb]. reflexivity.
  Qed.
  Lemma pp_msb_many_len K len : In K widths -> 3 <= K -> (0 < len)%nat -> pq (fun x : list share => length x = len) (fun j x => get_msb_many tape j K x) (okL 1 len).
  Proof.
    intros HW HK Hlen.
    eapply (pq_to i _ _ _ _ (fun j x => (map (fun t => fst (fst t)) (map (a2b_pre j) x), map (fun t => snd (fst t)) (map (a2b_pre j) x), map snd (map (a2b_pre j) x))) _ (pp_msb_adder K len HK Hlen)); [|reflexivity].
    intros j x H. cbn [fst snd]. rewrite !map_length. auto.
  Qed.
  Lemma pp_msb_many K len : In K widths -> 3 <= K -> (0 < len)%nat -> pq (okL K len) (fun j x => get_msb_many tape j K x) (okL 1 len).
  Proof.
    intros HW HK Hlen. apply (pq_to i _ _ _ _ (fun j x => x) _ (pp_msb_many_len K len HW HK Hlen)); [|reflexivity]. intros j x [H _]. exact H.
  Qed.

  (** ** OR reduction *)
  Lemma pp_or8 : pq (fun _ : share => True) (fun j x => reduce_or_u8 (e 1 j) x) (okS 1).
  Proof.
    pose (bit := fun (v : Z) (n : nat) => if rand_ (rshr 8 v (Z.of_nat n)) 1 =? 1 then 1 else 0).
    pose (dec := fun x => map (fun n => Share (bit (sa x) n) (bit (sb x) n)) (seq 0 8)).
    assert (Hd : forall x, okL 1 8 (dec x)).
    { intros x. unfold dec. split; [reflexivity|]. apply Forall_map, Forall_forall. intros n _.
      split; cbn [sa sb]; unfold bit; match goal with |- context [if ?b then _ else _] => destruct b end; unfold inr; cbn; lia. }
    apply (pq_to i (fun _ => True) (fun j x => bindM (or_many (e 1 j) (firstn 4 (dec x)) (skipn 4 (dec x))) (fun d4 =>
       bindM (or_many (e 1 j) (firstn 2 d4) (skipn 2 d4)) (fun d2 => bindM (or_many (e 1 j) (firstn 1 d2) (skipn 1 d2)) (fun d1 => resM (index d1 0))))) _ _ (fun _ x => x)); [|auto|reflexivity].
    eapply (pq_step i _ _ _ _ (fun j x => (firstn 4 (dec x), skipn 4 (dec x))) (fun j x d4 =>
       bindM (or_many (e 1 j) (firstn 2 d4) (skipn 2 d4)) (fun d2 => bindM (or_many (e 1 j) (firstn 1 d2) (skipn 1 d2)) (fun d1 => resM (index d1 0)))) _ (pp_or_many i 1 W1 4)).
    { intros j x _. cbn [fst snd]. split; [apply (okL_firstn (n := 8)); [lia|apply Hd]|apply (okL_skipn (n := 8) 4), Hd]. }
    eapply (pq_step i _ _ _ _ (fun j z => (firstn 2 (snd z), skipn 2 (snd z))) (fun j z d2 => bindM (or_many (e 1 j) (firstn 1 d2) (skipn 1 d2)) (fun d1 => resM (index d1 0))) _ (pp_or_many i 1 W1 2)).
    { intros j z [_ H]. cbn [fst snd]. split; [apply (okL_firstn (n := 4)); [lia|apply H]|apply (okL_skipn (n := 4) 2), H]. }
    eapply (pq_step i _ _ _ _ (fun j z => (firstn 1 (snd z), skipn 1 (snd z))) (fun j z d1 => resM (index d1 0)) _ (pp_or_many i 1 W1 1)).
    { intros j z [_ H]. cbn [fst snd]. split; [apply (okL_firstn (n := 2)); [lia|apply H]|apply (okL_skipn (n := 2) 1), H]. }
    apply (pq_end i _ (fun j z => index (snd z) 0)). intros j z [_ H]. apply (okL_index _ _ H). lia.
  Qed.
  Lemma split_ok H x : 0 <= H -> okS H (fst (split_share H x)) /\ okS H (snd (split_share H x)).
  Proof. intros HH. unfold split_share, okS. cbn [fst snd sa sb]. repeat match goal with |- _ /\ _ => split end; apply inr_mod, HH. Qed.
  Lemma pp_halve H (f : pid -> share -> MT share) (D : share -> Prop) : In H widths -> (forall x, okS H x -> D x) ->
    pq D f (okS 1) -> pq (fun _ : share => True) (fun j x => let '(l, h) := split_share H x in bindM (b_or (e H j) l h) (f j)) (okS 1).
  Proof.
    intros HW HD Hf. assert (HH : 0 <= H) by (pose proof (width_pos H HW); lia).
    eapply (pq_step i _ _ _ _ (fun j x => split_share H x) (fun j x o => f j o) _ (pp_or i H HW)).
    - intros j x _. apply split_ok, HH.
    - eapply (pq_to i _ _ _ _ (fun _ z => snd z) _ Hf); [|reflexivity]. intros j z [_ H1]. apply HD, H1.
  Qed.
  Ltac inw := cbn [In widths]; tauto.
  Lemma pp_or128 : pq (fun _ : share => True) (fun j x => reduce_or_u128 (e 1 j) (e 8 j) (e 16 j) (e 32 j) (e 64 j) x) (okS 1).
  Proof.
    unfold reduce_or_u128, reduce_or_u64, reduce_or_u32, reduce_or_u16.
    refine (pp_halve 64 (fun j x => _) (fun _ => True) ltac:(inw) (fun _ _ => I) _).
    refine (pp_halve 32 (fun j x => _) (fun _ => True) ltac:(inw) (fun _ _ => I) _).
    refine (pp_halve 16 (fun j x => _) (fun _ => True) ltac:(inw) (fun _ _ => I) _).
    refine (pp_halve 8 (fun j x => _) (fun _ => True) ltac:(inw) (fun _ _ => I) _).
    apply pp_or8.
  Qed.
  Lemma okL_chunks K n ch l : okL K n l -> Forall2 (fun u y => okL K y u) (chunks ch l) (chunk_lens ch n).
  Proof.
    intros [H1 H2]. rewrite <- H1, <- chunk_lens_eq. pose proof (chunks_incl (okS K) ch l H2) as H3. induction H3; cbn [map]; constructor; [split; auto|assumption].
  Qed.
  Lemma okL_concat K rs ls : Forall2 (fun u y => okL K y u) rs ls -> okL K (list_sum ls) (concat rs).
  Proof. induction 1 as [|u y rs ls H HF IH]; [split; [reflexivity|constructor]|]. cbn [concat]. unfold list_sum. cbn [fold_right]. apply okL_app; assumption. Qed.
  Lemma chunk_lens_sum ch n : (0 < ch)%nat -> list_sum (chunk_lens ch n) = n.
  Proof.
    intros Hc. unfold chunk_lens. rewrite <- (repeat_length tt n) at 2. rewrite <- (chunks_concat ch (repeat tt n) Hc) at 2.
    generalize (chunks ch (repeat tt n)). induction l as [|c l IH]; [reflexivity|]. cbn [map concat]. rewrite app_length. unfold list_sum in *. cbn [fold_right]. rewrite IH. reflexivity.
  Qed.
  Lemma pp_or_tree_loop ch : (0 < ch)%nat -> forall fuel num, (num <= fuel)%nat -> (0 < num)%nat ->
    pq (okL 128 num) (fun j x => or_tree_loop (e 128 j) fuel ch num x) (fun r => exists m, okL 128 (S m) r).
  Proof.
    intros Hch. induction fuel as [|fuel IH]; intros num Hf Hn; [lia|].
    destruct (Nat.ltb 1 num) eqn:E.
    - apply Nat.ltb_lt in E. set (n := Nat.div2 num). set (m := Nat.modulo num 2).
      assert (En : num = (2 * n + m)%nat). { unfold n, m. rewrite Nat.div2_div. apply Nat.div_mod. lia. }
      assert (Hm : (m < 2)%nat) by (apply Nat.mod_upper_bound; lia).
      apply (pq_to i (okL 128 num) (fun j x => bindM (mapM2 (or_many (e 128 j)) (chunks ch (firstn n x)) (chunks ch (firstn n (skipn n x)))) (fun rs =>
          or_tree_loop (e 128 j) fuel ch (n + m) (concat rs ++ skipn n (skipn n x)))) _ _ (fun _ x => x)); [|auto|].
      + eapply (pq_step i _ _ _ _ (fun j x => ((tt, chunks ch (firstn n x)), chunks ch (firstn n (skipn n x)))) (fun j x rs => or_tree_loop (e 128 j) fuel ch (n + m) (concat rs ++ skipn n (skipn n x))) _
          (pp_mapM2 i [] [] (fun _ : unit => True) (fun u y => okL 128 y u) (fun u y => okL 128 y u) (fun u y => okL 128 y u) (fun y => y) (fun j _ a b => or_many (e 128 j) a b) (chunk_lens ch n) _)).
        * intros j x Hx. cbn [fst snd]. split; [exact I|]. split; apply okL_chunks.
          -- apply (okL_firstn n x (n := num)); [lia|exact Hx].
          -- pose proof (okL_skipn n x Hx) as H1. apply (okL_firstn n _ (n := (num - n)%nat)); [lia|exact H1].
        * eapply (pq_to i _ _ _ _ (fun _ z => concat (snd z) ++ skipn n (skipn n (fst z))) _ (IH (n + m)%nat _ _)); [|reflexivity].
          intros j z [H1 H2]. rewrite map_id in H2. apply okL_app.
          -- rewrite <- (chunk_lens_sum ch n Hch). apply okL_concat, H2.
          -- pose proof (okL_skipn n _ (okL_skipn n _ H1)) as H3. replace (num - n - n)%nat with m in H3 by lia. exact H3.
      + intros j x st Hx. cbn [or_tree_loop]. rewrite (proj2 (Nat.ltb_lt 1 num) E). destruct ch; [lia|]. reflexivity.
      Unshelve.
      * intros y _. eapply (pq_to i _ _ _ _ (fun _ z => (snd (fst z), snd z)) _ (pp_or_many i 128 W128 y)); [|reflexivity]. intros j z (_ & H1 & H2). cbn [fst snd]. auto.
      * lia.
      * lia.
    - apply Nat.ltb_ge in E. apply (pq_to i (okL 128 num) (fun j x => retM x) _ _ (fun _ x => x)); [|auto|].
      + apply (pq_ret i _ (fun _ x => x)). intros j x Hx. exists O. replace 1%nat with num by lia. exact Hx.
      + intros j x st Hx. cbn [or_tree_loop]. rewrite (proj2 (Nat.ltb_ge 1 num) E). reflexivity.
  Qed.
  Lemma pp_or_tree ch num : (0 < ch)%nat -> (0 < num)%nat -> pq (okL 128 num) (fun j x => or_tree (e 128 j) x ch) (okS 128).
  Proof.
    intros Hch Hn. apply (pq_to i (okL 128 num) (fun j x => bindM (or_tree_loop (e 128 j) num ch num x) (fun r => resM (index r 0))) _ _ (fun _ x => x)); [|auto|].
    - eapply (pq_step i _ _ _ _ (fun _ x => x) (fun j x r => resM (index r 0)) _ (pp_or_tree_loop ch Hch num num (le_n _) Hn)); [auto|].
      apply (pq_end i _ (fun j z => index (snd z) 0)). intros j z [_ [m H]]. apply (okL_index _ _ H). lia.
    - intros j x st [Hx _]. unfold or_tree. rewrite Hx. reflexivity.
  Qed.
  Lemma pack_word_ok l : Forall (okS 1) l -> okS 128 (pack_word 128 l).
  Proof.
    unfold pack_word. generalize O. intros k0 H.
    assert (G : forall l k acc, Forall (okS 1) l -> okS 128 acc -> okS 128 (fold_left (fun acc nb => Share (ror (sa acc) (rshl 128 (sa (snd nb)) (Z.of_nat (fst nb)))) (ror (sb acc) (rshl 128 (sb (snd nb)) (Z.of_nat (fst nb))))) (combine (seq k (length l)) l) acc)).
    { clear. induction l as [|x l IH]; intros k acc H Ha; [exact Ha|]. cbn [length seq combine fold_left]. inversion H as [|? ? [X1 X2] H']; subst. apply IH; [assumption|].
      destruct Ha. assert (In1 : forall z, inr 1 z -> inr 128 z) by (intros z; unfold inr; change (2 ^ 1) with 2; intros; split; [lia|]; apply Z.lt_trans with 2; [lia|reflexivity]).
      split; cbn [sa sb]; apply inr_lor; try lia; try assumption; apply inr_rshl; try lia; apply In1; assumption. }
    apply G; [exact H|apply okS_zero; lia].
  Qed.
  Lemma pp_reduce_or n ch : (0 < ch)%nat -> (0 < n)%nat -> pq (okL 1 n) (fun j x => aby3_reduce_binary_or tape j x ch) (okS 1).
  Proof.
    intros Hch Hn. unfold aby3_reduce_binary_or, reduce_binary_or.
    assert (HN : (0 < nchunks 128 n)%nat) by (apply (nchunks_bound 128 n); lia).
    eapply (pq_step i _ _ _ _ (fun j x => pack 128 x) (fun j x r => reduce_or_u128 (e 1 j) (e 8 j) (e 16 j) (e 32 j) (e 64 j) r) _ (pp_or_tree ch (nchunks 128 n) Hch HN)).
    - intros j x [H1 H2]. unfold pack. split; [rewrite map_length, chunks_length, H1 by (cbn; lia); reflexivity|].
      apply Forall_map. eapply Forall_impl; [|apply chunks_incl, H2]. intros c Hc. apply pack_word_ok, Hc.
    - eapply (pq_to i _ _ _ _ (fun _ z => snd z) _ pp_or128); [|reflexivity]. intros j z _. exact I.
  Qed.
End Sliced.
