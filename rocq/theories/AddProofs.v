(** Correctness of binary_add_3 and binary_add_3_many over any correct engine. *)
From Verif Require Import Base Ring RingProofs Prog Sched Rel BinTrait BitArith BinProofs.
From Coq Require Import ZifyBool ZifyNat.

Fixpoint map3 {A B C D} (f : A -> B -> C -> D) (l : list A) (l' : list B) (l'' : list C) : list D :=
  match l, l', l'' with
  | a :: t, b :: t', c :: t'' => f a b c :: map3 f t t' t''
  | _, _, _ => []
  end.

Lemma map2_app {A B C} (f : A -> B -> C) l1 l2 r1 r2 : length l1 = length r1 ->
  map2 f (l1 ++ l2) (r1 ++ r2) = map2 f l1 r1 ++ map2 f l2 r2.
Proof. revert r1. induction l1 as [|a l IH]; intros [|b r1] H; simpl in *; try lia; [reflexivity|]. rewrite IH by lia. reflexivity. Qed.
Lemma map2_map_map {A B C D} (f : B -> C -> D) (g : A -> B) (h : A -> C) l :
  map2 f (map g l) (map h l) = map (fun a => f (g a) (h a)) l.
Proof. induction l as [|a l IH]; [reflexivity|]. simpl. rewrite IH. reflexivity. Qed.
Lemma firstn_length_app {A} (l l' : list A) : firstn (length l) (l ++ l') = l.
Proof. rewrite firstn_app, Nat.sub_diag, firstn_all, firstn_O, app_nil_r. reflexivity. Qed.
Lemma skipn_length_app {A} (l l' : list A) : skipn (length l) (l ++ l') = l'.
Proof. rewrite skipn_app, Nat.sub_diag, skipn_all. reflexivity. Qed.

Section Add.
  Context {G S Sh : Type} (E : pid -> Z -> bineng S Sh) (R : Z -> (pid -> Sh) -> Z -> Prop)
    (Inv : G -> (pid -> S) -> Prop) (g_and : Z -> nat -> G -> G).
  Hypothesis OK : bin_ok E R Inv g_and.
  Variable K : Z.
  Hypothesis HK : In K widths.
  Let xor := bo_xor _ _ _ _ OK.
  Let shl := bo_shl _ _ _ _ OK.

  Fixpoint g_rounds (n : nat) (m : nat) (g : G) : G :=
    match n with O => g | Datatypes.S n' => g_and K m (g_rounds n' m g) end.
  Definition g_add3 (g : G) : G := g_rounds (ceil_log2 K) 2 (g_and K 1%nat (g_and K 1%nat g)).
  Definition g_add3_many (n : nat) (g : G) : G := g_rounds (ceil_log2 K) (n + n) (g_and K n (g_and K n g)).

  Lemma ks_rounds_ok n : forall j P G0 p g s gh, Inv gh s -> R K P p -> R K G0 g ->
    wpM (fun i => foldM (ks_round (E i K)) (seq j n) (P i, G0 i)) s
      (fun s' W => Inv (g_rounds n 2 gh) s' /\
         R K (fun i => snd (W i)) (snd (fold_left (ks_plain K) (seq j n) (p, g)))).
  Proof.
    assert (Hr : forall n gh, g_rounds n 2 (g_and K 2%nat gh) = g_and K 2%nat (g_rounds n 2 gh)).
    { intros m gh. induction m as [|m IH]; [reflexivity|]. cbn [g_rounds]. rewrite IH. reflexivity. }
    induction n as [|n IH]; intros j P G0 p g s gh Hs HP HG.
    - cbn [seq foldM fold_left g_rounds]. apply (wpM_ret (fun i => (P i, G0 i))). split; [exact Hs|exact HG].
    - cbn [seq foldM fold_left g_rounds].
      apply (wpM_bind (fun i => ks_round (E i K) (P i, G0 i) j) (fun i c => foldM (ks_round (E i K)) (seq (Datatypes.S j) n) c)).
      unfold ks_round at 1.
      assert (Hsh : 0 <= 2 ^ Z.of_nat j) by (apply Z.pow_nonneg; lia).
      pose proof (shl K P p _ HK HP Hsh) as HP_. pose proof (shl K G0 g _ HK HG Hsh) as HG_.
      apply (wpM_bind (fun i => b_and_many (E i K) [P i; P i] [b_shl (E i K) (G0 i) (2 ^ Z.of_nat j); b_shl (E i K) (P i) (2 ^ Z.of_nat j)])
        (fun i r => bindM (resM (index r 1)) (fun p' => bindM (resM (index r 0)) (fun r0 => retM (p', b_xor (E i K) (G0 i) r0))))).
      eapply wpM_mono; [|apply (bo_and_many _ _ _ _ OK K gh s _ [p; p] _ [rshl K g (2 ^ Z.of_nat j); rshl K p (2 ^ Z.of_nat j)]);
        [exact HK|exact Hs| | |reflexivity]].
      + intros s1 W [Hs1 HW]. cbn [map2 length] in HW, Hs1.
        apply RL_inv_cons in HW. destruct HW as (W0 & W' & EW & HW0 & HW').
        apply RL_inv_cons in HW'. destruct HW' as (W1 & W'' & EW' & HW1 & HW'').
        apply (wpM_bind (fun i => resM (index (W i) 1))
                 (fun i p' => bindM (resM (index (W i) 0)) (fun r0 => retM (p', b_xor (E i K) (G0 i) r0)))).
        apply (wpM_res _ W1). { intros i. rewrite EW, EW'. reflexivity. }
        apply (wpM_bind (fun i => resM (index (W i) 0)) (fun i r0 => retM (W1 i, b_xor (E i K) (G0 i) r0))).
        apply (wpM_res _ W0). { intros i. rewrite EW. reflexivity. }
        apply (wpM_ret (fun i => (W1 i, b_xor (E i K) (G0 i) (W0 i)))).
        eapply wpM_mono; [|apply (IH (Datatypes.S j) W1 (fun i => b_xor (E i K) (G0 i) (W0 i)) _ (Z.lxor g (Z.land p (rshl K g (2 ^ Z.of_nat j)))) s1 _ Hs1 HW1)].
        * intros s2 V [Hs2 HV]. split; [rewrite <- Hr; exact Hs2|exact HV].
        * apply xor; assumption.
      + apply (RL_cons' (R K) P p (fun i => [P i]) [p] HP). apply RL_cons'; [exact HP|apply RL_nil'].
      + apply (RL_cons' (R K) (fun i => b_shl (E i K) (G0 i) (2 ^ Z.of_nat j)) _
                 (fun i => [b_shl (E i K) (P i) (2 ^ Z.of_nat j)]) [rshl K p (2 ^ Z.of_nat j)] HG_).
        apply (RL_cons' (R K) (fun i => b_shl (E i K) (P i) (2 ^ Z.of_nat j))); [exact HP_|apply RL_nil'].
  Qed.

  Lemma binary_add_3_ok g s X1 x1 X2 x2 X3 x3 : Inv g s -> R K X1 x1 -> R K X2 x2 -> R K X3 x3 ->
    wpM (fun i => binary_add_3 (E i K) (X1 i) (X2 i) (X3 i)) s
      (fun s' W => Inv (g_add3 g) s' /\ R K W (norm K (x1 + x2 + x3))).
  Proof.
    intros Hs H1 H2 H3.
    pose proof (bo_range _ _ _ _ OK _ _ _ H1) as r1. pose proof (bo_range _ _ _ _ OK _ _ _ H2) as r2.
    pose proof (bo_range _ _ _ _ OK _ _ _ H3) as r3.
    rewrite <- add3_plain_spec by assumption.
    unfold binary_add_3.
    pose proof (xor K X2 x2 X3 x3 HK H2 H3) as H23.
    pose proof (xor K X1 x1 _ _ HK H1 H23) as Hsum. change (Z.lxor x1 (Z.lxor x2 x3)) with (sum3 x1 x2 x3) in Hsum.
    pose proof (xor K X1 x1 X3 x3 HK H1 H3) as H13.
    apply (wpM_bind (fun i => b_and (E i K) (b_xor (E i K) (X1 i) (X3 i)) (b_xor (E i K) (X2 i) (X3 i)))).
    eapply wpM_mono; [|apply (bo_and _ _ _ _ OK K g s _ _ _ _ HK Hs H13 H23)].
    intros s1 C0 [Hs1 HC0]. cbv beta.
    pose proof (xor K C0 _ X3 x3 HK HC0 H3) as HC1. change (Z.lxor (Z.land (Z.lxor x1 x3) (Z.lxor x2 x3)) x3) with (maj3 x1 x2 x3) in HC1.
    pose proof (shl K _ _ 1 HK HC1 ltac:(lia)) as HC. cbv beta in HC.
    pose proof (xor K _ _ _ _ HK Hsum HC) as HP. cbv beta in HP.
    eapply wpM_bind. eapply wpM_mono; [|apply (bo_and _ _ _ _ OK K _ s1 _ _ _ _ HK Hs1 Hsum HC)].
    intros s2 G0 [Hs2 HG]. cbv beta.
    eapply wpM_bind.
    eapply wpM_ext; [|eapply wpM_mono; [|apply (ks_rounds_ok (ceil_log2 K) 0 _ G0 _ _ s2 _ Hs2 HP HG)]].
    { intros i. cbv beta. rewrite (bo_width _ _ _ _ OK i K). reflexivity. }
    intros s3 W [Hs3 HW]. cbv beta. apply wpM_ret. split; [exact Hs3|].
    unfold add3_plain, add_plain.
    pose proof (shl K _ _ 1 HK HW ltac:(lia)) as HW1. cbv beta in HW1.
    exact (xor K _ _ _ _ HK HP HW1).
  Qed.

  (** ** The vector version *)
  Lemma ks_rounds_many_ok n : forall j P G0 (L : list (Z * Z)) s gh, Inv gh s ->
    RL (R K) P (map fst L) -> RL (R K) G0 (map snd L) ->
    wpM (fun i => foldM (ks_round_many (E i K) (length L)) (seq j n) (P i, G0 i)) s
      (fun s' W => Inv (g_rounds n (length L + length L) gh) s' /\
         RL (R K) (fun i => snd (W i)) (map (fun pg => snd (fold_left (ks_plain K) (seq j n) pg)) L)).
  Proof.
    assert (Hr : forall m n gh, g_rounds n m (g_and K m gh) = g_and K m (g_rounds n m gh)).
    { intros m k gh. induction k as [|k IH]; [reflexivity|]. cbn [g_rounds]. rewrite IH. reflexivity. }
    induction n as [|n IH]; intros j P G0 L s gh Hs HP HG.
    - cbn [seq foldM fold_left g_rounds]. apply (wpM_ret (fun i => (P i, G0 i))). split; [exact Hs|exact HG].
    - cbn [seq foldM fold_left g_rounds].
      apply (wpM_bind (fun i => ks_round_many (E i K) (length L) (P i, G0 i) j)
              (fun i c => foldM (ks_round_many (E i K) (length L)) (seq (Datatypes.S j) n) c)).
      unfold ks_round_many at 1.
      assert (Hsh : 0 <= 2 ^ Z.of_nat j) by (apply Z.pow_nonneg; lia).
      pose proof (shl_many_ok E R Inv g_and OK K HK P _ _ HP Hsh) as HP_.
      pose proof (shl_many_ok E R Inv g_and OK K HK G0 _ _ HG Hsh) as HG_.
      rewrite map_map in HP_, HG_.
      eapply wpM_bind.
      eapply wpM_mono; [|apply (bo_and_many _ _ _ _ OK K gh s _ (map fst L ++ map fst L) _
          (map (fun x => rshl K (snd x) (2 ^ Z.of_nat j)) L ++ map (fun x => rshl K (fst x) (2 ^ Z.of_nat j)) L));
          [exact HK|exact Hs| | |]].
      + intros s1 W [Hs1 HW]. cbv beta.
        rewrite map2_app in HW by (rewrite !map_length; reflexivity). rewrite !map2_map_map in HW.
        rewrite app_length, !map_length in Hs1.
        set (L0 := map (fun a => Z.land (fst a) (rshl K (snd a) (2 ^ Z.of_nat j))) L) in *.
        set (L1 := map (fun a => Z.land (fst a) (rshl K (fst a) (2 ^ Z.of_nat j))) L) in *.
        assert (HL0 : length L0 = length L) by (unfold L0; apply map_length).
        assert (HW0 : RL (R K) (fun i => firstn (length L) (W i)) L0).
        { pose proof (RL_firstn _ _ _ (length L) HW) as H. rewrite <- HL0, firstn_length_app, HL0 in H. exact H. }
        assert (HW1 : RL (R K) (fun i => skipn (length L) (W i)) L1).
        { pose proof (RL_skipn _ _ _ (length L) HW) as H. rewrite <- HL0, skipn_length_app, HL0 in H. exact H. }
        destruct (xor_many_ok E R Inv g_and OK K HK G0 _ _ _ HG HW0) as [Ex Rx].
        { rewrite HL0, map_length. reflexivity. }
        apply (wpM_bind (fun i => resM (expect (xor_many (E i K) (G0 i) (firstn (length L) (W i)))))
                 (fun i g' => retM (skipn (length L) (W i), g'))).
        apply (wpM_res _ (fun i => map2 (b_xor (E i K)) (G0 i) (firstn (length L) (W i)))).
        { intros i. rewrite Ex. reflexivity. }
        apply (wpM_ret (fun i => (skipn (length L) (W i), map2 (b_xor (E i K)) (G0 i) (firstn (length L) (W i))))).
        pose (L' := map (fun pg => ks_plain K pg j) L).
        assert (HL' : length L' = length L) by (unfold L'; apply map_length).
        assert (E1 : map fst L' = L1).
        { unfold L', L1. rewrite map_map. apply map_ext. intros [p g]. reflexivity. }
        assert (E2 : map snd L' = map2 Z.lxor (map snd L) L0).
        { unfold L', L0. rewrite map_map, map2_map_map. apply map_ext. intros [p g]. reflexivity. }
        specialize (IH (Datatypes.S j) (fun i => skipn (length L) (W i))
           (fun i => map2 (b_xor (E i K)) (G0 i) (firstn (length L) (W i))) L' s1 _ Hs1).
        rewrite E1, E2, HL' in IH. specialize (IH HW1 Rx).
        eapply wpM_mono; [|exact IH]. intros s2 V [Hs2 HV]. split; [rewrite <- Hr; exact Hs2|].
        unfold L' in HV. rewrite map_map in HV. exact HV.
      + apply RL_app; exact HP.
      + apply RL_app; [exact HG_|exact HP_].
      + rewrite !app_length, !map_length. reflexivity.
  Qed.

  Lemma binary_add_3_many_ok g s X1 xs1 X2 xs2 X3 xs3 : Inv g s ->
    RL (R K) X1 xs1 -> RL (R K) X2 xs2 -> RL (R K) X3 xs3 -> length xs1 = length xs2 -> length xs1 = length xs3 ->
    wpM (fun i => binary_add_3_many (E i K) (X1 i) (X2 i) (X3 i)) s
      (fun s' W => Inv (g_add3_many (length xs1) g) s' /\
         RL (R K) W (map3 (fun x1 x2 x3 => norm K (x1 + x2 + x3)) xs1 xs2 xs3)).
  Proof.
    intros Hs H1 H2 H3 L12 L13.
    assert (Hrng : forall X xs, RL (R K) X xs -> Forall (inr K) xs).
    { intros X xs H. induction H; constructor; eauto using (bo_range _ _ _ _ OK). }
    assert (Hplain : map3 (fun x1 x2 x3 => norm K (x1 + x2 + x3)) xs1 xs2 xs3 = map3 (add3_plain K) xs1 xs2 xs3).
    { pose proof (Hrng _ _ H1) as F1. pose proof (Hrng _ _ H2) as F2. pose proof (Hrng _ _ H3) as F3. clear - F1 F2 F3 HK.
      revert xs2 xs3 F2 F3. induction F1 as [|x1 xs1 r1 F1 IH]; intros xs2 xs3 F2 F3; [reflexivity|].
      destruct F2 as [|x2 xs2 r2 F2]; [reflexivity|]. destruct F3 as [|x3 xs3 r3 F3]; [reflexivity|].
      cbn [map3]. rewrite IH by assumption. rewrite add3_plain_spec by assumption. reflexivity. }
    rewrite Hplain. clear Hplain Hrng.
    apply (wpM_ext (fun i =>
      bindM (resM (expect (xor_many (E i K) (X2 i) (X3 i)))) (fun x2x3 =>
      bindM (resM (expect (xor_many (E i K) (X1 i) x2x3))) (fun s0 =>
      bindM (resM (expect (xor_many (E i K) (X1 i) (X3 i)))) (fun x1x3 =>
      bindM (b_and_many (E i K) x1x3 x2x3) (fun c0 =>
      bindM (resM (expect (xor_many (E i K) c0 (X3 i)))) (fun c1 =>
      let c := shl_many (E i K) c1 1 in
      bindM (resM (expect (xor_many (E i K) s0 c))) (fun p =>
      bindM (b_and_many (E i K) s0 c) (fun g =>
      bindM (foldM (ks_round_many (E i K) (length xs1)) (seq 0 (ceil_log2 K)) (p, g)) (fun pg =>
      resM (xor_many (E i K) p (shl_many (E i K) (snd pg) 1)))))))))))).
    { intros i. unfold binary_add_3_many.
      rewrite (RL_length _ _ _ H1), (RL_length _ _ _ H2), (RL_length _ _ _ H3), <- L12, <- L13, Nat.eqb_refl.
      rewrite (bo_width _ _ _ _ OK i K). reflexivity. }
    assert (Hex : forall A (r : pid -> res A) a, (forall i, r i = Ok (a i)) -> forall i, expect (r i) = Ok (a i)).
    { intros A r a H i. rewrite H. reflexivity. }
    pose proof (xor_many_ok E R Inv g_and OK K HK) as XM.
    destruct (XM X2 xs2 X3 xs3 H2 H3 ltac:(lia)) as [Ea Ra].
    eapply wpM_bind. eapply wpM_res; [exact (Hex _ _ _ Ea)|]. cbv beta.
    assert (l23 : length (map2 Z.lxor xs2 xs3) = length xs1) by (rewrite map2_length_eq; lia).
    destruct (XM X1 xs1 _ _ H1 Ra ltac:(lia)) as [Eb Rb].
    eapply wpM_bind. eapply wpM_res; [exact (Hex _ _ _ Eb)|]. cbv beta.
    destruct (XM X1 xs1 X3 xs3 H1 H3 ltac:(lia)) as [Ec Rc].
    eapply wpM_bind. eapply wpM_res; [exact (Hex _ _ _ Ec)|]. cbv beta.
    assert (l13 : length (map2 Z.lxor xs1 xs3) = length xs1) by (rewrite map2_length_eq; lia).
    eapply wpM_bind. eapply wpM_mono; [|apply (bo_and_many _ _ _ _ OK K g s _ _ _ _ HK Hs Rc Ra); lia].
    intros s1 C0 [Hs1 HC0]. cbv beta. rewrite l13 in Hs1.
    destruct (XM C0 _ X3 xs3 HC0 H3) as [Ed Rd]. { rewrite map2_length_eq; lia. }
    eapply wpM_bind. eapply wpM_res; [exact (Hex _ _ _ Ed)|]. cbv beta zeta.
    pose proof (shl_many_ok E R Inv g_and OK K HK _ _ 1 Rd ltac:(lia)) as Rs. cbv beta in Rs.
    set (ms := map (fun x => rshl K x 1) (map2 Z.lxor (map2 Z.land (map2 Z.lxor xs1 xs3) (map2 Z.lxor xs2 xs3)) xs3)) in *.
    set (ss := map2 Z.lxor xs1 (map2 Z.lxor xs2 xs3)) in *.
    assert (lss : length ss = length xs1) by (unfold ss; rewrite map2_length_eq; lia).
    assert (lms : length ms = length xs1).
    { unfold ms. rewrite map_length, map2_length_eq; rewrite map2_length_eq; lia. }
    destruct (XM _ ss _ ms Rb Rs ltac:(lia)) as [Ee Re].
    eapply wpM_bind. eapply wpM_res; [exact (Hex _ _ _ Ee)|]. cbv beta.
    eapply wpM_bind. eapply wpM_mono; [|apply (bo_and_many _ _ _ _ OK K _ s1 _ _ _ _ HK Hs1 Rb Rs); lia].
    intros s2 G0 [Hs2 HG]. cbv beta. rewrite lss in Hs2.
    pose (L := map2 (fun a b => (Z.lxor a b, Z.land a b)) ss ms).
    assert (lL : length L = length xs1) by (unfold L; rewrite map2_length_eq; lia).
    assert (mapmap2 : forall (A B C D : Type) (h : C -> D) (f : A -> B -> C) l l', map h (map2 f l l') = map2 (fun a b => h (f a b)) l l').
    { intros A B C D h f l. induction l as [|a l IHl]; intros [|b l']; simpl; try reflexivity. rewrite IHl. reflexivity. }
    assert (Ef : map fst L = map2 Z.lxor ss ms) by (unfold L; rewrite mapmap2; reflexivity).
    assert (Eg : map snd L = map2 Z.land ss ms) by (unfold L; rewrite mapmap2; reflexivity).
    rewrite <- Ef in Re. rewrite <- Eg in HG. rewrite <- lL in Hs2.
    eapply wpM_bind. rewrite <- lL.
    eapply wpM_mono; [|apply (ks_rounds_many_ok (ceil_log2 K) 0 _ G0 L s2 _ Hs2 Re HG)].
    intros s3 W [Hs3 HW]. cbv beta.
    pose proof (shl_many_ok E R Inv g_and OK K HK _ _ 1 HW ltac:(lia)) as RW. cbv beta in RW.
    destruct (XM _ _ _ _ Re RW) as [Ez Rz]. { rewrite !map_length. reflexivity. }
    eapply wpM_res; [exact Ez|]. split; [exact Hs3|].
    replace (map3 (add3_plain K) xs1 xs2 xs3) with
      (map2 Z.lxor (map fst L) (map (fun x => rshl K x 1) (map (fun pg => snd (fold_left (ks_plain K) (seq 0 (ceil_log2 K)) pg)) L)));
      [exact Rz|].
    rewrite map_map, map2_map_map. unfold L. rewrite mapmap2. unfold ss, ms.
    clear - L12 L13. revert xs2 xs3 L12 L13.
    induction xs1 as [|x1 xs1 IH]; intros [|x2 xs2] [|x3 xs3] L12 L13; simpl in L12, L13; try lia; [reflexivity|].
    cbn [map2 map map3]. f_equal. apply IH; lia.
  Qed.
End Add.
