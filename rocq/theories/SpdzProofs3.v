(** Honest runs of the SPDZ-wise engine, part 3: MACs, arithmetic, binary gates, the contracts. *)
From Verif Require Import Base Ring RingProofs Prog Sched Conc Rng Rel Net BinTrait BitArith BinProofs AddProofs Iris IrisSpec IrisProofs
  Protocol MpcSpec Plain Aby3 ShareSpec Aby3Proofs Aby3Proofs2 SlicedProofs OrProofs EngineProofs Client Jmp JmpProofs Aby3Mal Aby3MalProofs Aby3MalProofs2
  Spdz TripleSpec TripleProofs SpdzProofs SpdzProofs2.
From Coq Require Import ZifyBool ZifyNat.

Lemma dotp_scale U r vs rho : 0 <= U ->
  (dotp (map (fun v => (v * r) mod 2 ^ U) vs) rho) mod 2 ^ U = (dotp vs rho * r) mod 2 ^ U.
Proof.
  intros HU. unfold dotp. revert rho. induction vs as [|v vs IH]; intros [|h rho]; cbn [map map2 fold_right]; try reflexivity.
  specialize (IH rho). rewrite Zplus_mod, IH. rewrite <- Zplus_mod. modring.
Qed.
Lemma rl_map_ok {A A' B} (R : (pid -> A) -> B -> Prop) (R' : (pid -> A') -> B -> Prop) (f : pid -> A -> A') X xs :
  (forall Y y, R Y y -> R' (fun i => f i (Y i)) y) -> RL R X xs -> RL R' (fun i => map (f i) (X i)) xs.
Proof.
  intros Hf HX. induction HX as [X HX|X Y X0 y ys HX HY H IH].
  - apply RL_nil. intros i. rewrite HX. reflexivity.
  - apply (RL_cons _ _ (fun i => f i (Y i)) (fun i => map (f i) (X0 i))); auto. intros i. rewrite HX. reflexivity.
Qed.
Lemma auth_av U r X vs : RL (auth_shared U r) X vs -> RL (arith_shared U) (fun i => map av (X i)) vs.
Proof. apply (rl_map_ok _ _ (fun _ => av)). intros Y y [H _]. exact H. Qed.
Lemma auth_am U r X vs : RL (auth_shared U r) X vs -> RL (arith_shared U) (fun i => map am (X i)) (map (fun v => (v * r) mod 2 ^ U) vs).
Proof.
  intros H. apply (RL_map (auth_shared U r) (arith_shared U) (fun _ => am) (fun v => (v * r) mod 2 ^ U)); [|exact H].
  intros Y y [_ H']. exact H'.
Qed.
Lemma auth_ext U r X X' v : (forall i, X i = X' i) -> auth_shared U r X v -> auth_shared U r X' v.
Proof. intros E [H1 H2]. split; (eapply arel_ext; [|eassumption]); intros i; cbn beta; rewrite E; reflexivity. Qed.
Lemma auth_range U r X v : 0 <= U -> auth_shared U r X v -> inr U v.
Proof. intros HU [H _]. eapply arel_range; eassumption. Qed.
Lemma arel_eq U X x x' : x = x' -> arith_shared U X x -> arith_shared U X x'.
Proof. intros ->. auto. Qed.

Section AuthOps.
  Variables (U r : Z).
  Hypothesis HU0 : 0 <= U.
  Ltac areq := eapply arel_eq; [|eassumption]; try modring.
  Lemma azero_ok : auth_shared U r (fun _ => azero) 0.
  Proof using HU0. split; cbn [azero av am]; [apply szero_arel, HU0|]. rewrite Z.mul_0_l, Zmod_0_l. apply szero_arel, HU0. Qed.
  Lemma ash_add_ok X x Y y : auth_shared U r X x -> auth_shared U r Y y -> auth_shared U r (fun i => ash_add U (X i) (Y i)) ((x + y) mod 2 ^ U).
  Proof using HU0.
    intros [H1 H2] [H3 H4]. split; cbn [ash_add av am]; [apply sh_add_ok; assumption|].
    pose proof (sh_add_ok U HU0 _ _ _ _ H2 H4). areq.
  Qed.
  Lemma ash_sub_ok X x Y y : auth_shared U r X x -> auth_shared U r Y y -> auth_shared U r (fun i => ash_sub U (X i) (Y i)) ((x - y) mod 2 ^ U).
  Proof using HU0.
    intros [H1 H2] [H3 H4]. split; cbn [ash_sub av am]; [apply sh_sub_ok; assumption|].
    pose proof (sh_sub_ok U HU0 _ _ _ _ H2 H4). areq.
  Qed.
  Lemma ash_mulc_ok X x c : auth_shared U r X x -> auth_shared U r (fun i => ash_mulc U (X i) c) ((x * c) mod 2 ^ U).
  Proof using HU0.
    intros [H1 H2]. split; cbn [ash_mulc av am]; [apply sh_mulc_ok; assumption|].
    pose proof (sh_mulc_ok U HU0 _ _ c H2). areq.
  Qed.
  Lemma ash_add_const_ok G (s : pid -> sst G) X x c : arith_shared U (fun i => s_mac G (s i)) r -> auth_shared U r X x ->
    auth_shared U r (fun i => ash_add_const G i U (s i) (X i) c) ((x + c) mod 2 ^ U).
  Proof using HU0.
    intros HM [H1 H2]. split; cbn [ash_add_const av am]; [apply sh_add_const_ok; assumption|].
    pose proof (sh_add_ok U HU0 _ _ _ _ H2 (sh_mulc_ok U HU0 _ _ c HM)). areq.
  Qed.
  Lemma ash_sub_const_ok G (s : pid -> sst G) X x c : arith_shared U (fun i => s_mac G (s i)) r -> auth_shared U r X x ->
    auth_shared U r (fun i => ash_sub_const G i U (s i) (X i) c) ((x - c) mod 2 ^ U).
  Proof using HU0.
    intros HM [H1 H2]. split; cbn [ash_sub_const av am]; [apply sh_sub_const_ok; assumption|].
    pose proof (sh_sub_ok U HU0 _ _ _ _ H2 (sh_mulc_ok U HU0 _ _ c HM)). areq.
  Qed.
End AuthOps.

Section Spdz.
  Variable G : rng.
  Variable H : hasher.
  Variables (U r : Z).
  Hypothesis HU : In U widths.
  Let HU0 : 0 <= U. Proof. apply in_widths_pos in HU. lia. Qed.
  Notation ST := (sst G).
  Notation jinv := (jmp_inv G).
  Notation inv := (spdz_inv G U r).

  Lemma vq_push_ok X vs g s : inv g s -> RL (auth_shared U r) X vs ->
    wpM (fun i => vq_push G (X i)) s (fun s' _ => inv g s').
  Proof using Type.
    intros (J1 & J2 & (ws & J3) & J4 & J5) HX. unfold vq_push. wbind. apply wpM_get.
    apply (wpM_put s (fun i => SSt G (s_j G (s i)) (s_mac G (s i)) (s_vq G (s i) ++ X i) (s_prec G (s i)) (s_tb G (s i)))).
    split; [exact J1|]. split; [exact J2|]. split; [|split; [exact J4|exact J5]].
    exists (ws ++ vs). cbn [s_vq]. apply RL_app; assumption.
  Qed.

  Lemma gen_rands_ok (X : pid -> list ashare) (vs : list Z) R (s : pid -> prf G) : prf_synced s -> RL R X vs ->
    wpM (fun i => mapM (fun _ => gen_rand G U) (X i)) s
      (fun s' W => prf_synced s' /\ exists rho, length rho = length vs /\ RL (arith_shared U) W rho).
  Proof using HU.
    intros Hs HX.
    eapply wpM_mono; [|apply (wpM_mapM prf_synced (fun (_ : pid -> ashare) (_ : Z) => True)
       (fun Y (_ : unit) => exists r, arith_shared U Y r /\ True) (fun _ _ => gen_rand G U) (fun _ => tt)) with
       (X := X) (ys := vs)].
    - intros s' W [Hs' HW]. split; [exact Hs'|]. destruct (RL_exists _ (fun _ _ => True) _ _ HW) as (zs & Hz & HF).
      exists zs. split; [|exact Hz]. rewrite (Forall2_len _ _ _ HF), map_length. reflexivity.
    - intros s0 Y y Hs0 _. eapply wpM_mono; [|apply gen_rand_ok; [exact HU0|exact Hs0]].
      intros s' W (Hs' & r' & Hr). split; [exact Hs'|]. exists r'. auto.
    - exact Hs.
    - eapply RL_mono; [|exact HX]. auto.
  Qed.

  Lemma verify_macs_ok g s : inv g s -> wpM (fun i => verify_macs G H i U) s (fun s' _ => inv g s').
  Proof using HU.
    intros Hs. unfold verify_macs. wbind. apply wpM_get. destruct (proj1 (proj2 (proj2 Hs))) as (vs & Hvq).
    assert (EL : forall i, length (s_vq G (s i)) = length vs) by (intros i; apply (RL_length _ _ _ Hvq)).
    destruct (Nat.eqb (length vs) 0) eqn:E0.
    { apply (wpM_ext (fun _ => retM tt)); [intros i; rewrite EL, E0; reflexivity|]. apply wpM_ret. exact Hs. }
    match goal with |- wpM (fun i => if _ then _ else bindM (@?P i) (@?F i)) _ _ => apply (wpM_ext (fun i => bindM (P i) (F i))) end.
    { intros i. rewrite EL, E0. reflexivity. }
    wbind. eapply wpM_mono; [|apply (on_aby_ok G U r _ g s (fun W => exists rho, length rho = length vs /\ RL (arith_shared U) W rho) Hs);
      intros Hp; eapply gen_rands_ok; [exact Hp|exact Hvq]].
    cbn beta. intros s1 rands (Hs1 & F1 & rho & Lr & Hrho).
    wbind. apply wpM_get. wbind.
    set (s2 := fun i => SSt G (s_j G (s1 i)) (s_mac G (s1 i)) [] (s_prec G (s1 i)) (s_tb G (s1 i))).
    apply (wpM_put s1 s2).
    assert (Hs2 : inv g s2).
    { destruct Hs1 as (J1 & J2 & J3 & J4 & J5). split; [exact J1|]. split; [exact J2|]. split; [|split; [exact J4|exact J5]].
      exists []. apply RL_nil'. }
    assert (Hvq1 : RL (auth_shared U r) (fun i => s_vq G (s1 i)) vs).
    { eapply RL_ext; [|exact Hvq]. intros i. symmetry. apply F1. }
    wbind. eapply wpM_mono; [|apply (on_aby_ok G U r _ g s2 (fun W => RL (arith_shared U) W [dotp vs rho mod 2 ^ U; (dotp vs rho * r) mod 2 ^ U]) Hs2); intros Hp;
      eapply wpM_mono; [|apply (dot_many_ok G U _ [vs; map (fun v => (v * r) mod 2 ^ U) vs] _ [rho; rho] _ HU Hp)]].
    - cbn beta. intros s3 res (Hs3 & F3 & HR).
      destruct (RL_inv_cons _ _ _ _ HR) as (R0 & R' & E1 & HR0 & HR'). destruct (RL_inv_cons _ _ _ _ HR') as (R1 & R'' & E2 & HR1 & _).
      wbind. apply (wpM_res _ R0). { intros i. rewrite E1. reflexivity. }
      wbind. eapply wpM_mono; [|apply (on_aby_ok G U r _ g s3 (fun W => arith_shared U W ((dotp vs rho * r) mod 2 ^ U)) Hs3); intros Hp;
        eapply wpM_mono; [|apply (mul_ok G U R0 _ (fun i => s_mac G (s1 i)) r _ HU Hp HR0); apply Hs1]].
      + cbn beta. intros s4 m (Hs4 & F4 & Hm).
        wbind. apply (wpM_res _ R1). { intros i. rewrite E1, E2. reflexivity. }
        eapply wpM_mono; [|apply (on_j_ok G U r (fun i => zero_verify G H i U [sh_sub U (m i) (R1 i)]) g s4 (fun _ => True) Hs4);
          eapply wpM_mono; [|apply (zero_verify_ok G H U (fun i => [sh_sub U (m i) (R1 i)]) [0])]].
        * cbn beta. intros s5 ? (Hs5 & _). exact Hs5.
        * cbn beta. auto.
        * exact HU0.
        * apply RL_cons'; [|apply RL_nil']. eapply arel_eq; [|apply (sh_sub_ok U HU0 _ _ _ _ Hm HR1)]. rewrite Z.sub_diag. apply Zmod_0_l.
        * repeat constructor.
        * apply Hs4.
      + cbn beta. intros s4 m (Hp4 & Hm). split; [exact Hp4|]. eapply arel_eq; [|exact Hm]. modring.
    - cbn beta. intros s3 W (Hp3 & HW). split; [exact Hp3|]. cbn [map2] in HW. rewrite dotp_scale in HW by exact HU0. exact HW.
    - apply (RL_cons' _ (fun i => map av (s_vq G (s1 i)))); [apply (auth_av U r), Hvq1|].
      apply (RL_cons' _ (fun i => map am (s_vq G (s1 i)))); [apply (auth_am U r), Hvq1|]. apply RL_nil'.
    - apply (RL_cons' _ (fun i => rands i)); [exact Hrho|]. apply (RL_cons' _ (fun i => rands i)); [exact Hrho|]. apply RL_nil'.
    - repeat constructor; rewrite ?map_length; congruence.
  Qed.

  (** Binary gates also record their triple. *)
  Definition g_and (K : Z) (n : nat) (g : nat * Z) : nat * Z := (fst g, snd g + K * Z.of_nat n).
  Lemma tb_add_ok K X xs Y ys W g s : In K widths -> length xs = length ys -> inv g s ->
    RL (bin_shared K) X xs -> RL (bin_shared K) Y ys -> RL (bin_shared K) W (map2 Z.land xs ys) ->
    wpM (fun i => tb_add G K (X i) (Y i) (W i)) s (fun s' _ => inv (g_and K (length xs) g) s').
  Proof using Type.
    intros HK HL (J1 & J2 & J3 & J4 & J5) HX HY HW. unfold tb_add. wbind. apply wpM_get.
    apply (wpM_put s (fun i => SSt G (s_j G (s i)) (s_mac G (s i)) (s_vq G (s i)) (s_prec G (s i)) (add_many_t K (s_tb G (s i)) (X i) (Y i) (W i)))).
    split; [exact J1|]. split; [exact J2|]. split; [exact J3|]. split; [exact J4|]. cbn [s_tb].
    apply (add_many_t_inv K X xs Y ys W); auto. clear -HK. cbn in HK. lia.
  Qed.
  Lemma RL_one {A B} (R : (pid -> A) -> B -> Prop) X x : R X x -> RL R (fun i => [X i]) [x].
  Proof. intros HX. apply RL_cons'; [exact HX|apply RL_nil']. Qed.
  Lemma spdz_bin_ok : bin_ok (fun i K => spdz_bin G i K) brel inv g_and.
  Proof using Type.
    constructor.
    - reflexivity.
    - intros K X x [HK HX]. eapply brel_range; [|exact HX]. apply in_widths_pos in HK. lia.
    - intros K X X' x E [HK HX]. split; [exact HK|]. eapply brel_ext; eassumption.
    - intros K X x Y y HK [_ HX] [_ HY]. split; [exact HK|]. apply sh_xor_ok; auto. apply in_widths_pos in HK. lia.
    - intros K X x n HK [_ HX] Hn. split; [exact HK|]. apply sh_shl_ok; auto. apply in_widths_pos in HK. lia.
    - intros K g s X x Y y HK Hs [_ HX] [_ HY]. cbn [spdz_bin b_and]. unfold spdz_and. wbind.
      eapply wpM_mono; [|apply (on_aby_ok G U r _ g s (fun W => bin_shared K W (Z.land x y)) Hs); intros Hp; apply and_ok; assumption].
      cbn beta. intros s1 W (Hs1 & _ & HW). wbind.
      eapply wpM_mono; [|apply (tb_add_ok K (fun i => [X i]) [x] (fun i => [Y i]) [y] (fun i => [W i]) g s1 HK eq_refl Hs1); apply RL_one; assumption].
      cbn beta. intros s2 ? Hs2. apply wpM_ret. split; [exact Hs2|]. split; assumption.
    - intros K g s X xs Y ys HK Hs HX HY HL. cbn [spdz_bin b_and_many]. unfold spdz_and_many.
      apply RL_brel in HX; [|exact HK]. apply RL_brel in HY; [|exact HK]. wbind.
      eapply wpM_mono; [|apply aby_and_many_ok; eassumption].
      cbn beta. intros s1 W (Hs1 & _ & HW). wbind.
      eapply wpM_mono; [|apply (tb_add_ok K X xs Y ys W g s1 HK HL Hs1 HX HY HW)].
      cbn beta. intros s2 ? Hs2. apply wpM_ret. split; [exact Hs2|]. apply RL_brel; assumption.
  Qed.

  (** *** Authenticated multiplication *)
  Lemma mac_dotp xs ys : (dotp (map (fun v => (v * r) mod 2 ^ U) xs) ys) mod 2 ^ U = ((dotp xs ys mod 2 ^ U) * r) mod 2 ^ U.
  Proof using HU. rewrite dotp_scale by exact HU0. rewrite Zmult_mod_idemp_l. reflexivity. Qed.

  Lemma auth_mul_ok X x Y y g s : inv g s -> auth_shared U r X x -> auth_shared U r Y y ->
    wpM (fun i => bindM (on_aby G (mul_many G i U [av (X i); am (X i)] [av (Y i); av (Y i)])) (fun t => bindM (resM (index t 0)) (fun r0 => bindM (resM (index t 1)) (fun r1 =>
       bindM (vq_push G [AShare r0 r1]) (fun _ => retM (AShare r0 r1)))))) s
      (fun s' W => inv g s' /\ auth_shared U r W ((x * y) mod 2 ^ U)).
  Proof using HU.
    intros Hs [X1 X2] [Y1 Y2]. wbind.
    eapply wpM_mono; [|apply (on_aby_ok G U r _ g s (fun W => RL (arith_shared U) W [(x * y) mod 2 ^ U; (((x * r) mod 2 ^ U) * y) mod 2 ^ U]) Hs); intros Hp;
      apply (mul_many_ok G U _ [x; (x * r) mod 2 ^ U] _ [y; y] _ HU Hp)].
    - cbn beta. intros s1 T (Hs1 & _ & HT).
      destruct (RL_inv_cons _ _ _ _ HT) as (R0 & T' & E1 & HR0 & HT'). destruct (RL_inv_cons _ _ _ _ HT') as (R1 & T'' & E2 & HR1 & _).
      wbind. apply (wpM_res _ R0). { intros i. rewrite E1. reflexivity. }
      wbind. apply (wpM_res _ R1). { intros i. rewrite E1, E2. reflexivity. }
      assert (HA : auth_shared U r (fun i => AShare (R0 i) (R1 i)) ((x * y) mod 2 ^ U)).
      { split; cbn [av am]; [exact HR0|]. eapply arel_eq; [|exact HR1]. modring. }
      wbind. eapply wpM_mono; [|apply (vq_push_ok (fun i => [AShare (R0 i) (R1 i)]) [(x * y) mod 2 ^ U] g s1 Hs1); apply RL_one; exact HA].
      cbn beta. intros s2 ? Hs2. apply wpM_ret. split; [exact Hs2|exact HA].
    - repeat (apply RL_cons'; [assumption|]). apply RL_nil'.
    - repeat (apply RL_cons'; [assumption|]). apply RL_nil'.
  Qed.
  Lemma auth_dot_ok X xs Y ys g s : inv g s -> RL (auth_shared U r) X xs -> RL (auth_shared U r) Y ys -> length xs = length ys ->
    wpM (fun i => bindM (on_aby G (dot_many G i U [map av (X i); map am (X i)] [map av (Y i); map av (Y i)])) (fun t => bindM (resM (index t 0)) (fun r0 => bindM (resM (index t 1)) (fun r1 =>
       bindM (vq_push G [AShare r0 r1]) (fun _ => retM (AShare r0 r1)))))) s
      (fun s' W => inv g s' /\ auth_shared U r W (dotp xs ys mod 2 ^ U)).
  Proof using HU.
    intros Hs HX HY HL. wbind.
    eapply wpM_mono; [|apply (on_aby_ok G U r _ g s (fun W => RL (arith_shared U) W [dotp xs ys mod 2 ^ U; dotp (map (fun v => (v * r) mod 2 ^ U) xs) ys mod 2 ^ U]) Hs); intros Hp;
      apply (dot_many_ok G U _ [xs; map (fun v => (v * r) mod 2 ^ U) xs] _ [ys; ys] _ HU Hp)].
    - cbn beta. intros s1 T (Hs1 & _ & HT).
      destruct (RL_inv_cons _ _ _ _ HT) as (R0 & T' & E1 & HR0 & HT'). destruct (RL_inv_cons _ _ _ _ HT') as (R1 & T'' & E2 & HR1 & _).
      wbind. apply (wpM_res _ R0). { intros i. rewrite E1. reflexivity. }
      wbind. apply (wpM_res _ R1). { intros i. rewrite E1, E2. reflexivity. }
      assert (HA : auth_shared U r (fun i => AShare (R0 i) (R1 i)) (dotp xs ys mod 2 ^ U)).
      { split; cbn [av am]; [exact HR0|]. eapply arel_eq; [|exact HR1]. apply mac_dotp. }
      wbind. eapply wpM_mono; [|apply (vq_push_ok (fun i => [AShare (R0 i) (R1 i)]) [dotp xs ys mod 2 ^ U] g s1 Hs1); apply RL_one; exact HA].
      cbn beta. intros s2 ? Hs2. apply wpM_ret. split; [exact Hs2|exact HA].
    - apply RL_cons'; [apply (auth_av U r), HX|]. apply RL_cons'; [apply (auth_am U r), HX|]. apply RL_nil'.
    - apply RL_cons'; [apply (auth_av U r), HY|]. apply RL_cons'; [apply (auth_av U r), HY|]. apply RL_nil'.
    - repeat constructor; rewrite ?map_length; assumption.
  Qed.

  (** Additive sharings of a value and of its MAC, before resharing. *)
  Definition asum2 (L : pid -> Z * Z) (v : Z) : Prop := asum U (fun i => fst (L i)) v /\ asum U (fun i => snd (L i)) ((v * r) mod 2 ^ U).
  Lemma combine_maps {A B C D} (f : A -> B) (g : C -> D) l l' : combine (map f l) (map g l') = map (fun p => (f (fst p), g (snd p))) (combine l l').
  Proof using Type. revert l'. induction l as [|a l IH]; intros [|b l']; cbn; try reflexivity. rewrite IH. reflexivity. Qed.
  Lemma fold_left_map {A B C} (f : C -> B -> C) (g : A -> B) l c : fold_left f (map g l) c = fold_left (fun c a => f c (g a)) l c.
  Proof using Type. revert c. induction l as [|a l IH]; intros c; cbn; auto. Qed.
  Lemma fold_auth (f g : ashare -> share) (x y : list ashare) (c : Z) :
    fold_left (fun c xy => radd U c (local_mul U (f (fst xy)) (g (snd xy)))) (combine x y) c =
    fold_left (fun c xy => radd U c (local_mul U (fst xy) (snd xy))) (combine (map f x) (map g y)) c.
  Proof using Type. rewrite combine_maps, fold_left_map. reflexivity. Qed.
  Lemma combine_maps2 {A B C D E} (f : A -> B) (g : C -> D) l l' (m : list E) :
    combine (combine (map f l) (map g l')) m = map (fun p => ((f (fst (fst p)), g (snd (fst p))), snd p)) (combine (combine l l') m).
  Proof using Type. revert l' m. induction l as [|a l IH]; intros [|b l'] [|c m]; cbn; try reflexivity. rewrite IH. reflexivity. Qed.
  Lemma fold_mauth (f g : ashare -> share) (x y : list ashare) (m : list bool) (c : Z) :
    fold_left (fun (c : Z) (xyb : ashare * ashare * bool) => if snd xyb then radd U c (local_mul U (f (fst (fst xyb))) (g (snd (fst xyb)))) else c) (combine (combine x y) m) c =
    fold_left (fun (c : Z) (xyb : share * share * bool) => if snd xyb then radd U c (local_mul U (fst (fst xyb)) (snd (fst xyb))) else c) (combine (combine (map f x) (map g y)) m) c.
  Proof using Type. rewrite combine_maps2, fold_left_map. reflexivity. Qed.
  Lemma map2_mul_scale xs ys m : (msum (map2 Z.mul (map (fun v => (v * r) mod 2 ^ U) xs) ys) m) mod 2 ^ U = (msum (map2 Z.mul xs ys) m * r) mod 2 ^ U.
  Proof using Type.
    revert ys m. induction xs as [|x xs IH]; intros [|y ys] [|b m]; cbn [map map2]; try reflexivity.
    rewrite !msum_cons, Zplus_mod, IH, <- Zplus_mod. destruct b; modring.
  Qed.

  Lemma RL_asum2 L zs : RL asum2 L zs ->
    RL (asum U) (fun i => map fst (L i)) zs /\ RL (asum U) (fun i => map snd (L i)) (map (fun v => (v * r) mod 2 ^ U) zs).
  Proof using Type.
    intros HL. split.
    - apply (rl_map_ok asum2 (asum U) (fun _ => fst) L zs); [|exact HL]. intros Y y [Ha _]. exact Ha.
    - apply (RL_map asum2 (asum U) (fun _ => snd) (fun v => (v * r) mod 2 ^ U)); [|exact HL]. intros Y y [_ Ha]. exact Ha.
  Qed.
  Lemma reshare_pairs_ok L zs (s : pid -> prf G) : prf_synced s -> RL asum2 L zs ->
    wpM (fun i => reshare_pairs G i U (L i)) s (fun s' W => prf_synced s' /\ RL (auth_shared U r) W zs).
  Proof using HU.
    intros Hs HL. destruct (RL_asum2 _ _ HL) as [H1 H2]. unfold reshare_pairs. wbind. apply wpM_lift.
    assert (HQ : forall Q : (pid -> list Z * list Z) -> Prop, Q (fun i => (map fst (L (prev i)), map snd (L (prev i)))) ->
       wp (fun i => send_slices_and_receive_iters i U (map fst (L i)) (map snd (L i))) Q).
    { intros Q HQ. unfold send_slices_and_receive_iters. apply wp_cwp. cbn [prev next].
      assert (R1 : forall i j, ring_iter_from_bytes U (ring_slice_to_bytes U (map fst (L i))) (length (map fst (L j))) = Ok (map fst (L i))).
      { intros i j. pose proof (RL_length _ _ _ H1 j) as Lj. pose proof (RL_length _ _ _ H1 i) as Li. cbn beta in Lj, Li. rewrite Lj, <- Li.
        apply iter_roundtrip; [exact HU|]. apply (RL_asum_Forall _ _ _ H1 i). }
      assert (R2 : forall i j, ring_iter_from_bytes U (ring_slice_to_bytes U (map snd (L i))) (length (map snd (L j))) = Ok (map snd (L i))).
      { intros i j. pose proof (RL_length _ _ _ H2 j) as Lj. pose proof (RL_length _ _ _ H2 i) as Li. cbn beta in Lj, Li. rewrite Lj, <- Li.
        apply iter_roundtrip; [exact HU|]. apply (RL_asum_Forall _ _ _ H2 i). }
      crun. rewrite !R1, !R2. cbn [of_res bind]. eapply cwp_ret; [..|exact HQ]; reflexivity. }
    apply HQ. apply wpM_ret. split; [exact Hs|]. cbn [fst snd]. clear HQ Hs H1 H2.
    induction HL as [L HL|L Y L0 y ys HL HY HL0 IH].
    - apply RL_nil. intros i. rewrite HL. reflexivity.
    - eapply RL_cons; [|shelve|exact IH].
      intros i. rewrite !HL. cbn [map combine map2 fst snd]. reflexivity.
      Unshelve. destruct HY as [[A1 A2] [B1 B2]]. split; cbn [av am].
      + split; [intros i; cbn [sa]; apply A1|]. split; [reflexivity|]. cbn [sa]. exact A2.
      + split; [intros i; cbn [sa]; apply B1|]. split; [reflexivity|]. cbn [sa]. exact B2.
  Qed.
  Lemma reshare_auth_ok L zs g s : inv g s -> RL asum2 L zs ->
    wpM (fun i => reshare_auth G i U (L i)) s (fun s' W => inv g s' /\ RL (auth_shared U r) W zs).
  Proof using HU.
    intros Hs HL. unfold reshare_auth. wbind.
    eapply wpM_mono; [|apply (on_aby_ok G U r _ g s (fun W => RL (auth_shared U r) W zs) Hs); intros Hp; apply reshare_pairs_ok; [exact Hp|exact HL]].
    cbn beta. intros s1 W (Hs1 & _ & HW). wbind. eapply wpM_mono; [|apply (vq_push_ok W zs g s1 Hs1 HW)].
    cbn beta. intros s2 ? Hs2. apply wpM_ret. auto.
  Qed.

  Lemma auth_dot_many_ok X xss Y yss g s : inv g s -> RL (RL (auth_shared U r)) X xss -> RL (RL (auth_shared U r)) Y yss ->
    Forall2 (fun xs ys => length xs = length ys) xss yss ->
    wpM (fun i => if negb (Nat.eqb (length (X i)) (length (Y i))) then failM EInvalidSize else
      bindM (on_aby G (mapM2 (fun x y =>
             if negb (Nat.eqb (length x) (length y)) then failM EInvalidSize
             else bindM (gen_zero_share G U) (fun c => bindM (gen_zero_share G U) (fun c2 =>
               retM (fold_left (fun c xy => radd U c (local_mul U (av (fst xy)) (av (snd xy)))) (combine x y) c,
                     fold_left (fun c xy => radd U c (local_mul U (am (fst xy)) (av (snd xy)))) (combine x y) c2)))) (X i) (Y i)))
        (reshare_auth G i U)) s
      (fun s' W => inv g s' /\ RL (auth_shared U r) W (map2 (fun xs ys => dotp xs ys mod 2 ^ U) xss yss)).
  Proof using HU.
    intros Hs HX HY HL.
    match goal with |- wpM (fun i => if _ then _ else bindM (@?P i) (@?F i)) _ _ => apply (wpM_ext (fun i => bindM (P i) (F i))) end.
    { intros i. rewrite (RL_length _ _ _ HX), (RL_length _ _ _ HY), (Forall2_len _ _ _ HL), Nat.eqb_refl. reflexivity. }
    wbind. eapply wpM_mono; [|apply (on_aby_ok G U r _ g s (fun L => RL asum2 L (map2 (fun xs ys => dotp xs ys mod 2 ^ U) xss yss)) Hs)].
    { cbn beta. intros s1 L (Hs1 & _ & HL1). apply reshare_auth_ok; assumption. }
    generalize (fun i : pid => j_prf G (s_j G (s i))). clear Hs s. revert X Y HX HY. induction HL as [|xs ys xss yss Hl HL IH]; intros X Y HX HY f Hp.
    - apply (wpM_ext (fun _ => retM [])). { intros i. rewrite (RL_inv_nil _ _ HX i). reflexivity. }
      apply wpM_ret. split; [exact Hp|apply RL_nil'].
    - apply RL_inv_cons in HX. destruct HX as (A & X0 & HX & HA & HX0).
      apply RL_inv_cons in HY. destruct HY as (B & Y0 & HY & HB & HY0).
      match goal with |- wpM (fun i => mapM2 ?F (X i) (Y i)) _ _ =>
        apply (wpM_ext (fun i => bindM (F (A i) (B i)) (fun b => bindM (mapM2 F (X0 i) (Y0 i)) (fun bs => retM (b :: bs))))) end.
      { intros i. rewrite HX, HY. reflexivity. }
      wbind.
      match goal with |- wpM (fun i => if _ then _ else bindM (@?P i) (@?F i)) _ _ => apply (wpM_ext (fun i => bindM (P i) (F i))) end.
      { intros i. rewrite (RL_length _ _ _ HA), (RL_length _ _ _ HB), Hl, Nat.eqb_refl. reflexivity. }
      wbind. eapply wpM_mono; [|apply (gen_zero_share_ok G U f HU0 Hp)]. cbn beta. intros f1 C (Hp1 & HC).
      wbind. eapply wpM_mono; [|apply (gen_zero_share_ok G U f1 HU0 Hp1)]. cbn beta. intros f2 C2 (Hp2 & HC2).
      apply wpM_ret. wbind. eapply wpM_mono; [|apply (IH X0 Y0 HX0 HY0 f2 Hp2)]. cbn beta. intros f3 L (Hp3 & HL3).
      apply wpM_ret. split; [exact Hp3|]. cbn [map2]. apply RL_cons'; [|exact HL3]. split; cbn [fst snd].
      + eapply asum_ext; [intros i; symmetry; apply fold_auth|reflexivity|].
        apply (fold_dot_ok U _ _ HU0 (auth_av U r A xs HA) _ _ C 0 (auth_av U r B ys HB) HC).
      + eapply asum_ext; [intros i; symmetry; apply fold_auth| |].
        2: apply (fold_dot_ok U _ _ HU0 (auth_am U r A xs HA) _ _ C2 0 (auth_av U r B ys HB) HC2).
        rewrite Z.add_0_l. apply mac_dotp.
  Qed.
  Lemma auth_masked_ok A xs X yss (masks : list code) g s : inv g s -> RL (auth_shared U r) A xs -> RL (RL (auth_shared U r)) X yss ->
    length xs = IRIS_CODE_SIZE -> Forall (fun ys => length ys = IRIS_CODE_SIZE) yss -> Forall wf_code masks ->
    wpM (fun i => if negb (Nat.eqb (length (A i)) IRIS_CODE_SIZE) then failM EInvalidSize else
      bindM (on_aby G (mapM2 (fun y mask =>
             bindM (gen_zero_share G U) (fun c => bindM (gen_zero_share G U) (fun c2 => bindM (resM (bits mask)) (fun bs =>
               retM (fold_left (fun (c : Z) (xyb : ashare * ashare * bool) => if snd xyb then radd U c (local_mul U (av (fst (fst xyb))) (av (snd (fst xyb)))) else c) (combine (combine (A i) y) bs) c,
                     fold_left (fun (c : Z) (xyb : ashare * ashare * bool) => if snd xyb then radd U c (local_mul U (am (fst (fst xyb))) (av (snd (fst xyb)))) else c) (combine (combine (A i) y) bs) c2))))) (X i) masks))
        (reshare_auth G i U)) s
      (fun s' W => inv g s' /\ RL (auth_shared U r) W (map2 (fun ys m => mdotp xs ys (mask_bits m) mod 2 ^ U) yss masks)).
  Proof using HU.
    intros Hs HA HX Lx Ly Hm.
    match goal with |- wpM (fun i => if _ then _ else bindM (@?P i) (@?F i)) _ _ => apply (wpM_ext (fun i => bindM (P i) (F i))) end.
    { intros i. assert (E : Nat.eqb (length (A i)) IRIS_CODE_SIZE = true) by (rewrite (RL_length _ _ _ HA), Lx; apply Nat.eqb_refl).
      rewrite E. reflexivity. }
    wbind. eapply wpM_mono; [|apply (on_aby_ok G U r _ g s (fun L => RL asum2 L (map2 (fun ys m => mdotp xs ys (mask_bits m) mod 2 ^ U) yss masks)) Hs)].
    { cbn beta. intros s1 L (Hs1 & _ & HL1). apply reshare_auth_ok; assumption. }
    generalize (fun i : pid => j_prf G (s_j G (s i))). clear Hs s. revert X masks Hm HX. induction Ly as [|ys yss Hy Ly IH]; intros X masks Hm HX f Hp.
    - apply (wpM_ext (fun _ => retM [])). { intros i. rewrite (RL_inv_nil _ _ HX i). reflexivity. }
      apply wpM_ret. split; [exact Hp|apply RL_nil'].
    - apply RL_inv_cons in HX. destruct HX as (B & X0 & HX & HB & HX0).
      destruct masks as [|m masks].
      { apply (wpM_ext (fun _ => retM [])). { intros i. rewrite HX. reflexivity. }
        apply wpM_ret. split; [exact Hp|apply RL_nil']. }
      inversion Hm as [|? ? Hm1 Hm2]; subst.
      match goal with |- wpM (fun i => mapM2 (@?F i) (X i) _) _ _ =>
        apply (wpM_ext (fun i => bindM (F i (B i) m) (fun b => bindM (mapM2 (F i) (X0 i) masks) (fun bs => retM (b :: bs))))) end.
      { intros i. rewrite HX. reflexivity. }
      wbind.
      wbind. eapply wpM_mono; [|apply (gen_zero_share_ok G U f HU0 Hp)]. cbn beta. intros f1 C (Hp1 & HC).
      wbind. eapply wpM_mono; [|apply (gen_zero_share_ok G U f1 HU0 Hp1)]. cbn beta. intros f2 C2 (Hp2 & HC2).
      wbind. apply (wpM_res _ (fun _ => mask_bits m)). { intros i. apply (bits_spec m Hm1). }
      apply wpM_ret. wbind. eapply wpM_mono; [|apply (IH X0 masks Hm2 HX0 f2 Hp2)]. cbn beta. intros f3 L (Hp3 & HL3).
      apply wpM_ret. split; [exact Hp3|]. cbn [map2]. apply RL_cons'; [|exact HL3]. split; cbn [fst snd].
      + eapply asum_ext; [intros i; symmetry; apply fold_mauth|reflexivity|].
        apply (fold_mdot_ok U _ _ (mask_bits m) HU0 (auth_av U r A xs HA) _ _ C 0 (auth_av U r B ys HB)); [congruence| |exact HC].
        rewrite mask_bits_length. exact Lx.
      + eapply asum_ext; [intros i; symmetry; apply fold_mauth| |].
        2: apply (fold_mdot_ok U _ _ (mask_bits m) HU0 (auth_am U r A xs HA) _ _ C2 0 (auth_av U r B ys HB)); [rewrite map_length; congruence| |exact HC2].
        2: rewrite mask_bits_length, map_length; exact Lx.
        rewrite Z.add_0_l. unfold mdotp. rewrite map2_mul_scale, Zmult_mod_idemp_l. reflexivity.
  Qed.
End Spdz.
