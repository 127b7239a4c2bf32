(** ABY3: AND gates, arithmetic-to-binary conversion, masked inner products. *)
From Verif Require Import Base Ring RingProofs Prog Sched Rng Rel Net BinTrait BitArith BinProofs AddProofs Iris IrisSpec IrisProofs Protocol MpcSpec Aby3 ShareSpec Aby3Proofs.
From Coq Require Import ZifyBool ZifyNat Btauto.

Lemma map3_map2 {A B C D} (f : A -> B -> C -> D) (xs : list A) (ys : list B) (zs : list C) :
  map3 f xs ys zs = map2 (fun xy z => f (fst xy) (snd xy) z) (map2 pair xs ys) zs.
Proof.
  revert ys zs. induction xs as [|x xs IH]; intros [|y ys] [|z zs]; cbn; try reflexivity. f_equal. apply IH.
Qed.

Section Engine.
  Variable G : rng.
  Notation prfs := (pid -> prf G).

  Lemma and_ok K X x Y y (s : prfs) : In K widths -> prf_synced s -> bin_shared K X x -> bin_shared K Y y ->
    wpM (fun i => and_ G i K (X i) (Y i)) s (fun s' W => prf_synced s' /\ bin_shared K W (Z.land x y)).
  Proof.
    intros HK Hs HX HY. assert (HK0 : 0 <= K) by (apply in_widths_pos in HK; lia). unfold and_.
    apply (wpM_bind (fun _ => gen_binary_zero_share G K) (fun i r => reshare G i K (rxor (local_and (X i) (Y i)) r))).
    eapply wpM_mono; [|apply gen_binary_zero_share_ok; eassumption]. intros s' W [Hs' HW].
    eapply wpM_mono; [|apply (reshare_ok_b G K s' _ (Z.land x y)); [exact HK|]].
    { cbn beta. intros s1 Z1 [-> HZ1]. split; assumption. }
    rewrite <- (Z.lxor_0_r (Z.land x y)). apply (bsum_xor K); auto. apply local_and_ok; auto.
  Qed.
  Lemma and_many_ok K X xs Y ys (s : prfs) : In K widths -> prf_synced s ->
    RL (bin_shared K) X xs -> RL (bin_shared K) Y ys -> length xs = length ys ->
    wpM (fun i => and_many G i K (X i) (Y i)) s
      (fun s' W => prf_synced s' /\ RL (bin_shared K) W (map2 Z.land xs ys)).
  Proof.
    intros HK Hs HX HY Hl. assert (HK0 : 0 <= K) by (apply in_widths_pos in HK; lia). unfold and_many.
    apply (wpM_ext (fun i => bindM (mapM2 (fun x y => bindM (gen_binary_zero_share G K) (fun r => retM (rxor (local_and x y) r))) (X i) (Y i))
       (fun l => reshare_many G i K l))).
    { intros i. rewrite (RL_length _ _ _ HX), (RL_length _ _ _ HY), Hl, Nat.eqb_refl. reflexivity. }
    apply (wpM_bind (fun i => mapM2 (fun x y => bindM (gen_binary_zero_share G K) (fun r => retM (rxor (local_and x y) r))) (X i) (Y i))
       (fun i l => reshare_many G i K l)).
    eapply wpM_mono; [|apply (wpM_mapM2 prf_synced (bin_shared K) (bin_shared K) (bsum K)
        (fun i x y => bindM (gen_binary_zero_share G K) (fun r => retM (rxor (local_and x y) r))) Z.land); [|exact Hs|exact HX|exact HY]].
    - intros s1 L [Hs1 HL]. eapply wpM_mono; [|apply reshare_many_ok_b; eassumption].
      cbn beta. intros s2 W [-> HW]. split; assumption.
    - clear s Hs X xs Y ys HX HY Hl. intros s Y y Y1 y1 Hs HY HY1.
      apply (wpM_bind (fun _ => gen_binary_zero_share G K) (fun i r => retM (rxor (local_and (Y i) (Y1 i)) r))).
      eapply wpM_mono; [|apply gen_binary_zero_share_ok; eassumption]. intros s' W [Hs' HW].
      apply wpM_ret. split; [exact Hs'|].
      rewrite <- (Z.lxor_0_r (Z.land y y1)). apply (bsum_xor K); auto. apply local_and_ok; auto.
  Qed.

  (** The ABY3 engine satisfies the contract of the generic binary protocols (no ghost state).
      Widths outside the supported ones never occur, so the relation carries the width bound. *)
  Definition brel (K : Z) (X : pid -> share) (x : Z) : Prop := In K widths /\ bin_shared K X x.
  Definition binv (_ : unit) (s : prfs) : Prop := prf_synced s.

  Lemma RL_brel K X xs : In K widths -> (RL (brel K) X xs <-> RL (bin_shared K) X xs).
  Proof. intros HK. split; apply RL_mono; unfold brel; tauto. Qed.

  Lemma aby3_bin_ok : bin_ok (fun i K => aby3_bin G i K) brel binv (fun _ _ g => g).
  Proof.
    constructor.
    - reflexivity.
    - intros K X x [HK H]. eapply brel_range; [|exact H]. apply in_widths_pos in HK. lia.
    - intros K X X' x E [HK H]. split; [exact HK|]. eapply brel_ext; eassumption.
    - intros K X x Y y HK [_ HX] [_ HY]. split; [exact HK|]. apply sh_xor_ok; auto. apply in_widths_pos in HK. lia.
    - intros K X x n HK [_ HX] Hn. split; [exact HK|]. apply sh_shl_ok; auto. apply in_widths_pos in HK. lia.
    - intros K g s X x Y y HK Hs [_ HX] [_ HY].
      eapply wpM_mono; [|apply (and_ok K X x Y y s); assumption].
      intros s' W [H1 H2]. split; [exact H1|]. split; assumption.
    - intros K g s X xs Y ys HK Hs HX HY Hl.
      eapply wpM_mono; [|apply (and_many_ok K X xs Y ys s); try assumption; apply RL_brel; assumption].
      intros s' W [H1 H2]. split; [exact H1|]. apply RL_brel; assumption.
  Qed.

  (** The three summands of an arithmetic sharing as trivial binary sharings. *)
  Lemma a2b_pre_ok K X x : In K widths -> arith_shared K X x ->
    exists x1 x2 x3, brel K (fun i => fst (fst (a2b_pre i (X i)))) x1 /\
      brel K (fun i => snd (fst (a2b_pre i (X i)))) x2 /\ brel K (fun i => snd (a2b_pre i (X i))) x3 /\
      norm K (x1 + x2 + x3) = x.
  Proof.
    intros HK (A1 & A2 & A3). assert (HK0 : 0 <= K) by (apply in_widths_pos in HK; lia).
    assert (H0 : inr K 0) by (unfold inr; assert (0 < 2 ^ K) by (apply Z.pow_pos_nonneg; lia); lia).
    exists (sa (X P0)), (sa (X P1)), (sa (X P2)).
    split; [|split; [|split]]; [..|symmetry; exact A3]; (split; [exact HK|]); (split; [|split]);
      try (intros i; destruct i; cbn [a2b_pre fst snd sa sb szero prev]; rewrite ?A2; auto; fail);
      cbn [a2b_pre fst snd sa sb szero prev]; rewrite ?Z.lxor_0_r, ?Z.lxor_0_l; reflexivity.
  Qed.

  Lemma arithmetic_to_binary_ok K X x (s : prfs) : In K widths -> prf_synced s -> arith_shared K X x ->
    wpM (fun i => arithmetic_to_binary G i K (X i)) s (fun s' W => prf_synced s' /\ bin_shared K W x).
  Proof.
    intros HK Hs HX. destruct (a2b_pre_ok K X x HK HX) as (x1 & x2 & x3 & H1 & H2 & H3 & E).
    apply (wpM_ext (fun i => binary_add_3 (aby3_bin G i K) (fst (fst (a2b_pre i (X i)))) (snd (fst (a2b_pre i (X i)))) (snd (a2b_pre i (X i))))).
    { intros i. unfold arithmetic_to_binary. destruct (a2b_pre i (X i)) as [[u v] w]. reflexivity. }
    eapply wpM_mono; [|apply (binary_add_3_ok _ _ _ _ aby3_bin_ok K HK tt s _ x1 _ x2 _ x3 Hs H1 H2 H3)].
    intros s' W [Hs' HW]. rewrite E in HW. split; [exact Hs'|apply HW].
  Qed.

  Lemma a2b_pre_many_ok K X xs : In K widths -> RL (arith_shared K) X xs ->
    exists x1 x2 x3, RL (brel K) (fun i => map (fun t => fst (fst t)) (map (a2b_pre i) (X i))) x1 /\
      RL (brel K) (fun i => map (fun t => snd (fst t)) (map (a2b_pre i) (X i))) x2 /\
      RL (brel K) (fun i => map snd (map (a2b_pre i) (X i))) x3 /\
      map3 (fun a b c => norm K (a + b + c)) x1 x2 x3 = xs /\
      length x1 = length xs /\ length x2 = length xs /\ length x3 = length xs.
  Proof.
    intros HK H. induction H as [X HX|X Y X0 y ys HX HY H IH].
    - exists [], [], []. repeat split; apply RL_nil; intros i; rewrite HX; reflexivity.
    - destruct IH as (x1 & x2 & x3 & H1 & H2 & H3 & E & L1 & L2 & L3).
      destruct (a2b_pre_ok K Y y HK HY) as (y1 & y2 & y3 & J1 & J2 & J3 & Ey).
      exists (y1 :: x1), (y2 :: x2), (y3 :: x3). split; [|split; [|split; [|split]]].
      + eapply RL_cons; [|exact J1|exact H1]. intros i. rewrite HX. reflexivity.
      + eapply RL_cons; [|exact J2|exact H2]. intros i. rewrite HX. reflexivity.
      + eapply RL_cons; [|exact J3|exact H3]. intros i. rewrite HX. reflexivity.
      + cbn [map3]. rewrite Ey, E. reflexivity.
      + cbn [length]. lia.
  Qed.

  Lemma arithmetic_to_binary_many_ok K X xs (s : prfs) : In K widths -> prf_synced s -> RL (arith_shared K) X xs ->
    wpM (fun i => arithmetic_to_binary_many G i K (X i)) s (fun s' W => prf_synced s' /\ RL (bin_shared K) W xs).
  Proof.
    intros HK Hs HX. destruct (a2b_pre_many_ok K X xs HK HX) as (x1 & x2 & x3 & H1 & H2 & H3 & E & L1 & L2 & L3).
    unfold arithmetic_to_binary_many.
    eapply wpM_mono; [|apply (binary_add_3_many_ok _ _ _ _ aby3_bin_ok K HK tt s _ x1 _ x2 _ x3 Hs H1 H2 H3); congruence].
    intros s' W [Hs' HW]. rewrite E in HW. split; [exact Hs'|]. apply RL_brel; assumption.
  Qed.

  Lemma get_msb_bit K a : In K widths -> inr K a -> get_msb K a = Z.b2z (Z.testbit a (K - 1)).
  Proof.
    intros HK Ha. apply in_widths_pos in HK. unfold get_msb, inr in *.
    assert (Hs : 0 <= Z.shiftr a (K - 1) < 2).
    { rewrite Z.shiftr_div_pow2 by lia. assert (0 < 2 ^ (K - 1)) by (apply Z.pow_pos_nonneg; lia).
      split; [apply Z.div_pos; lia|]. apply Z.div_lt_upper_bound; [lia|].
      rewrite Z.mul_comm, <- Z.pow_succ_r by lia. replace (Z.succ (K - 1)) with K by lia. lia. }
    replace (Z.testbit a (K - 1)) with (Z.testbit (Z.shiftr a (K - 1)) 0) by (rewrite Z.shiftr_spec by lia; f_equal; lia).
    assert (E : Z.shiftr a (K - 1) = 0 \/ Z.shiftr a (K - 1) = 1) by lia. destruct E as [->| ->]; reflexivity.
  Qed.
  Lemma b2z_inr (b : bool) : inr 1 (Z.b2z b).
  Proof. destruct b; unfold inr; cbn; lia. Qed.
  Lemma sh_get_msb_ok K X x : In K widths -> bin_shared K X x ->
    bin_shared 1 (fun i => sh_get_msb K (X i)) (Z.b2z (Z.testbit x (K - 1))).
  Proof.
    intros HK (A1 & A2 & A3). split; [|split].
    - intros i. cbn [sa sh_get_msb]. rewrite get_msb_bit by auto. apply b2z_inr.
    - intros i. cbn [sa sb sh_get_msb]. rewrite A2. reflexivity.
    - cbn [sa sh_get_msb]. rewrite !get_msb_bit by auto. subst x. rewrite !Z.lxor_spec.
      destruct (Z.testbit (sa (X P0)) (K - 1)), (Z.testbit (sa (X P1)) (K - 1)), (Z.testbit (sa (X P2)) (K - 1)); reflexivity.
  Qed.
  Lemma get_msb_share_ok K X x (s : prfs) : In K widths -> prf_synced s -> arith_shared K X x ->
    wpM (fun i => get_msb_share G i K (X i)) s
      (fun s' W => prf_synced s' /\ bin_shared 1 W (Z.b2z (Z.testbit x (K - 1)))).
  Proof.
    intros HK Hs HX. unfold get_msb_share.
    apply (wpM_bind (fun i => arithmetic_to_binary G i K (X i)) (fun i b => retM (sh_get_msb K b))).
    eapply wpM_mono; [|apply (arithmetic_to_binary_ok K X x s HK Hs HX)]. intros s' W [Hs' HW].
    apply wpM_ret. split; [exact Hs'|]. apply sh_get_msb_ok; assumption.
  Qed.

  (** ** masked_dot_many *)
  Lemma positions_length : length positions = IRIS_CODE_SIZE.
  Proof. unfold positions. rewrite map_length, seq_length. reflexivity. Qed.

  Lemma masked_dot_many_ok K A xs X yss (masks : list code) (s : prfs) : In K widths -> prf_synced s ->
    RL (arith_shared K) A xs -> RL (RL (arith_shared K)) X yss ->
    length xs = IRIS_CODE_SIZE -> Forall (fun ys => length ys = IRIS_CODE_SIZE) yss -> Forall wf_code masks ->
    wpM (fun i => masked_dot_many G i K (A i) (X i) masks) s
      (fun s' W => prf_synced s' /\
         RL (arith_shared K) W (map2 (fun ys m => mdotp xs ys (mask_bits m) mod 2 ^ K) yss masks)).
  Proof.
    intros HK Hs HA HX La Lx Hm. assert (HK0 : 0 <= K) by (apply in_widths_pos in HK; lia). unfold masked_dot_many.
    set (body := fun (i : pid) (y : list share) (mask : code) => bindM (gen_zero_share G K) (fun r =>
             if negb (Nat.eqb (length (A i)) (length y)) then failM EInvalidSize
             else bindM (resM (bits mask)) (fun bs =>
               retM (fold_left (fun (c : Z) (xyb : share * share * bool) => if snd xyb then radd K c (local_mul K (fst (fst xyb)) (snd (fst xyb))) else c)
                       (combine (combine (A i) y) bs) r)))).
    apply (wpM_ext (fun i => bindM (mapM2 (body i) (X i) masks) (fun l => reshare_many G i K l))).
    { intros i. assert (E : Nat.eqb (length (A i)) IRIS_CODE_SIZE = true) by (rewrite (RL_length _ _ _ HA), La; apply Nat.eqb_refl).
      rewrite E. reflexivity. }
    apply (wpM_bind (fun i => mapM2 (body i) (X i) masks) (fun i l => reshare_many G i K l)).
    enough (HM : wpM (fun i => mapM2 (body i) (X i) masks) s (fun s' L => prf_synced s' /\
       RL (asum K) L (map2 (fun ys m => mdotp xs ys (mask_bits m) mod 2 ^ K) yss masks))).
    { eapply wpM_mono; [|exact HM]. intros s1 L [Hs1 HL]. eapply wpM_mono; [|apply reshare_many_ok_a; eassumption].
      cbn beta. intros s2 W [-> HW]. split; assumption. }
    clear HK. revert X s masks Hs Hm HX. induction Lx as [|ys yss Ly Lys IH]; intros X s masks Hs Hm HX.
    - apply (wpM_ext (fun _ => retM [])). { intros i. rewrite (RL_inv_nil _ _ HX i). reflexivity. }
      apply wpM_ret. split; [exact Hs|apply RL_nil'].
    - apply RL_inv_cons in HX. destruct HX as (B & X0 & HX & HB & HX0).
      destruct masks as [|m masks].
      { apply (wpM_ext (fun _ => retM [])). { intros i. rewrite HX. reflexivity. }
        apply wpM_ret. split; [exact Hs|apply RL_nil']. }
      inversion Hm as [|? ? Hm1 Hm2]; subst.
      apply (wpM_ext (fun i => bindM (body i (B i) m) (fun b => bindM (mapM2 (body i) (X0 i) masks) (fun bs => retM (b :: bs))))).
      { intros i. rewrite HX. reflexivity. }
      apply (wpM_bind (fun i => body i (B i) m) (fun i b => bindM (mapM2 (body i) (X0 i) masks) (fun bs => retM (b :: bs)))).
      unfold body at 1.
      apply (wpM_ext (fun i => bindM (gen_zero_share G K) (fun r => retM
         (fold_left (fun (c : Z) (xyb : share * share * bool) => if snd xyb then radd K c (local_mul K (fst (fst xyb)) (snd (fst xyb))) else c)
                       (combine (combine (A i) (B i)) (mask_bits m)) r)))).
      { intros i. rewrite (RL_length _ _ _ HA), (RL_length _ _ _ HB), La, Ly, Nat.eqb_refl.
        rewrite (bits_spec m Hm1). reflexivity. }
      apply (wpM_bind (fun _ => gen_zero_share G K) (fun i r => retM
         (fold_left (fun (c : Z) (xyb : share * share * bool) => if snd xyb then radd K c (local_mul K (fst (fst xyb)) (snd (fst xyb))) else c)
                       (combine (combine (A i) (B i)) (mask_bits m)) r))).
      eapply wpM_mono; [|apply gen_zero_share_ok; eassumption]. intros s' W [Hs' HW].
      apply wpM_ret.
      apply (wpM_bind (fun i => mapM2 (body i) (X0 i) masks) (fun i bs => retM (_ :: bs))).
      eapply wpM_mono; [|apply (IH X0 s' masks Hs' Hm2 HX0)]. intros s2 L [Hs2 HL].
      apply wpM_ret. split; [exact Hs2|]. cbn [map2]. apply RL_cons'; [|exact HL].
      apply (fold_mdot_ok K A xs (mask_bits m) HK0 HA B ys W 0 HB); [congruence| |exact HW].
      unfold mask_bits. rewrite map_length, positions_length. exact La.
  Qed.
End Engine.
