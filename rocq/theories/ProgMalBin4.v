(** Boolean gates of the malicious ABY3 engine run by two honest parties against an arbitrary third one: circuits. *)
From Verif Require Import Base Ring RingProofs Prog Sched Conc Rng Rel Net BinTrait BitArith BinProofs AddProofs IrisProofs MpcSpec Aby3 ShareSpec Aby3Proofs Aby3Proofs2 SlicedProofs Jmp JmpProofs Session SessionProofs
  Aby3Mal Aby3MalProofs Aby3MalProofs2 SacrificeProofs PropLemmas PropLemmas2 SpecProofs Duo DuoProofs MacSpec MacProofs Client ProgMalSpec ProgMalDuo ProgMalOps ProgMalOps2 ProgMalOps3 ProgMalOps4 ProgMalBinSpec ProgMalBin ProgMalBin2 ProgMalBin3.
From Coq Require Import ZifyBool ZifyNat.

Section D.
  Variables (G : rng) (H : hasher) (i : pid).
  Notation j := (next i).
  Notation ST := (jst G).
  Notation coll := (hash_collision G H).
  Notation synced := (synced2 G).
  Notation clean := (clean G).
  Notation luck := (lucky_bits G H i).
  Notation stp := (stp G).
  Notation duoL := (duoL G H i).
  Notation rep := (rep G i).
  Notation reps := (reps G i).
  Notation EI K := (mal_bin G H i K).
  Notation EJ K := (mal_bin G H j K).

  Lemma or_L b K x y v x' y' v' (s t : ST) : In K widths -> rep b s t K x y v -> rep b s t K x' y' v' ->
    duoL b (b_or (EI K) x x') (b_or (EJ K) y y') s t (fun b' s' w t' w' => rep b' s' t' K w w' (Z.lor v v')).
  Proof.
    intros HK R R'. unfold b_or. cbn [b_xor b_and mal_bin]. apply duoL_bind. eapply duoL_mono; [|apply (and_L G H i b K _ _ _ _ _ _ s t HK R R')].
    intros b1 s1 w t1 w' S1 W _. apply (rep_stp G i _ _ _ _ _ _ _ _ _ _ S1) in R, R'. apply duoL_ret. intros b2 S2. apply (rep_stp G i _ _ _ _ _ _ _ _ _ _ S2) in R, R', W.
    replace (Z.lor v v') with (Z.lxor (Z.lxor v v') (Z.land v v')) by bitsolve. apply rep_xor; [exact HK| |exact W]. apply rep_xor; assumption.
  Qed.
  Lemma reps_len b s t K xs ys vs : reps b s t K xs ys vs -> length xs = length vs /\ length ys = length vs.
  Proof. intros (_ & _ & ? & ? & _). auto. Qed.
  Lemma xor_many_L p b s t K xs ys vs xs' ys' vs' : reps b s t K xs ys vs -> reps b s t K xs' ys' vs' -> length vs = length vs' ->
    xor_many (mal_bin G H p K) xs xs' = Ok (map2 sh_xor xs xs') /\ xor_many (mal_bin G H p K) ys ys' = Ok (map2 sh_xor ys ys').
  Proof.
    intros R R' L. destruct (reps_len _ _ _ _ _ _ _ R) as [L1 L2]. destruct (reps_len _ _ _ _ _ _ _ R') as [L1' L2']. unfold xor_many. rewrite L1, L1', L2, L2', L, !Nat.eqb_refl. split; reflexivity.
  Qed.
  Lemma or_many_L b K xs ys vs xs' ys' vs' (s t : ST) : In K widths -> length vs = length vs' -> reps b s t K xs ys vs -> reps b s t K xs' ys' vs' ->
    duoL b (or_many (EI K) xs xs') (or_many (EJ K) ys ys') s t (fun b' s' w t' w' => reps b' s' t' K w w' (map2 Z.lor vs vs')).
  Proof.
    intros HK L R R'. destruct (reps_len _ _ _ _ _ _ _ R) as [L1 L2]. destruct (reps_len _ _ _ _ _ _ _ R') as [L1' L2']. unfold or_many. rewrite L1, L1', L2, L2', L, !Nat.eqb_refl. cbn [b_and_many mal_bin].
    apply duoL_bind. eapply duoL_mono; [|apply (and_many_L G H i b K _ _ _ _ _ _ s t HK L R R')].
    intros b1 s1 w t1 w' S1 W _. apply (reps_stp G i _ _ _ _ _ _ _ _ _ _ S1) in R, R'.
    eapply duoL_res; [apply (xor_many_L i _ _ _ _ _ _ _ _ _ _ R R' L)|apply (xor_many_L j _ _ _ _ _ _ _ _ _ _ R R' L)|].
    pose proof (reps_xor G i _ _ _ _ _ _ _ _ _ _ HK L R R') as X. assert (LL : length (map2 Z.land vs vs') = length (map2 Z.lxor vs vs')) by (rewrite !map2_length_eq; congruence).
    destruct (xor_many_L i _ _ _ _ _ _ _ _ _ _ W X LL) as [E1 _]. destruct (xor_many_L j _ _ _ _ _ _ _ _ _ _ W X LL) as [_ E2]. rewrite E1, E2.
    apply duoL_ret. intros b2 S2. rewrite <- lxor_land_lor by exact L. eapply reps_stp; [exact S2|]. apply reps_xor; assumption.
  Qed.

  Lemma ks_rounds_L K n : In K widths -> forall k b P P' p G0 G0' g (s t : ST), rep b s t K P P' p -> rep b s t K G0 G0' g ->
    duoL b (foldM (ks_round (EI K)) (seq k n) (P, G0)) (foldM (ks_round (EJ K)) (seq k n) (P', G0')) s t
      (fun b' s' w t' w' => rep b' s' t' K (snd w) (snd w') (snd (fold_left (ks_plain K) (seq k n) (p, g)))).
  Proof.
    intros HK. induction n as [|n IH]; intros k b P P' p G0 G0' g s t RP RG.
    - cbn [seq foldM fold_left snd]. apply duoL_ret. intros b' S. eapply rep_stp; eassumption.
    - cbn [seq foldM fold_left]. apply duoL_bind. unfold ks_round at 1 3. cbn [b_shl b_xor b_and_many mal_bin].
      assert (Hsh : 0 <= 2 ^ Z.of_nat k) by (apply Z.pow_nonneg; lia).
      pose proof (rep_shl G i _ _ _ _ _ _ _ _ HK Hsh RP) as RP_. pose proof (rep_shl G i _ _ _ _ _ _ _ _ HK Hsh RG) as RG_.
      apply duoL_bind. eapply duoL_mono; [|apply (and_many_L G H i b K _ _ [p; p] _ _ [rshl K g (2 ^ Z.of_nat k); rshl K p (2 ^ Z.of_nat k)] s t HK eq_refl)].
      2:{ apply (reps_app G i _ _ _ _ [_] [_] [_] [_] [_] [_]); apply reps_one; exact RP. }
      2:{ apply (reps_app G i _ _ _ _ [_] [_] [_] [_] [_] [_]); apply reps_one; [exact RG_|exact RP_]. }
      intros b1 s1 w t1 w' S1 W _. cbn [map2] in W. apply (rep_stp G i _ _ _ _ _ _ _ _ _ _ S1) in RP, RG.
      apply reps_cons_inv in W. destruct W as (w0 & wr & w0' & wr' & -> & -> & W0 & W). apply reps_cons_inv in W. destruct W as (w1 & wr2 & w1' & wr2' & -> & -> & W1 & W).
      eapply duoL_res; [reflexivity..|]. eapply duoL_res; [reflexivity..|]. apply duoL_ret. intros b2 S2 S2'.
      eapply IH; [eapply rep_stp; [exact S2|exact W1]|]. eapply rep_stp; [exact S2|]. apply rep_xor; assumption.
  Qed.
  Lemma add3_L b K X X' x Y Y' y Z0 Z0' z (s t : ST) : In K widths -> rep b s t K X X' x -> rep b s t K Y Y' y -> rep b s t K Z0 Z0' z ->
    duoL b (binary_add_3 (EI K) X Y Z0) (binary_add_3 (EJ K) X' Y' Z0') s t (fun b' s' w t' w' => rep b' s' t' K w w' (add3_plain K x y z)).
  Proof.
    intros HK RX RY RZ. unfold binary_add_3. cbn [b_shl b_xor b_and mal_bin bw].
    pose proof (rep_xor G i _ _ _ _ _ _ _ _ _ _ HK RY RZ) as R23. pose proof (rep_xor G i _ _ _ _ _ _ _ _ _ _ HK RX R23) as RS. pose proof (rep_xor G i _ _ _ _ _ _ _ _ _ _ HK RX RZ) as R13.
    apply duoL_bind. eapply duoL_mono; [|apply (and_L G H i b K _ _ _ _ _ _ s t HK R13 R23)]. intros b1 s1 c t1 c' S1 C _.
    apply (rep_stp G i _ _ _ _ _ _ _ _ _ _ S1) in RS, RZ. clear R23 R13 RX RY S1.
    pose proof (rep_shl G i _ _ _ _ _ _ _ 1 HK ltac:(lia) (rep_xor G i _ _ _ _ _ _ _ _ _ _ HK C RZ)) as RC.
    pose proof (rep_xor G i _ _ _ _ _ _ _ _ _ _ HK RS RC) as RP.
    apply duoL_bind. eapply duoL_mono; [|apply (and_L G H i b1 K _ _ _ _ _ _ s1 t1 HK RS RC)]. intros b2 s2 g t2 g' S2 RG _.
    apply (rep_stp G i _ _ _ _ _ _ _ _ _ _ S2) in RP. 
    apply duoL_bind. eapply duoL_mono; [|apply (ks_rounds_L K (ceil_log2 K) HK 0 b2 _ _ _ _ _ _ s2 t2 RP RG)]. intros b3 s3 w t3 w' S3 RW _.
    apply (rep_stp G i _ _ _ _ _ _ _ _ _ _ S3) in RP. apply duoL_ret. intros b4 S4. eapply rep_stp; [exact S4|].
    exact (rep_xor G i _ _ _ _ _ _ _ _ _ _ HK RP (rep_shl G i _ _ _ _ _ _ _ 1 HK ltac:(lia) RW)).
  Qed.

  Lemma ks_rounds_many_L K n : In K widths -> forall k b P P' G0 G0' (L : list (Z * Z)) (s t : ST), reps b s t K P P' (map fst L) -> reps b s t K G0 G0' (map snd L) ->
    duoL b (foldM (ks_round_many (EI K) (length L)) (seq k n) (P, G0)) (foldM (ks_round_many (EJ K) (length L)) (seq k n) (P', G0')) s t
      (fun b' s' w t' w' => reps b' s' t' K (snd w) (snd w') (map (fun pg => snd (fold_left (ks_plain K) (seq k n) pg)) L)).
  Proof.
    intros HK. induction n as [|n IH]; intros k b P P' G0 G0' L s t RP RG.
    - cbn [seq foldM fold_left snd]. apply duoL_ret. intros b' S. eapply reps_stp; eassumption.
    - cbn [seq foldM fold_left]. apply duoL_bind. unfold ks_round_many at 1 3. unfold shl_many. cbn [b_shl b_and_many mal_bin].
      assert (Hsh : 0 <= 2 ^ Z.of_nat k) by (apply Z.pow_nonneg; lia).
      pose proof (reps_shl G i _ _ _ _ _ _ _ _ HK Hsh RP) as RP_. pose proof (reps_shl G i _ _ _ _ _ _ _ _ HK Hsh RG) as RG_. rewrite map_map in RP_, RG_.
      apply duoL_bind. eapply duoL_mono; [|apply (and_many_L G H i b K _ _ _ _ _ _ s t HK) with (2 := reps_app G i _ _ _ _ _ _ _ _ _ _ RP RP) (3 := reps_app G i _ _ _ _ _ _ _ _ _ _ RG_ RP_); rewrite !app_length, !map_length; reflexivity].
      intros b1 s1 w t1 w' S1 W _. rewrite map2_app in W by (rewrite !map_length; reflexivity). rewrite !map2_map_map in W. apply (reps_stp G i _ _ _ _ _ _ _ _ _ _ S1) in RG.
      set (L0 := map (fun a => Z.land (fst a) (rshl K (snd a) (2 ^ Z.of_nat k))) L) in *. set (L1 := map (fun a => Z.land (fst a) (rshl K (fst a) (2 ^ Z.of_nat k))) L) in *.
      assert (HL0 : length L0 = length L) by (unfold L0; apply map_length).
      pose proof (reps_firstn G i _ _ _ _ _ _ _ (length L) W) as W0. rewrite (firstn_app_n _ _ _ HL0) in W0. pose proof (reps_skipn G i _ _ _ _ _ _ _ (length L) W) as W1. rewrite (skipn_app_n _ _ _ HL0) in W1.
      assert (LL : length (map snd L) = length L0) by (rewrite map_length; congruence).
      eapply duoL_res; [destruct (xor_many_L i _ _ _ _ _ _ _ _ _ _ RG W0 LL) as [-> _]; reflexivity|destruct (xor_many_L j _ _ _ _ _ _ _ _ _ _ RG W0 LL) as [_ ->]; reflexivity|].
      apply duoL_ret. intros b2 S2 _.
      pose (L' := map (fun pg => ks_plain K pg k) L). assert (HL' : length L' = length L) by (unfold L'; apply map_length).
      assert (E1 : map fst L' = L1). { unfold L', L1. rewrite map_map. apply map_ext. intros [p g]. reflexivity. }
      assert (E2 : map snd L' = map2 Z.lxor (map snd L) L0). { unfold L', L0. rewrite map_map, map2_map_map. apply map_ext. intros [p g]. reflexivity. }
      specialize (IH (Datatypes.S k) b2 (skipn (length L) w) (skipn (length L) w') (map2 sh_xor G0 (firstn (length L) w)) (map2 sh_xor G0' (firstn (length L) w')) L' s1 t1).
      rewrite E1, E2, HL' in IH. unfold L' in IH. rewrite map_map in IH. apply IH; (eapply reps_stp; [exact S2|]); [exact W1|]. apply reps_xor; assumption.
  Qed.
  Lemma add3_many_L b K X X' xs Y Y' ys Z0 Z0' zs (s t : ST) : In K widths -> length xs = length ys -> length xs = length zs -> reps b s t K X X' xs -> reps b s t K Y Y' ys -> reps b s t K Z0 Z0' zs ->
    duoL b (binary_add_3_many (EI K) X Y Z0) (binary_add_3_many (EJ K) X' Y' Z0') s t (fun b' s' w t' w' => reps b' s' t' K w w' (map3 (add3_plain K) xs ys zs)).
  Proof.
    intros HK L12 L13 RX RY RZ. destruct (reps_len _ _ _ _ _ _ _ RX) as [LX LX']. destruct (reps_len _ _ _ _ _ _ _ RY) as [LY LY']. destruct (reps_len _ _ _ _ _ _ _ RZ) as [LZ LZ'].
    unfold binary_add_3_many. rewrite LX, LX', LY, LY', LZ, LZ', <- L12, <- L13, !Nat.eqb_refl. cbn [negb orb b_and_many mal_bin bw].
    assert (XR : forall p b s t A A' a C C' c, reps b s t K A A' a -> reps b s t K C C' c -> length a = length c -> expect (xor_many (mal_bin G H p K) A C) = Ok (map2 sh_xor A C) /\ expect (xor_many (mal_bin G H p K) A' C') = Ok (map2 sh_xor A' C')).
    { intros p b0 s0 t0 A A' a C C' c RA RC L. destruct (xor_many_L p _ _ _ _ _ _ _ _ _ _ RA RC L) as [-> ->]. split; reflexivity. }
    assert (L23 : length ys = length zs) by congruence.
    pose proof (reps_xor G i _ _ _ _ _ _ _ _ _ _ HK L23 RY RZ) as R23. assert (l23 : length xs = length (map2 Z.lxor ys zs)) by (rewrite map2_length_eq; congruence).
    pose proof (reps_xor G i _ _ _ _ _ _ _ _ _ _ HK l23 RX R23) as RS. pose proof (reps_xor G i _ _ _ _ _ _ _ _ _ _ HK L13 RX RZ) as R13. assert (l13 : length (map2 Z.lxor xs zs) = length xs) by (apply map2_length_eq, L13).
    eapply duoL_res; [apply (XR i _ _ _ _ _ _ _ _ _ RY RZ L23)|apply (XR j _ _ _ _ _ _ _ _ _ RY RZ L23)|].
    eapply duoL_res; [apply (XR i _ _ _ _ _ _ _ _ _ RX R23 l23)|apply (XR j _ _ _ _ _ _ _ _ _ RX R23 l23)|].
    eapply duoL_res; [apply (XR i _ _ _ _ _ _ _ _ _ RX RZ L13)|apply (XR j _ _ _ _ _ _ _ _ _ RX RZ L13)|].
    apply duoL_bind. eapply duoL_mono; [|apply (and_many_L G H i b K _ _ _ _ _ _ s t HK (eq_trans l13 l23) R13 R23)]. intros b1 s1 c t1 c' S1 C _.
    apply (reps_stp G i _ _ _ _ _ _ _ _ _ _ S1) in RS, RZ. clear R13 R23 RX RY S1 LX LX' LY LY' LZ LZ'.
    assert (lc : length (map2 Z.land (map2 Z.lxor xs zs) (map2 Z.lxor ys zs)) = length zs) by (rewrite map2_length_eq; congruence).
    eapply duoL_res; [apply (XR i _ _ _ _ _ _ _ _ _ C RZ lc)|apply (XR j _ _ _ _ _ _ _ _ _ C RZ lc)|].
    pose proof (reps_shl G i _ _ _ _ _ _ _ 1 HK ltac:(lia) (reps_xor G i _ _ _ _ _ _ _ _ _ _ HK lc C RZ)) as RC.
    set (ms := map (fun x => rshl K x 1) (map2 Z.lxor (map2 Z.land (map2 Z.lxor xs zs) (map2 Z.lxor ys zs)) zs)) in *.
    set (ss := map2 Z.lxor xs (map2 Z.lxor ys zs)) in *.
    assert (lss : length ss = length xs) by (unfold ss; apply map2_length_eq; exact l23).
    assert (lms : length ms = length xs). { unfold ms. rewrite map_length, map2_length_eq by exact lc. congruence. }
    assert (lsm : length ss = length ms) by congruence.
    unfold shl_many at 1 2 3 4. cbn [b_shl mal_bin].
    eapply duoL_res; [apply (XR i _ _ _ _ _ _ _ _ _ RS RC lsm)|apply (XR j _ _ _ _ _ _ _ _ _ RS RC lsm)|].
    pose proof (reps_xor G i _ _ _ _ _ _ _ _ _ _ HK lsm RS RC) as RP.
    apply duoL_bind. eapply duoL_mono; [|apply (and_many_L G H i b1 K _ _ _ _ _ _ s1 t1 HK lsm RS RC)]. intros b2 s2 g t2 g' S2 RG _.
    apply (reps_stp G i _ _ _ _ _ _ _ _ _ _ S2) in RP.
    pose (L := map2 (fun a b => (Z.lxor a b, Z.land a b)) ss ms).
    assert (lL : length L = length xs) by (unfold L; rewrite map2_length_eq; congruence).
    assert (mapmap2 : forall (A B C D : Type) (h : C -> D) (f : A -> B -> C) l l', map h (map2 f l l') = map2 (fun a b => h (f a b)) l l').
    { intros A B C0 D h f l. induction l as [|a l IHl]; intros [|d l']; simpl; try reflexivity. rewrite IHl. reflexivity. }
    assert (Ef : map fst L = map2 Z.lxor ss ms) by (unfold L; rewrite mapmap2; reflexivity).
    assert (Eg : map snd L = map2 Z.land ss ms) by (unfold L; rewrite mapmap2; reflexivity).
    rewrite <- Ef in RP. rewrite <- Eg in RG. rewrite <- lL.
    apply duoL_bind. eapply duoL_mono; [|apply (ks_rounds_many_L K (ceil_log2 K) HK 0 b2 _ _ _ _ L s2 t2 RP RG)]. intros b3 s3 w t3 w' S3 RW _.
    apply (reps_stp G i _ _ _ _ _ _ _ _ _ _ S3) in RP.
    pose proof (reps_shl G i _ _ _ _ _ _ _ 1 HK ltac:(lia) RW) as RW1.
    assert (le : length (map fst L) = length (map (fun v => rshl K v 1) (map (fun pg => snd (fold_left (ks_plain K) (seq 0 (ceil_log2 K)) pg)) L))) by (rewrite !map_length; reflexivity).
    unfold shl_many. cbn [b_shl mal_bin].
    destruct (xor_many_L i _ _ _ _ _ _ _ _ _ _ RP RW1 le) as [E1 _]. destruct (xor_many_L j _ _ _ _ _ _ _ _ _ _ RP RW1 le) as [_ E2]. rewrite E1, E2.
    apply duoL_ret. intros b4 S4. eapply reps_stp; [exact S4|].
    pose proof (reps_xor G i _ _ _ _ _ _ _ _ _ _ HK le RP RW1) as Rz.
    replace (map3 (add3_plain K) xs ys zs) with
      (map2 Z.lxor (map fst L) (map (fun x => rshl K x 1) (map (fun pg => snd (fold_left (ks_plain K) (seq 0 (ceil_log2 K)) pg)) L)));
      [exact Rz|].
    rewrite map_map, map2_map_map. unfold L. rewrite mapmap2. unfold ss, ms.
    clear - L12 L13. revert ys zs L12 L13.
    induction xs as [|x1 xs IH]; intros [|x2 ys] [|x3 zs] L12 L13; simpl in L12, L13; try lia; [reflexivity|].
    cbn [map2 map map3]. f_equal. apply IH; lia.
  Qed.
End D.
