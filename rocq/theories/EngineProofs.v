(** Default engine methods, and the plain and ABY3 engines meet the contract of MpcSpec. *)
From Verif Require Import Base Ring RingProofs Prog Sched Rng Rel Net BinTrait BitArith BinProofs AddProofs Iris IrisSpec IrisProofs Protocol MpcSpec Plain Aby3 ShareSpec Aby3Proofs Aby3Proofs2 SlicedProofs OrProofs ProtocolProofs.
From Coq Require Import ZifyBool ZifyNat.

Lemma msum_cons x xs b bs : msum (x :: xs) (b :: bs) = (if b then x else 0) + msum xs bs.
Proof. reflexivity. Qed.
Lemma map2_nil_r {A B C} (f : A -> B -> C) l : map2 f l [] = [].
Proof. destruct l; reflexivity. Qed.
Lemma msum_nil_r xs : msum xs [] = 0.
Proof. unfold msum. rewrite map2_nil_r. reflexivity. Qed.

Lemma masked_dotp xs ys m : dotp (masked Z 0 xs m) (masked Z 0 ys m) = mdotp xs ys m.
Proof.
  unfold dotp, mdotp, msum, masked. revert ys m. induction xs as [|x xs IH]; intros [|y ys] [|b m]; try reflexivity.
  cbn [map2 fold_right]. rewrite IH. destruct b; lia.
Qed.
Lemma map2_len {A B C} (f : A -> B -> C) l l' : length (map2 f l l') = Nat.min (length l) (length l').
Proof. revert l'. induction l as [|a l IH]; intros [|b l']; cbn; auto. Qed.
Lemma mask_bits_length m : length (mask_bits m) = IRIS_CODE_SIZE.
Proof. unfold mask_bits. rewrite map_length. apply positions_length. Qed.

Section Default.
  Context {Gh S A : Type} (AR : (pid -> A) -> Z -> Prop) (K : Z) (Inv : Gh -> (pid -> S) -> Prop).
  Variable zero : pid -> A.
  Hypothesis AR_ext : forall X X' x, (forall i, X i = X' i) -> AR X x -> AR X' x.
  Hypothesis AR_zero : AR zero 0.
  Hypothesis HK : 0 <= K.

  Lemma masked_ok X xs m : RL AR X xs -> RL AR (fun i => masked A (zero i) (X i) m) (masked Z 0 xs m).
  Proof using AR_zero.
    unfold masked. intros H. revert m. induction H as [X HX|X Y X0 y ys HX HY H IH]; intros m.
    - apply RL_nil. intros i. rewrite HX. reflexivity.
    - destruct m as [|b m]; [apply RL_nil; intros i; apply map2_nil_r|].
      cbn [map2]. apply (RL_cons _ _ (fun i => if b then Y i else zero i) (fun i => map2 (fun x (b : bool) => if b then x else zero i) (X0 i) m)).
      + intros i. rewrite HX. reflexivity.
      + destruct b; assumption.
      + apply IH.
  Qed.

  Variable dot_many : pid -> list (list A) -> list (list A) -> M S (list A).
  Variable g_dot : nat -> Gh -> Gh.
  Hypothesis dot_many_ok : forall g s X xss Y yss, Inv g s -> RL (RL AR) X xss -> RL (RL AR) Y yss ->
    Forall2 (fun xs ys => length xs = IRIS_CODE_SIZE /\ length ys = IRIS_CODE_SIZE) xss yss -> (0 < length xss)%nat ->
    wpM (fun i => dot_many i (X i) (Y i)) s
      (fun s' W => Inv (g_dot (length xss) g) s' /\ RL AR W (map2 (fun xs ys => dotp xs ys mod 2 ^ K) xss yss)).

  Lemma default_masked_dot_many_ok g s X xs Y yss masks : Inv g s -> RL AR X xs -> RL (RL AR) Y yss ->
    length xs = IRIS_CODE_SIZE -> Forall (fun ys => length ys = IRIS_CODE_SIZE) yss -> Forall wf_code masks ->
    (0 < length yss)%nat -> length yss = length masks ->
    wpM (fun i => default_masked_dot_many (zero i) (dot_many i) (X i) (Y i) masks) s
      (fun s' W => Inv (g_dot (length yss) g) s' /\
                   RL AR W (map2 (fun ys m => mdotp xs ys (mask_bits m) mod 2 ^ K) yss masks)).
  Proof using AR_ext AR_zero dot_many_ok.
    intros Hs HX HY Lx Ly Hm Hl Hlm. unfold default_masked_dot_many.
    assert (HV : exists V, (forall i, mapM_res (fun bm =>
            if negb (Nat.eqb (length (X i)) IRIS_CODE_SIZE) || negb (Nat.eqb (length (fst bm)) IRIS_CODE_SIZE)
            then Err EInvalidCodeSize
            else rbind (bits (snd bm)) (fun bs => Ok (masked A (zero i) (X i) bs, masked A (zero i) (fst bm) bs)))
          (combine (Y i) masks) = Ok (V i)) /\
        RL (RL AR) (fun i => map fst (V i)) (map (fun m => masked Z 0 xs (mask_bits m)) masks) /\
        RL (RL AR) (fun i => map snd (V i)) (map2 (fun ys m => masked Z 0 ys (mask_bits m)) yss masks)).
    { clear Hs Hl. revert masks Hm Hlm. induction HY as [Y HY|Y Y1 Y0 ys yss HY HY1 HYs IH]; intros masks Hm Hlm.
      - destruct masks; [|discriminate]. exists (fun _ => []). split; [|split; apply RL_nil'].
        intros i. rewrite HY. reflexivity.
      - destruct masks as [|m masks]; [discriminate|]. inversion Ly; subst. inversion Hm; subst. injection Hlm as Hlm.
        destruct (IH ltac:(assumption) masks ltac:(assumption) Hlm) as (V & E1 & E2 & E3).
        exists (fun i => (masked A (zero i) (X i) (mask_bits m), masked A (zero i) (Y1 i) (mask_bits m)) :: V i). split; [|split].
        + intros i. rewrite HY. cbn [combine mapM_res fst snd].
          rewrite (RL_length _ _ _ HX), (RL_length _ _ _ HY1), Lx, H1, Nat.eqb_refl. cbn [negb orb].
          rewrite bits_spec by assumption. cbn [rbind]. fold (mask_bits m).
          specialize (E1 i). rewrite (RL_length _ _ _ HX), Lx, Nat.eqb_refl in E1. cbn [negb orb] in E1.
          cbn [negb orb]. rewrite E1. reflexivity.
        + cbn [map fst]. apply RL_cons'; [apply masked_ok, HX|exact E2].
        + cbn [map map2 snd]. apply RL_cons'; [apply masked_ok, HY1|exact E3]. }
    destruct HV as (V & E1 & E2 & E3).
    apply (wpM_ext (fun i => dot_many i (map fst (V i)) (map snd (V i)))).
    { intros i. unfold bindM, resM, liftM. rewrite E1. reflexivity. }
    eapply wpM_mono; [|apply (dot_many_ok g s _ _ _ _ Hs E2 E3)].
    - cbn beta. intros s' W [H1 H2]. rewrite map_length, <- Hlm in H1. split; [exact H1|].
      match type of H2 with RL _ _ ?l => match goal with |- RL _ _ ?l' => replace l' with l; [exact H2|] end end.
      clear -Hlm. revert masks Hlm. induction yss as [|ys yss IH]; intros [|m masks] H; try discriminate; [reflexivity|].
      cbn [map map2]. rewrite masked_dotp. rewrite IH by (injection H; auto). reflexivity.
    - clear -Lx Ly Hlm. revert masks Hlm. induction Ly as [|ys yss Hy Ly IH]; intros [|m masks] H; try discriminate; [constructor|].
      cbn [map map2]. constructor; [|apply IH; injection H; auto].
      unfold masked. rewrite !map2_len, mask_bits_length, Lx, Hy, Nat.min_id. split; reflexivity.
    - rewrite map_length. lia.
  Qed.

  Variable add : pid -> A -> A -> A.
  Hypothesis add_ok : forall X x Y y, AR X x -> AR Y y -> AR (fun i => add i (X i) (Y i)) ((x + y) mod 2 ^ K).
  Hypothesis AR_range : forall X x, AR X x -> inr K x.
  Lemma zip_filter_sum_ok X xs bs : RL AR X xs -> AR (fun i => zip_filter_sum (zero i) (add i) (X i) bs) (msum xs bs mod 2 ^ K).
  Proof using AR_ext AR_zero HK add_ok AR_range.
    intros H. unfold zip_filter_sum.
    assert (G : forall Z z, AR Z z -> AR (fun i => fold_left (fun acc (xb : A * bool) => if snd xb then add i acc (fst xb) else acc) (combine (X i) bs) (Z i)) ((z + msum xs bs) mod 2 ^ K)).
    { revert bs. induction H as [X HX|X Y X0 y ys HX HY H IH]; intros bs W w HW.
      - unfold msum. cbn. rewrite Z.add_0_r. apply (AR_ext W); [intros i; rewrite HX; reflexivity|].
        rewrite Z.mod_small; [exact HW|]. apply (AR_range _ _ HW).
      - destruct bs as [|b bs].
        + rewrite msum_nil_r, Z.add_0_r. apply (AR_ext W); [intros i; rewrite HX; reflexivity|].
          rewrite Z.mod_small; [exact HW|]. apply (AR_range _ _ HW).
        + rewrite msum_cons.
          apply (AR_ext (fun i => fold_left (fun acc (xb : A * bool) => if snd xb then add i acc (fst xb) else acc) (combine (X0 i) bs)
             (if b then add i (W i) (Y i) else W i))); [intros i; rewrite HX; reflexivity|].
          replace ((w + ((if b then y else 0) + msum ys bs)) mod 2 ^ K) with (((if b then (w + y) mod 2 ^ K else w) + msum ys bs) mod 2 ^ K).
          2:{ destruct b; [|f_equal; lia]. rewrite Zplus_mod_idemp_l. f_equal. lia. }
          apply (IH bs (fun i => if b then add i (W i) (Y i) else W i)). destruct b; [apply add_ok; assumption|assumption]. }
    exact (G zero 0 AR_zero).
  Qed.
  Lemma zip_filter_ok X xs Y ys m : RL AR X xs -> RL AR Y ys ->
    length xs = IRIS_CODE_SIZE -> length ys = IRIS_CODE_SIZE -> wf_code m ->
    exists U V, (forall i, zip_filter_reduce_add_twice (zero i) (add i) (X i) (Y i) m = Ok (U i, V i)) /\
      AR U (msum xs (mask_bits m) mod 2 ^ K) /\ AR V (msum ys (mask_bits m) mod 2 ^ K).
  Proof using AR_ext AR_zero HK add_ok AR_range.
    intros HX HY Lx Ly Hm. do 2 eexists. split; [|split; [apply (zip_filter_sum_ok _ _ _ HX)|apply (zip_filter_sum_ok _ _ _ HY)]].
    intros i. cbn beta. unfold zip_filter_reduce_add_twice. rewrite (RL_length _ _ _ HX), (RL_length _ _ _ HY), Lx, Ly, Nat.eqb_refl.
    assert (H0 : Nat.eqb IRIS_CODE_SIZE 0 = false) by (apply Nat.eqb_neq; pose proof iris_size_nat; lia).
    rewrite H0. cbn [orb negb]. rewrite bits_spec by exact Hm. reflexivity.
  Qed.
End Default.

(** ** The ABY3 engine *)
Section Aby3.
  Variable G : rng.
  Variable K : Z.
  Hypothesis HW : In K widths.
  Hypothesis HK3 : 3 <= K.
  Let HK : 0 <= K. Proof. lia. Qed.

  Lemma filter_fold_ok m X xs : wf_code m -> RL (arith_shared K) X xs ->
    forall idx ACC acc, arith_shared K ACC acc -> Z.of_nat idx + Z.of_nat (length xs) <= 12800 ->
    exists U, (forall i, filter_fold K m (Z.of_nat idx) (X i) (ACC i) = Ok (U i)) /\
      arith_shared K U ((acc + msum xs (map (bit_at m) (map Z.of_nat (seq idx (length xs))))) mod 2 ^ K).
  Proof using HK.
    intros Hm H. induction H as [X HX|X Y X0 y ys HX HY H IH]; intros idx ACC acc HA Hl.
    - exists ACC. split; [intros i; rewrite HX; reflexivity|].
      unfold msum. cbn. rewrite Z.add_0_r, Z.mod_small; [exact HA|]. apply (arel_range K ACC acc HK HA).
    - cbn [length] in Hl. cbn [length seq map]. rewrite msum_cons.
      set (b := bit_at m (Z.of_nat idx)).
      destruct (IH (S idx) (fun i => if b then sh_add K (ACC i) (Y i) else ACC i) (if b then (acc + y) mod 2 ^ K else acc)) as (U & E & HU).
      + destruct b; [apply sh_add_ok; assumption|assumption].
      + lia.
      + exists U. split.
        * intros i. rewrite HX. cbn [filter_fold]. rewrite get_bit_ok by (auto; lia). fold b.
          replace (Z.of_nat idx + 1) with (Z.of_nat (S idx)) by lia. apply E.
        * match type of HU with arith_shared _ _ ?l => match goal with |- arith_shared _ _ ?l' => replace l' with l; [exact HU|] end end.
          destruct b; [rewrite Zplus_mod_idemp_l|]; f_equal; lia.
  Qed.

  Lemma aby3_filter_ok X xs Y ys m : RL (arith_shared K) X xs -> RL (arith_shared K) Y ys ->
    length xs = IRIS_CODE_SIZE -> length ys = IRIS_CODE_SIZE -> wf_code m ->
    exists U V, (forall i, filter_reduce_add_twice K (X i) (Y i) m = Ok (U i, V i)) /\
      arith_shared K U (msum xs (mask_bits m) mod 2 ^ K) /\ arith_shared K V (msum ys (mask_bits m) mod 2 ^ K).
  Proof using HK.
    intros HX HY Lx Ly Hm.
    destruct (filter_fold_ok m X xs Hm HX 0 (fun _ => szero) 0 (szero_arel K HK)) as (U & E1 & R1). { rewrite Lx. pose proof iris_size_nat. lia. }
    destruct (filter_fold_ok m Y ys Hm HY 0 (fun _ => szero) 0 (szero_arel K HK)) as (V & E2 & R2). { rewrite Ly. pose proof iris_size_nat. lia. }
    exists U, V. split; [|split].
    - intros i. unfold filter_reduce_add_twice. rewrite (RL_length _ _ _ HX), (RL_length _ _ _ HY), Lx, Ly, Nat.eqb_refl.
      assert (H0 : Nat.eqb IRIS_CODE_SIZE 0 = false) by (apply Nat.eqb_neq; pose proof iris_size_nat; lia).
      rewrite H0. cbn [orb negb]. change 0 with (Z.of_nat 0). rewrite E1. cbn [rbind]. rewrite E2. reflexivity.
    - rewrite Lx in R1. exact R1.
    - rewrite Ly in R2. exact R2.
  Qed.

  Lemma get_msb_many_ok X xs (s : pid -> prf G) : prf_synced s -> (0 < length xs)%nat -> RL (arith_shared K) X xs ->
    wpM (fun i => get_msb_many G i K (X i)) s
      (fun s' W => prf_synced s' /\ RL (bin_shared 1) W (map (fun x => Z.b2z (Z.testbit x (K - 1))) xs)).
  Proof using HW HK3.
    intros Hs Hl HX. destruct (a2b_pre_many_ok K X xs HW HX) as (x1 & x2 & x3 & H1 & H2 & H3 & E & L1 & L2 & L3).
    unfold get_msb_many.
    eapply wpM_mono; [|apply (msb_adder_many_ok _ _ _ (aby3_bin_ok G) K _ x1 _ x2 _ x3 tt s HW HK3 Hs H1 H2 H3); congruence].
    intros s' W [Hs' HWs]. split; [exact Hs'|]. apply RL_brel in HWs; [|left; reflexivity].
    match type of HWs with RL _ _ ?l => match goal with |- RL _ _ ?l' => replace l' with l; [exact HWs|] end end.
    rewrite <- E. clear -HK3. revert x2 x3. induction x1 as [|a x1 IH]; intros [|b x2] [|c x3]; cbn [map3 map]; try reflexivity.
    rewrite IH. f_equal. f_equal. unfold norm. symmetry. apply Z.mod_pow2_bits_low. lia.
  Qed.

  Definition aby3_bit (X : pid -> share) (b : bool) : Prop := bin_shared 1 X (Z.b2z b).
  Lemma RL_bits X bs : RL aby3_bit X bs <-> RL (bin_shared 1) X (map Z.b2z bs).
  Proof using Type.
    split.
    - intros H. induction H as [X HX|X Y X0 y ys HX HY H IH]; [apply RL_nil; exact HX|].
      cbn [map]. apply (RL_cons _ _ Y X0); assumption.
    - revert X. induction bs as [|b bs IH]; intros X H; cbn [map] in H.
      + apply RL_nil, (RL_inv_nil _ _ H).
      + apply RL_inv_cons in H. destruct H as (Y & X0 & EX & HY & H0). apply (RL_cons _ _ Y X0); auto.
  Qed.
  Lemma or_bits_b2z bs : or_bits (map Z.b2z bs) = Z.b2z (existsb (fun b => b) bs).
  Proof using Type. unfold or_bits. f_equal. induction bs as [|b bs IH]; [reflexivity|]. cbn [map existsb]. rewrite IH. destruct b; reflexivity. Qed.

  Lemma aby3_reduce_binary_or_ok X bs chunk (s : pid -> prf G) : prf_synced s -> (0 < chunk)%nat -> (0 < length bs)%nat ->
    RL aby3_bit X bs ->
    wpM (fun i => aby3_reduce_binary_or G i (X i) chunk) s
      (fun s' W => prf_synced s' /\ aby3_bit W (existsb (fun b => b) bs)).
  Proof using Type.
    intros Hs Hc Hl HX. apply RL_bits in HX. apply RL_brel in HX; [|left; reflexivity]. unfold aby3_reduce_binary_or.
    eapply wpM_mono; [|apply (reduce_binary_or_ok _ _ _ (aby3_bin_ok G) X _ chunk tt s Hc) with (3 := HX); [|exact Hs]].
    - intros s' W [Hs' [_ HWs]]. split; [exact Hs'|]. rewrite or_bits_b2z in HWs. exact HWs.
    - rewrite map_length. exact Hl.
  Qed.

  Lemma aby3_mpc_ok : mpc_ok (aby3_engine G K) K (arith_shared K) aby3_bit (fun (_ : unit) s => prf_synced s)
    (fun _ g => g) (fun _ g => g) (fun _ g => g) (fun _ _ g => g) (fun _ => True) (fun g => g).
  Proof using HW HK3.
    constructor; cbn [aby3_engine m_K m_precompute m_masked_dot_many m_filter_reduce_add_twice m_add m_sub m_mul_const m_sub_const m_get_msb_many m_reduce_binary_or m_verify m_open_bit].
    - reflexivity.
    - intros g s n Hs. apply wpM_ret. exact Hs.
    - intros g s X xs Y yss masks Hs HX HY Lx Ly Hm Hl Hlm. apply masked_dot_many_ok; assumption.
    - intros X xs Y ys m HX HY Lx Ly _ _ Hm. apply aby3_filter_ok; assumption.
    - intros. apply sh_add_ok; assumption.
    - intros. apply sh_sub_ok; assumption.
    - intros. apply sh_mulc_ok; assumption.
    - intros. apply sh_sub_const_ok; assumption.
    - intros g s X xs Hs Hl HX. eapply wpM_mono; [|apply (get_msb_many_ok X xs s Hs Hl HX)].
      intros s' W [Hs' HWs]. split; [exact Hs'|]. apply RL_bits. rewrite map_map. exact HWs.
    - intros g s X bs chunk Hs Hc Hl HX. apply aby3_reduce_binary_or_ok; assumption.
    - intros g s Hs _. apply wpM_ret. exact Hs.
    - intros g s X b Hs HX. eapply wpM_mono; [|apply (open_bit_ok G X _ s HX)].
      cbn beta. intros s' v [-> Hv]. split; [exact Hs|]. intros i. rewrite Hv. destruct b; reflexivity.
  Qed.
End Aby3.
