(** The iris-code protocol on malicious ABY3 run by two honest parties against an arbitrary third one: one chunk. *)
From Verif Require Import Base Ring RingProofs Prog Sched Conc Rng Rel Net BitArith BinTrait BinProofs AddProofs Iris IrisSpec IrisProofs Protocol MpcSpec Plain Aby3 ShareSpec Aby3Proofs Aby3Proofs2 SlicedProofs OrProofs ProtocolProofs EngineProofs Jmp JmpProofs Session SessionProofs
  Aby3Mal Aby3MalProofs Aby3MalProofs2 SacrificeProofs PropLemmas PropLemmas2 PropLemmas5 SpecProofs Duo DuoProofs MacSpec MacProofs Client ProgMalSpec ProgMalDuo ProgMalOps ProgMalOps2 ProgMalOps3 ProgMalOps4
  ProgMalBinSpec ProgMalBin ProgMalBin2 ProgMalBin3 ProgMalBin4 ProgMalBin5 ProgMalBin6 IrisMalSpec IrisMal.
From Coq Require Import ZifyBool ZifyNat.

Section D.
  Variables (G : rng) (H : hasher) (i : pid) (K : Z) (signed : bool).
  Notation j := (next i).
  Notation ST := (jst G).
  Notation AR := (arith_shared K).
  Notation E := (fun p => mal_engine G H p K).
  Notation stp := (stp G).
  Notation duoX := (duoX G H i K).
  Notation areps := (areps G).
  Notation reps := (reps G i).
  Hypothesis HW : In K widths.
  Hypothesis HK : 16 <= K.
  Hypothesis HU : 40 <= verif_width K - K.

  (** ** Local steps *)
  Definition masks_of (a : iris) (bs : list iris) : list code := map (fun b => code_and (ir_mask a) (ir_mask b)) bs.
  Definition dist_val (a b : iris) (d : Z) : Z :=
    ((((msum (code_vals (ir_code a)) (mask_bits (code_and (ir_mask a) (ir_mask b))) mod 2 ^ K + msum (code_vals (ir_code b)) (mask_bits (code_and (ir_mask a) (ir_mask b))) mod 2 ^ K) mod 2 ^ K) - (d * 2) mod 2 ^ K) mod 2 ^ K).
  Definition thr (a b : iris) : Z := 34 * count (both_valid a b) / 100.
  Lemma dist_ok a X : wf_iris a -> RL AR X (code_vals (ir_code a)) -> forall bs Y, Forall wf_iris bs -> RL (RL AR) Y (map (fun b => code_vals (ir_code b)) bs) ->
    forall D ds, length ds = length bs -> RL AR D ds ->
    exists W, (forall p, mapM_res (fun bdm => masked_hamming_distance_post (E p) signed (X p) (fst (fst bdm)) (snd bdm) (snd (fst bdm))) (combine (combine (Y p) (D p)) (masks_of a bs)) = Ok (W p)) /\
      RL AR W (map2 (dist_val a) bs ds).
  Proof using i HW HK HU.
    intros Ha HX. induction bs as [|b bs IH]; intros Y Hbs HY D ds L HD.
    - exists (fun _ => []). split; [|apply RL_nil']. intros p. rewrite (RL_inv_nil _ _ HY p). reflexivity.
    - destruct ds as [|d ds]; [discriminate|]. cbn [map] in HY. apply RL_inv_cons in HY. destruct HY as (Y1 & Y' & EY & HY1 & HY'). apply RL_inv_cons in HD. destruct HD as (D1 & D' & ED & HD1 & HD').
      inversion Hbs as [|? ? Hb Hbs']; subst.
      destruct (IH Y' Hbs' HY' D' ds ltac:(cbn in L; congruence) HD') as (W & EW & HWW).
      destruct (post_ok E K _ _ _ _ _ _ _ _ _ (mal_mpc_ok G H K HW HU ltac:(lia)) HK signed X Y1 D1 _ _ _ HX HY1 HD1 (code_and (ir_mask a) (ir_mask b))) as (V & EV & HV); [apply code_and_wf; [apply Ha|apply Hb]|].
      exists (fun p => V p :: W p). split.
      + intros p. rewrite EY, ED. cbn [combine masks_of map mapM_res fst snd]. rewrite EV. fold (masks_of a bs). rewrite EW. reflexivity.
      + cbn [map2]. apply RL_cons'; [exact HV|exact HWW].
  Qed.
  Lemma diff_ok a : wf_iris a -> forall bs, Forall wf_iris bs -> forall D ds (s : pid -> ST), length ds = length bs -> RL AR D ds ->
    exists W, (forall p, mapM_res (fun hl => get_cmp_diff (E p) signed (s p) (fst hl) (snd hl)) (combine (D p) (map count_ones (masks_of a bs))) = Ok (W p)) /\
      RL AR W (map2 (fun b d => (d - thr a b) mod 2 ^ K) bs ds).
  Proof using i HW HK HU.
    intros Ha. induction bs as [|b bs IH]; intros Hbs D ds s L HD.
    - destruct ds; [|discriminate]. exists (fun _ => []). split; [|apply RL_nil']. intros p. rewrite (RL_inv_nil _ _ HD p). reflexivity.
    - destruct ds as [|d ds]; [discriminate|]. apply RL_inv_cons in HD. destruct HD as (D1 & D' & ED & HD1 & HD').
      inversion Hbs as [|? ? Hb Hbs']; subst. destruct (IH Hbs' D' ds s ltac:(cbn in L; congruence) HD') as (W & EW & HWW).
      pose proof (count_range (both_valid a b)) as Hr.
      assert (Ht : 0 <= thr a b <= 12800) by (unfold thr; split; [apply Z.div_pos|apply Z.div_le_upper_bound]; lia).
      assert (EC : count_ones (code_and (ir_mask a) (ir_mask b)) = count (both_valid a b)).
      { rewrite count_ones_spec by (apply code_and_wf; [apply Ha|apply Hb]). apply count_ext. intros; apply code_and_bit; first [assumption|apply Ha|apply Hb]. }
      exists (fun p => sh_sub_const p K (D1 p) (thr a b) :: W p). split.
      + intros p. rewrite ED. cbn [combine masks_of map mapM_res fst snd]. unfold get_cmp_diff at 1. rewrite EC, match_threshold_exact by exact Hr.
        cbn [mal_engine m_K m_sub_const]. rewrite (try_from_ok K HK) by exact Ht. cbn [expect rbind]. fold (masks_of a bs). specialize (EW p). cbn [mal_engine] in EW. rewrite EW. reflexivity.
      + cbn [map2]. apply RL_cons'; [|exact HWW].
        apply sh_sub_const_ok; [lia|exact HD1].
  Qed.

  (** A local function of each party's own data, correct on shares, is correct for two parties. *)
  Lemma local_ok (f : pid -> list share -> res (list share)) (F : list Z -> list Z) n :
    (forall D ds, length ds = n -> RL AR D ds -> exists W, (forall p, f p (D p) = Ok (W p)) /\ RL AR W (F ds)) -> (forall ds, length ds = n -> length (F ds) = n) ->
    forall b s t xs ys vs, length vs = n -> areps b s t K xs ys vs ->
    exists w w', f i xs = Ok w /\ f j ys = Ok w' /\ areps b s t K w w' (F vs).
  Proof using i HK.
    intros HF HL b s t xs ys vs Lv (R1 & R2 & L1 & L2 & R). assert (HK0 : 0 <= K) by lia.
    assert (OWN : forall q zs, Forall (ranged K) zs -> length zs = n -> exists w, f q zs = Ok w /\ Forall (ranged K) w /\ length w = n).
    { intros q zs RZ LZ. destruct (own_fam q K zs HK0 RZ) as (D & ds & HD & ED & Ld). destruct (HF D ds ltac:(congruence) HD) as (W & EW & HWW).
      exists (W q). split; [rewrite <- ED; apply EW|]. split; [|rewrite (RL_length _ _ _ HWW); apply HL; congruence].
      destruct (RL_rows q K W _ HWW) as [P _]. clear -P. induction P as [|x y xs ys (P1 & _) P IH]; constructor; assumption. }
    destruct (OWN i xs R1 ltac:(congruence)) as (w & E1 & F1 & N1). destruct (OWN j ys R2 ltac:(congruence)) as (w' & E2 & F2 & N2).
    exists w, w'. split; [exact E1|]. split; [exact E2|]. split; [exact F1|]. split; [exact F2|]. rewrite HL by exact Lv. split; [exact N1|]. split; [exact N2|].
    intros C. destruct (R C) as [?|[P EV]]; [auto|]. right. pose proof (rows_fam_RL i K xs ys P) as RF. rewrite EV in RF.
    destruct (HF _ _ Lv RF) as (W & EW & HWW). pose proof (EW i) as W1. pose proof (EW j) as W2. rewrite rows_fam_i in W1. rewrite rows_fam_j in W2.
    rewrite E1 in W1. rewrite E2 in W2. injection W1 as ->. injection W2 as ->. apply RL_rows, HWW.
  Qed.

  (** ** Masked inner products *)
  Lemma RL_rows2 X xss : RL (RL AR) X xss -> Forall2 (Forall2 (paired K)) (X i) (X j) /\ map2 (map2 (joint K)) (X i) (X j) = xss.
  Proof using i.
    induction 1 as [X HX|X Y X' y ys HX HY HR [IH1 IH2]]; rewrite !HX; [split; [constructor|reflexivity]|].
    destruct (RL_rows i K Y y HY) as [P Ey]. split; [constructor; assumption|]. cbn [map2]. rewrite Ey, IH2. reflexivity.
  Qed.
  Lemma masked_rows X xs : RL AR X xs -> length xs = IRIS_CODE_SIZE -> forall Y yss masks, RL (RL AR) Y yss -> Forall (fun ys => length ys = IRIS_CODE_SIZE) yss -> Forall wf_code masks -> length yss = length masks ->
    exists V, (forall p, mapM_res (fun bm =>
            if negb (Nat.eqb (length (X p)) IRIS_CODE_SIZE) || negb (Nat.eqb (length (fst bm)) IRIS_CODE_SIZE)
            then Err EInvalidCodeSize
            else rbind (bits (snd bm)) (fun bs => Ok (masked share szero (X p) bs, masked share szero (fst bm) bs)))
          (combine (Y p) masks) = Ok (V p)) /\
        RL (RL AR) (fun p => map fst (V p)) (map (fun m => masked Z 0 xs (mask_bits m)) masks) /\
        RL (RL AR) (fun p => map snd (V p)) (map2 (fun ys m => masked Z 0 ys (mask_bits m)) yss masks).
  Proof using i HK.
    intros HX Lx Y yss masks HY Ly Hm Hlm. revert masks Hm Hlm.
    assert (MO : forall X xs m, RL AR X xs -> RL AR (fun p => masked share szero (X p) m) (masked Z 0 xs m)).
    { intros X0 xs0 m0 HX0. apply (masked_ok AR (fun _ => szero)); [apply szero_arel; lia|exact HX0]. }
    induction HY as [Y HY|Y Y1 Y0 ys yss HY HY1 HYs IH]; intros masks Hm Hlm.
    - destruct masks; [|discriminate]. exists (fun _ => []). split; [|split; apply RL_nil']. intros p. rewrite HY. reflexivity.
    - destruct masks as [|m masks]; [discriminate|]. inversion Ly as [|? ? Ly1 Ly']; subst. inversion Hm as [|? ? Hm1 Hm']; subst. injection Hlm as Hlm.
      destruct (IH Ly' masks Hm' Hlm) as (V & E1 & E2 & E3).
      exists (fun p => (masked share szero (X p) (mask_bits m), masked share szero (Y1 p) (mask_bits m)) :: V p). split; [|split].
      + intros p. rewrite HY. cbn [combine mapM_res fst snd].
        rewrite (RL_length _ _ _ HX), (RL_length _ _ _ HY1), Lx, Ly1, Nat.eqb_refl. cbn [negb orb].
        rewrite bits_spec by assumption. cbn [rbind]. fold (mask_bits m).
        specialize (E1 p). rewrite (RL_length _ _ _ HX), Lx, Nat.eqb_refl in E1. cbn [negb orb] in E1.
        cbn [negb orb]. rewrite E1. reflexivity.
      + cbn [map fst]. apply RL_cons'; [apply MO, HX|exact E2].
      + cbn [map map2 snd]. apply RL_cons'; [apply MO, HY1|exact E3].
  Qed.
  Lemma len_rows (X : pid -> list (list share)) xss Y yss p q : RL (RL AR) X xss -> RL (RL AR) Y yss -> Forall2 (fun x y => length x = length y) xss yss ->
    Forall2 (fun x y => length x = length y) (X p) (Y q).
  Proof using i.
    intros HX. revert Y yss. induction HX as [X HX|X X1 X' x xss HX HX1 HR IH]; intros Y yss HY F; inversion F; subst.
    - rewrite HX, (RL_inv_nil _ _ HY q). constructor.
    - apply RL_inv_cons in HY. destruct HY as (Y1 & Y' & EY & HY1 & HY'). rewrite HX, EY. constructor; [|eapply IH; eassumption].
      rewrite (RL_length _ _ _ HX1), (RL_length _ _ _ HY1). assumption.
  Qed.
  Lemma masked_dot_X b X xs Y yss masks (s t : ST) : RL AR X xs -> length xs = IRIS_CODE_SIZE -> RL (RL AR) Y yss -> Forall (fun ys => length ys = IRIS_CODE_SIZE) yss -> Forall wf_code masks -> length yss = length masks ->
    duoX b (m_masked_dot_many (E i) (X i) (Y i) masks) (m_masked_dot_many (E j) (X j) (Y j) masks) s t (fun b' s' w t' w' =>
      areps b' s' t' K w w' (map2 (fun ys m => mdotp xs ys (mask_bits m) mod 2 ^ K) yss masks)).
  Proof using HW HK.
    intros HX Lx HY Ly Hm Hlm. destruct (masked_rows X xs HX Lx Y yss masks HY Ly Hm Hlm) as (V & E1 & E2 & E3).
    apply (duoX_ext G H i K b _ (mal_dot_many G H i K (map fst (V i)) (map snd (V i))) _ (mal_dot_many G H j K (map fst (V j)) (map snd (V j)))).
    { cbn [mal_engine m_masked_dot_many]. unfold default_masked_dot_many, bindM, resM, liftM. rewrite E1. reflexivity. }
    { cbn [mal_engine m_masked_dot_many]. unfold default_masked_dot_many, bindM, resM, liftM. rewrite E1. reflexivity. }
    assert (SL : Forall2 (fun x y : list Z => length x = length y) (map (fun m => masked Z 0 xs (mask_bits m)) masks) (map2 (fun ys m => masked Z 0 ys (mask_bits m)) yss masks)).
    { clear -Lx Ly Hlm. revert masks Hlm. induction Ly as [|ys yss Hy Ly IH]; intros [|m masks] HH; try discriminate; [constructor|].
      cbn [map map2]. constructor; [|apply IH; injection HH; auto]. unfold masked. rewrite !map2_len, mask_bits_length, Lx, Hy. reflexivity. }
    destruct (RL_rows2 _ _ E2) as [P1 V1]. destruct (RL_rows2 _ _ E3) as [P2 V2].
    eapply duoX_mono; [|apply (dot_many_X G H i K b _ _ _ _ s t HW); [apply (len_rows _ _ _ _ i i E2 E3 SL)|apply (len_rows _ _ _ _ j j E2 E3 SL)| |exact P1|exact P2]].
    2:{ apply (len_rows _ _ _ _ i j E3 E3). clear. generalize (map2 (fun ys m => masked Z 0 ys (mask_bits m)) yss masks) as l. induction l; constructor; auto. }
    intros b' s' w t' w' _ A. rewrite V1, V2 in A.
    match type of A with areps _ _ _ _ _ _ ?l => match goal with |- areps _ _ _ _ _ _ ?l' => replace l' with l; [exact A|] end end.
    clear -Hlm. revert masks Hlm. induction yss as [|ys yss IH]; intros [|m masks] HH; try discriminate; [reflexivity|].
    cbn [map map2]. rewrite masked_dotp. rewrite IH by (injection HH; auto). reflexivity.
  Qed.
End D.
