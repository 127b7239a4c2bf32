(** The iris-code protocol on malicious ABY3 run by two honest parties against an arbitrary third one: the whole protocol. *)
From Verif Require Import Base Ring RingProofs Prog Sched Conc Rng Rel Net BitArith BinTrait BinProofs AddProofs Iris IrisSpec IrisProofs Protocol MpcSpec Plain Aby3 ShareSpec Aby3Proofs Aby3Proofs2 SlicedProofs OrProofs ProtocolProofs EngineProofs Jmp JmpProofs Session SessionProofs
  Aby3Mal Aby3MalProofs Aby3MalProofs2 SacrificeProofs PropLemmas PropLemmas2 PropLemmas5 SpecProofs Duo DuoProofs MacSpec MacProofs Client Emits TripleMalMet ProgMalSpec ProgMalDuo ProgMalOps ProgMalOps2 ProgMalOps3 ProgMalOps4 ProgMalExec ProgMalMet ProgMalExec2
  ProgMalBinSpec ProgMalBin ProgMalBin2 ProgMalBin3 ProgMalBin4 ProgMalBin5 ProgMalBin6 IrisMalSpec IrisMal IrisMal2.
From Coq Require Import ZifyBool ZifyNat.

Section D.
  Variables (G : rng) (H : hasher) (i : pid) (K : Z) (signed : bool).
  Notation j := (next i).
  Notation ST := (jst G).
  Notation AR := (arith_shared K).
  Notation E := (fun p => mal_engine G H p K).
  Notation stp := (stp G).
  Notation duoX := (duoX G H i K).
  Notation areps := (areps G).
  Notation reps := (reps G i).
  Notation rep := (rep G i).
  Hypothesis HW : In K widths.
  Hypothesis HK : 16 <= K.
  Hypothesis HU : 40 <= verif_width K - K.

  Lemma match_val a b : wf_iris a -> wf_iris b ->
    Z.testbit ((dist_val K a b (mdotp (code_vals (ir_code a)) (code_vals (ir_code b)) (mask_bits (code_and (ir_mask a) (ir_mask b))) mod 2 ^ K) - thr a b) mod 2 ^ K) (K - 1) = matches a b.
  Proof using HK.
    intros Ha Hb. pose proof (hd_count a b Ha Hb) as E0. pose proof (count_range (both_valid a b)) as Hr. pose proof (count_range (differ a b)) as Hr'.
    assert (Ht : 0 <= thr a b <= 12800) by (unfold thr; split; [apply Z.div_pos|apply Z.div_le_upper_bound]; lia).
    assert (E1 : dist_val K a b (mdotp (code_vals (ir_code a)) (code_vals (ir_code b)) (mask_bits (code_and (ir_mask a) (ir_mask b))) mod 2 ^ K) = count (differ a b) mod 2 ^ K).
    { rewrite <- E0. unfold dist_val, hd. assert (0 <= K) by lia. modring. }
    rewrite E1, Zminus_mod_idemp_l. apply msb_lt; lia.
  Qed.
  Lemma masks_ok a bs : wf_iris a -> Forall wf_iris bs -> Forall (enough_valid a) bs -> mapM_res (combine_masks (ir_mask a)) (map ir_mask bs) = Ok (masks_of a bs).
  Proof using Type.
    intros Ha Hbs Hv. induction bs as [|b bs IH]; [reflexivity|]. inversion Hbs as [|? ? Hb Hbs']; subst; inversion Hv as [|? ? Hv1 Hv']; subst. cbn [map mapM_res].
    assert (combine_masks (ir_mask a) (ir_mask b) = Ok (code_and (ir_mask a) (ir_mask b))) as ->.
    { unfold combine_masks. destruct Ha as [_ Ha]. destruct Hb as [_ Hb].
      rewrite count_ones_spec by (apply code_and_wf; assumption).
      rewrite (count_ext _ (both_valid a b)) by (intros; apply code_and_bit; assumption).
      rewrite mask_threshold_exact. unfold enough_valid in Hv1.
      destruct (Z.ltb_spec (count (both_valid a b)) 8960); [lia|reflexivity]. }
    rewrite IH by assumption. reflexivity.
  Qed.
  Lemma masks_wf a bs : wf_iris a -> Forall wf_iris bs -> Forall wf_code (masks_of a bs).
  Proof using Type. intros Ha Hbs. unfold masks_of. rewrite Forall_map. eapply Forall_impl; [|exact Hbs]. intros b [_ Hb]. apply code_and_wf; [apply Ha|exact Hb]. Qed.

  Lemma compare_X b X a Y bs (s t : ST) : wf_iris a -> Forall wf_iris bs -> Forall (enough_valid a) bs -> (0 < length bs)%nat ->
    RL AR X (code_vals (ir_code a)) -> RL (RL AR) Y (map (fun b => code_vals (ir_code b)) bs) ->
    duoX b (compare_iris_many (E i) signed (X i) (Y i) (ir_mask a) (map ir_mask bs)) (compare_iris_many (E j) signed (X j) (Y j) (ir_mask a) (map ir_mask bs)) s t
      (fun b' s' w t' w' => reps b' s' t' 1 w w' (map Z.b2z (map (matches a) bs))).
  Proof using HW HK HU.
    intros Ha Hbs Hv Hl HX HY. set (masks := masks_of a bs).
    assert (Lm : length masks = length bs) by apply map_length.
    assert (EX : forall p q, (compare_iris_many (E p) signed (X p) (Y p) (ir_mask a) (map ir_mask bs)) q = bindM (masked_hamming_distance_many (E p) signed (X p) (Y p) masks) (fun hwds => compare_threshold_many (E p) signed hwds (map count_ones masks)) q).
    { intros p q. unfold compare_iris_many. rewrite (RL_length _ _ _ HY), !map_length, Nat.eqb_refl.
      replace (Nat.eqb (length bs) 0) with false by (symmetry; apply Nat.eqb_neq; lia). cbn [negb orb]. rewrite masks_ok by assumption. reflexivity. }
    eapply duoX_ext; [apply EX|apply EX|]. clear EX. unfold masked_hamming_distance_many.
    apply duoX_bind. apply duoX_bind.
    eapply duoX_mono; [|apply (masked_dot_X G H i K HW HK b X _ Y _ masks s t HX (code_vals_length _) HY); [|apply masks_wf; assumption|rewrite map_length; congruence]].
    2:{ rewrite Forall_map. apply Forall_forall. intros; apply code_vals_length. }
    intros b1 s1 D t1 D' S1 A _.
    set (ds := map2 (fun ys m => mdotp (code_vals (ir_code a)) ys (mask_bits m) mod 2 ^ K) (map (fun b => code_vals (ir_code b)) bs) masks) in A.
    assert (Lds : length ds = length bs) by (unfold ds; rewrite map2_len, map_length, Lm; lia).
    destruct (local_ok G i K HK (fun p D => mapM_res (fun bdm => masked_hamming_distance_post (E p) signed (X p) (fst (fst bdm)) (snd bdm) (snd (fst bdm))) (combine (combine (Y p) D) masks)) (map2 (dist_val K a) bs) (length bs)) with (b := b1) (s := s1) (t := t1) (xs := D) (ys := D') (vs := ds) as (w & w' & E1 & E2 & AW).
    { intros D0 ds0 L0 H0. apply (dist_ok G H i K signed); assumption. }
    { intros ds0 L0. rewrite map2_len, L0. lia. }
    { exact Lds. }
    { exact A. }
    cbv beta in E1, E2.
    apply (duoX_ext G H i K b1 _ (retM w) _ (retM w')); [rewrite E1; reflexivity|rewrite E2; reflexivity|].
    apply duoX_ret. intros b2 S2 _. pose proof (areps_stp G _ _ _ _ _ _ _ _ _ _ S2 AW) as AW2. clear AW A.
    set (hs := map2 (dist_val K a) bs ds) in AW2. assert (Lhs : length hs = length bs) by (unfold hs; rewrite map2_len, Lds; lia).
    destruct (local_ok G i K HK (fun p D => mapM_res (fun hl => get_cmp_diff (E p) signed s1 (fst hl) (snd hl)) (combine D (map count_ones masks))) (map2 (fun b d => (d - thr a b) mod 2 ^ K) bs) (length bs)) with (b := b2) (s := s1) (t := t1) (xs := w) (ys := w') (vs := hs) as (u & u' & U1 & U2 & AU).
    { intros D0 ds0 L0 H0. apply (diff_ok G H i K signed HW HK HU a Ha bs Hbs D0 ds0 (fun _ => s1) L0 H0). }
    { intros ds0 L0. rewrite map2_len, L0. lia. }
    { exact Lhs. }
    { exact AW2. }
    destruct AW2 as (_ & _ & W1 & W2 & _).
    apply (duoX_ext G H i K b2 _ (mal_get_msb_many G H i K u) _ (mal_get_msb_many G H j K u')).
    { unfold compare_threshold_many. rewrite W1, Lhs, map_length, Lm, Nat.eqb_refl. cbn [negb]. unfold bindM, getM, resM, liftM. cbn [bind fst snd]. cbv beta in U1. rewrite U1. reflexivity. }
    { unfold compare_threshold_many. rewrite W2, Lhs, map_length, Lm, Nat.eqb_refl. cbn [negb]. unfold bindM, getM, resM, liftM. cbn [bind fst snd]. cbv beta in U2.
      pose proof (U2 : mapM_res (fun hl => get_cmp_diff (mal_engine G H j K) signed t1 (fst hl) (snd hl)) (combine w' (map count_ones masks)) = Ok u') as U2'. rewrite U2'. reflexivity. }
    apply duoX_L. eapply duoL_mono; [|apply (msb_many_L G H i b2 K _ _ _ s1 t1 HW AU)].
    intros b3 s3 v t3 v' _ R.
    cbv beta in R. match type of R with reps _ _ _ _ _ _ (map _ ?l) => replace l with (map (matches a) bs) in R; [exact R|] end.
    unfold hs, ds, masks, masks_of. clear - Ha Hbs HK. induction Hbs as [|b bs Hb Hbs IH]; [reflexivity|]. cbn [map map2]. rewrite <- IH, match_val by assumption. reflexivity.
  Qed.

  Lemma chunks_X X a css : wf_iris a -> RL AR X (code_vals (ir_code a)) ->
    Forall (fun c => (0 < length c)%nat) css -> Forall (Forall wf_iris) css -> Forall (Forall (enough_valid a)) css ->
    forall Y acc acc' accs b (s t : ST), RL (RL (RL AR)) Y (map (map (fun b => code_vals (ir_code b))) css) -> reps b s t 1 acc acc' (map Z.b2z accs) ->
    duoX b (foldM (fun acc dm => bindM (compare_iris_many (E i) signed (X i) (fst dm) (ir_mask a) (snd dm)) (fun r => retM (acc ++ r))) (combine (Y i) (map (map ir_mask) css)) acc)
      (foldM (fun acc dm => bindM (compare_iris_many (E j) signed (X j) (fst dm) (ir_mask a) (snd dm)) (fun r => retM (acc ++ r))) (combine (Y j) (map (map ir_mask) css)) acc') s t
      (fun b' s' w t' w' => reps b' s' t' 1 w w' (map Z.b2z (accs ++ concat (map (map (matches a)) css)))).
  Proof using HW HK HU.
    intros Ha HX. induction css as [|c css IH]; intros Hne Hwf Hv Y acc acc' accs b s t HY R.
    - rewrite (RL_inv_nil _ _ HY i), (RL_inv_nil _ _ HY j). cbn [combine foldM map concat]. rewrite app_nil_r. apply duoX_ret. intros b' S. eapply reps_stp; eassumption.
    - inversion Hne as [|? ? N1 N2]; subst; inversion Hwf as [|? ? W1 W2]; subst; inversion Hv as [|? ? V1 V2]; subst.
      cbn [map] in HY. apply RL_inv_cons in HY. destruct HY as (D & Y0 & EY & HD & HY0). rewrite !EY. cbn [map combine foldM fst snd concat].
      apply duoX_bind. apply duoX_bind. eapply duoX_mono; [|apply (compare_X b X a D c s t); assumption]. intros b1 s1 w t1 w' S1 RW _.
      apply duoX_ret. intros b2 S2 _. 
      eapply duoX_mono; [|apply (IH N2 W2 V2 Y0 _ _ (accs ++ map (matches a) c) b2 s1 t1 HY0)].
      + intros b3 s3 v t3 v' _ RR. rewrite app_assoc. exact RR.
      + rewrite map_app. apply reps_app; [eapply reps_stp; [exact S2|]; eapply reps_stp; [exact S1|exact R]|eapply reps_stp; [exact S2|exact RW]].
  Qed.

  Theorem iris_X X a DB bs chunk (s t : ST) : wf_iris a -> Forall wf_iris bs -> Forall (enough_valid a) bs -> (0 < length bs)%nat -> (0 < chunk)%nat ->
    RL AR X (code_vals (ir_code a)) -> RL (RL AR) DB (map (fun b => code_vals (ir_code b)) bs) ->
    duoX False (iris_in_db (E i) signed (X i) (DB i) (ir_mask a) (map ir_mask bs) chunk) (iris_in_db (E j) signed (X j) (DB j) (ir_mask a) (map ir_mask bs) chunk) s t
      (fun b' s' u t' v => b' \/ (u = existsb (matches a) bs /\ v = existsb (matches a) bs)).
  Proof using HW HK HU.
    intros Ha Hbs Hv Hl Hc HX HD.
    assert (EX : forall p q, iris_in_db (E p) signed (X p) (DB p) (ir_mask a) (map ir_mask bs) chunk q =
      bindM (foldM (fun acc dm => bindM (compare_iris_many (E p) signed (X p) (fst dm) (ir_mask a) (snd dm)) (fun r => retM (acc ++ r))) (combine (chunks chunk (DB p)) (map (map ir_mask) (chunks chunk bs))) [])
        (fun w => bindM (mal_reduce_binary_or G H p w chunk) (fun r => mal_open_bit G H p r)) q).
    { intros p q. unfold iris_in_db. rewrite (RL_length _ _ _ HD), !map_length, Nat.eqb_refl.
      replace (Nat.eqb (length bs) 0) with false by (symmetry; apply Nat.eqb_neq; lia).
      replace (Nat.eqb chunk 0) with false by (symmetry; apply Nat.eqb_neq; lia). cbn [negb orb]. rewrite chunks_map. reflexivity. }
    eapply duoX_ext; [apply EX|apply EX|]. clear EX.
    assert (HCh : RL (RL (RL AR)) (fun p => chunks chunk (DB p)) (map (map (fun b => code_vals (ir_code b))) (chunks chunk bs))) by (rewrite <- chunks_map; apply RL_chunks, HD).
    apply duoX_bind. eapply duoX_mono; [|apply (chunks_X X a (chunks chunk bs) Ha HX) with (Y := fun p => chunks chunk (DB p)) (acc := []) (acc' := []) (accs := @nil bool); auto].
    2:{ apply chunks_fuel_nonempty, Hc. }
    2:{ apply Forall_concat. rewrite chunks_concat by exact Hc. exact Hbs. }
    2:{ apply Forall_concat. rewrite chunks_concat by exact Hc. exact Hv. }
    2:{ apply reps_nil. }
    intros b1 s1 w t1 w' S1 R _. cbn [app] in R. rewrite <- concat_map, chunks_concat in R by exact Hc.
    apply duoX_bind. apply duoX_L. eapply duoL_mono; [|apply (reduce_or_L G H i b1 w w' (map (matches a) bs) chunk s1 t1 Hc); [rewrite map_length; exact Hl|exact R]].
    intros b2 s2 r t2 r' S2 RR _. apply duoX_L. eapply duoL_mono; [|apply (open_bit_L G H i b2 r r' _ s2 t2 RR)].
    intros b3 s3 u t3 v _ O. replace (existsb (matches a) bs) with (existsb (fun b => b) (map (matches a) bs)); [exact O|].
    clear. induction bs as [|b bs IH]; [reflexivity|]. cbn. rewrite IH. reflexivity.
  Qed.

  (** ** The third party sends bytes, if it is honest *)
  Hypothesis HH : forall x, bytes (hfun H x).
  Let PE := fun A (p : M ST A) => emitsM p.
  Lemma iris_msb_emits p x : emitsM (mal_get_msb_many G H p K x).
  Proof using HH.
    unfold mal_get_msb_many. apply emitsM_bind; [|intros; apply emitsM_ret]. unfold mal_a2b_many.
    apply (add3_many_P _ PE); unfold PE; [intros; apply emitsM_bind; assumption|intros; apply emitsM_ret|intros; apply emitsM_fail|intros; apply emitsM_res|intros; apply and_many_emits, HH].
  Qed.
  Lemma iris_or_emits p x c : emitsM (mal_reduce_binary_or G H p x c).
  Proof using HH.
    unfold mal_reduce_binary_or. apply (or_tree_P _ PE); unfold PE; [intros; apply emitsM_bind; assumption|intros; apply emitsM_ret|intros; apply emitsM_fail|intros; apply emitsM_res|intros; apply and_many_emits, HH].
  Qed.
  Lemma iris_open_emits p x : emitsM (mal_open_bit G H p x).
  Proof using HH.
    unfold mal_open_bit. apply emitsM_bind; [apply jmp_verify_emits, HH|intros]. apply emitsM_bind; [apply jsr_emits|intros]. apply emitsM_bind; [apply jmp_verify_emits, HH|intros]. apply emitsM_ret.
  Qed.
  Lemma emitsM_foldM {S A C} (f : C -> A -> M S C) l : (forall c a, emitsM (f c a)) -> forall c, emitsM (foldM f l c).
  Proof using Type. intros F. induction l as [|a l IH]; intros c; cbn [foldM]; [apply emitsM_ret|]. apply emitsM_bind; [apply F|exact IH]. Qed.
  Lemma iris_emits p x db m ms chunk : emitsM (iris_in_db (mal_engine G H p K) signed x db m ms chunk).
  Proof using HH.
    unfold iris_in_db. cbn [mal_engine m_precompute m_verify m_reduce_binary_or m_open_bit]. destruct (_ || _); [apply emitsM_fail|]. destruct (Nat.eqb chunk 0); [apply emitsM_fail|].
    apply emitsM_bind; [apply emitsM_ret|intros _]. apply emitsM_bind; [|intros w; apply emitsM_bind; [apply iris_or_emits|intros r; apply emitsM_bind; [intros s; constructor|intros _; apply iris_open_emits]]].
    apply emitsM_foldM. intros acc [d dm]. apply emitsM_bind; [|intros; apply emitsM_ret]. unfold compare_iris_many. destruct (_ || _); [apply emitsM_fail|].
    apply emitsM_bind; [apply emitsM_res|intros masks]. apply emitsM_bind.
    - unfold masked_hamming_distance_many. apply emitsM_bind; [|intros; apply emitsM_res]. cbn [mal_engine m_masked_dot_many]. unfold default_masked_dot_many.
      apply emitsM_bind; [apply emitsM_res|intros]. apply dot_many_emits, HH.
    - intros hwds. unfold compare_threshold_many. destruct (negb _); [apply emitsM_fail|]. apply emitsM_bind; [apply emitsM_get|intros s]. apply emitsM_bind; [apply emitsM_res|intros]. apply iris_msb_emits.
  Qed.
End D.
