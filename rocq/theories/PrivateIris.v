(** The iris protocol over the semi-honest engine: a party learns nothing but the answer. *)
From Verif Require Import Base Ring RingProofs BitArith Prog Sched Rel Rng Net BinTrait BinProofs Iris IrisSpec IrisProofs Protocol MpcSpec ProtocolProofs Aby3 ShareSpec Aby3Proofs SlicedProofs EngineProofs ViewSpec Private PrivateOps PrivateAby3 PrivateCirc PrivateSliced PrivateClient.
From Verif Require Import PolyProofs Aby3MalProofs.

Lemma mapM_res_len {A B} (f : A -> res B) l : (forall a, In a l -> exists b, f a = Ok b) -> exists bs, mapM_res f l = Ok bs /\ length bs = length l.
Proof.
  induction l as [|a l IH]; intros H; [exists []; auto|]. destruct (H a (or_introl eq_refl)) as [b Hb]. destruct IH as (bs & E & L); [intros; apply H; right; assumption|].
  exists (b :: bs). cbn [mapM_res]. rewrite Hb, E. cbn [length]. auto.
Qed.
Lemma filter_fold_total K m l : wf_code m -> forall idx acc, 0 <= idx -> idx + Z.of_nat (length l) <= 12800 -> exists v, filter_fold K m idx l acc = Ok v.
Proof.
  intros Hm. induction l as [|x l IH]; intros idx acc Hi Hl; cbn [filter_fold]; [eauto|]. cbn [length] in Hl.
  rewrite get_bit_ok by (auto; lia). apply IH; lia.
Qed.

Section Iris.
  Context (i : pid) (K : Z) (HW : In K widths) (HK : 16 <= K) (signed : bool).
  Notation MT := (M (prf tape)).
  Notation pq D f E := (ppriv i D f (fun _ r => E r)).
  Notation E := (aby3_engine tape K).
  Notation isz := IRIS_CODE_SIZE.

  Definition lens (c : nat) (l : list (list share)) : Prop := length l = c /\ Forall (fun y => length y = isz) l.

  Lemma post_total j a b m d : length a = isz -> length b = isz -> wf_code m -> exists v, masked_hamming_distance_post (E j) signed a b m d = Ok v.
  Proof using HK.
    intros Ha Hb Hm. unfold masked_hamming_distance_post. cbn [aby3_engine m_filter_reduce_add_twice m_K]. unfold filter_reduce_add_twice. rewrite Ha, Hb, Nat.eqb_refl.
    assert (H0 : Nat.eqb isz 0 = false) by (apply Nat.eqb_neq; pose proof iris_size_nat; lia). rewrite H0. cbn [orb negb].
    destruct (filter_fold_total K m a Hm 0 szero) as [u Hu]; [lia|rewrite Ha; pose proof iris_size_nat; lia|].
    destruct (filter_fold_total K m b Hm 0 szero) as [v Hv]; [lia|rewrite Hb; pose proof iris_size_nat; lia|].
    rewrite Hu. cbn [rbind]. rewrite Hv. cbn [rbind]. rewrite (try_from_ok K HK signed) by lia. cbn [expect rbind]. eauto.
  Qed.

  Definition good_masks (ma : code) (mb : list code) : Prop :=
    exists ms, mapM_res (combine_masks ma) mb = Ok ms /\ Forall wf_code ms /\ length ms = length mb.

  Lemma pp_compare ma mb c : length mb = c -> (0 < c)%nat -> good_masks ma mb ->
    pq (fun z => length (fst z) = isz /\ lens c (snd z)) (fun j z => compare_iris_many (E j) signed (fst z) (snd z) ma mb) (okL 1 c).
  Proof using HW HK.
    intros Hc Hpos (ms & Hms & Hwf & Lms).
    assert (HB : forall m, In m ms -> exists bs, bits m = Ok bs). { intros m Hm. rewrite Forall_forall in Hwf. eexists. apply bits_spec, Hwf, Hm. }
    assert (Hones : forall m, In m ms -> exists t, try_from signed K (match_threshold (count_ones m)) = Ok t).
    { intros m Hm. rewrite Forall_forall in Hwf. pose proof (count_range (bit_at m)) as Hr. rewrite count_ones_spec by (apply Hwf, Hm).
      rewrite match_threshold_exact by exact Hr. eexists. apply (try_from_ok K HK). split; [apply Z.div_pos|apply Z.div_le_upper_bound]; lia. }
    set (mhd := fun j z => masked_hamming_distance_many (E j) signed (fst z) (snd z) ms).
    set (diff := fun j (hw : list share) => mapM_res (fun hl : share * Z => get_cmp_diff (E j) signed (Prf tape [] []) (fst hl) (snd hl)) (combine hw (map count_ones ms))).
    eapply (pq_to i _ (fun j z => bindM (mhd j z) (fun hw => compare_threshold_many (E j) signed hw (map count_ones ms))) _ _ (fun _ z => z)).
    2: intros j z Hz; exact Hz.
    2: { intros j z s (Ha & [Hb Hb']). unfold compare_iris_many. rewrite Hb, Hc, Nat.eqb_refl. replace (Nat.eqb c 0) with false by (symmetry; apply Nat.eqb_neq; lia). cbn [negb orb].
      rewrite Hms. reflexivity. }
    assert (P1 : pq (fun z => length (fst z) = isz /\ lens c (snd z)) mhd (fun hw => length hw = c)).
    { eapply (pq_step i _ _ (okL K c) _ (fun _ z => z) (fun j z dots => resM (mapM_res (fun bdm : list share * share * code => masked_hamming_distance_post (E j) signed (fst z) (fst (fst bdm)) (snd bdm) (snd (fst bdm)))
              (combine (combine (snd z) dots) ms))) _).
      + apply (pp_masked_dot_many i K HW c ms ltac:(lia) HB).
      + intros j x Hx. destruct Hx as (? & ? & ?). auto.
      + apply (pq_end i _ (fun j zz => mapM_res (fun bdm : list share * share * code => masked_hamming_distance_post (E j) signed (fst (fst zz)) (fst (fst bdm)) (snd bdm) (snd (fst bdm)))
              (combine (combine (snd (fst zz)) (snd zz)) ms)) (fun hw => length hw = c)).
        intros j [z dots] [[Ha [Hb Hb']] [Hd _]]. cbn [fst snd] in *.
        assert (L : length (combine (combine (snd z) dots) ms) = c) by (rewrite !combine_length; lia). rewrite <- L.
        apply mapM_res_len. intros [[y d] m] Hin. cbn [fst snd]. pose proof (in_combine_l _ _ _ _ Hin) as H1. pose proof (in_combine_r _ _ _ _ Hin) as H2.
        apply in_combine_l in H1. rewrite Forall_forall in Hb', Hwf. apply post_total; auto. }
    apply (pq_step i _ mhd (fun hw => length hw = c) _ (fun _ z => z) (fun j z hw => compare_threshold_many (E j) signed hw (map count_ones ms)) _ P1); [auto|].
    eapply (pq_to i _ (fun j (zz : list share * list (list share) * list share) => bindM (resM (diff j (snd zz))) (fun d => get_msb_many tape j K d)) _ _ (fun _ z => z)).
    2: intros j z Hz; exact Hz.
    2: { intros j [z hw] s [_ Hh]. cbn [fst snd] in *. unfold compare_threshold_many. rewrite map_length, Hh, Lms, Hc, Nat.eqb_refl. reflexivity. }
    apply (pq_res i _ (fun j zz => diff j (snd zz)) (fun d => length d = c) (fun j zz d => get_msb_many tape j K d)).
    - intros j [zz hw] [_ Hh]. cbn [fst snd] in *. unfold diff. assert (L : length (combine hw (map count_ones ms)) = c) by (rewrite combine_length, map_length; lia). rewrite <- L.
      apply mapM_res_len. intros [h n] Hin. cbn [fst snd]. apply in_combine_r, in_map_iff in Hin. destruct Hin as (m & <- & Hm).
      unfold get_cmp_diff. cbn [aby3_engine m_K]. destruct (Hones m Hm) as [t ->]. cbn [expect rbind]. eauto.
    - apply (pq_to i _ _ _ _ (fun j zz => snd zz) _ (pp_msb_many_len i K c HW ltac:(lia) Hpos)); [|reflexivity]. intros j zz [_ H]. exact H.
  Qed.

  (** The loop over the chunks. *)
  Notation body a ma j := (fun acc dm => bindM (compare_iris_many (E j) signed a (fst dm) ma (snd dm)) (fun r => retM (acc ++ r))).
  Definition fits_chunk (ch : list (list share)) (m : list code) : Prop := lens (length m) ch.
  Lemma pp_chunks ma mss : Forall (fun m => (0 < length m)%nat /\ good_masks ma m) mss -> forall n,
    pq (fun z : list share * list (list (list share)) * list share => (length (fst (fst z)) = isz /\ Forall2 fits_chunk (snd (fst z)) mss) /\ okL 1 n (snd z))
      (fun j z => foldM (body (fst (fst z)) ma j) (combine (snd (fst z)) mss) (snd z)) (okL 1 (n + list_sum (map (@length code) mss))).
  Proof using HW HK.
    induction mss as [|m mss IH]; intros H n.
    - eapply (pq_to i _ _ _ _ (fun _ z => z) _ (pq_ret i _ (fun j z => snd z) (okL 1 (n + list_sum (map (@length code) [])))  _)).
      + intros j z Hz. exact Hz.
      + intros j z s [[_ H2] _]. inversion H2 as [E1|]. reflexivity.
      Unshelve. intros j z [_ Hz]. cbn [map list_sum fold_right]. rewrite Nat.add_0_r. exact Hz.
    - inversion H as [|? ? [Hm1 Hm2] H']; subst.
      eapply (pq_to i _ (fun j z => bindM (bindM (compare_iris_many (E j) signed (fst (fst z)) (List.hd [] (snd (fst z))) ma m) (fun r => retM (snd z ++ r)))
                  (fun acc => foldM (body (fst (fst z)) ma j) (combine (tl (snd (fst z))) mss) acc)) _ _ (fun _ z => z)).
      2: intros j z Hz; exact Hz.
      2: { intros j [[a ch] acc] s [[_ H2] _]. cbn [fst snd] in *. inversion H2; subst. reflexivity. }
      set (D := fun z : list share * list (list (list share)) * list share => (length (fst (fst z)) = isz /\ Forall2 fits_chunk (snd (fst z)) (m :: mss)) /\ okL 1 n (snd z)).
      assert (HD : forall z, D z -> lens (length m) (List.hd [] (snd (fst z))) /\ Forall2 fits_chunk (tl (snd (fst z))) mss).
      { intros [[a ch] acc] [[_ H2] _]. cbn [fst snd] in *. inversion H2; subst. split; assumption. }
      apply (pq_step i D (fun j z => bindM (compare_iris_many (E j) signed (fst (fst z)) (List.hd [] (snd (fst z))) ma m) (fun r => retM (snd z ++ r))) (okL 1 (n + length m)) D (fun _ z => z)
              (fun j z acc => foldM (body (fst (fst z)) ma j) (combine (tl (snd (fst z))) mss) acc)).
      + apply (pq_step i _ _ (okL 1 (length m)) D (fun _ z => (fst (fst z), List.hd [] (snd (fst z)))) (fun j z r => retM (snd z ++ r)) _ (pp_compare ma m (length m) eq_refl Hm1 Hm2)).
        * intros j z Hz. split; [apply Hz|apply (HD z Hz)].
        * apply (pq_ret i _ (fun j zz => snd (fst zz) ++ snd zz)). intros j [z r] [Hz Hr]. cbn [fst snd] in *. apply okL_app; [apply Hz|exact Hr].
      + auto.
      + cbn [map]. change (list_sum (length m :: map (@length code) mss)) with (length m + list_sum (map (@length code) mss))%nat. rewrite Nat.add_assoc.
        apply (pq_to i _ _ _ _ (fun j zz => ((fst (fst (fst zz)), tl (snd (fst (fst zz)))), snd zz)) _ (IH H' (n + length m)%nat)); [|reflexivity].
        intros j [z acc] [Hz Hacc]. cbn [fst snd] in *. split; [|exact Hacc]. split; [apply Hz|apply (HD z Hz)].
  Qed.

  (** *** The whole protocol *)
  Section Db.
    Context (ma : code) (mb : list code) (chunk : nat) (ans : bool) (Hmb : (0 < length mb)%nat) (Hch : (0 < chunk)%nat).
    Notation T := (list share * list (list share))%type.
    Definition holds (X : pid -> T) (a : iris) (bs : list iris) : Prop :=
      wf_iris a /\ Forall wf_iris bs /\ Forall (enough_valid a) bs /\ ir_mask a = ma /\ map ir_mask bs = mb /\
      RL (arith_shared K) (fun j => fst (X j)) (code_vals (ir_code a)) /\
      RL (RL (arith_shared K)) (fun j => snd (X j)) (map (fun b => code_vals (ir_code b)) bs) /\ existsb (matches a) bs = ans.
    Definition dbD (X : pid -> T) : Prop := exists a bs, holds X a bs.

    Lemma good_from a (bs : list iris) : wf_iris a -> Forall wf_iris bs -> Forall (enough_valid a) bs -> good_masks (ir_mask a) (map ir_mask bs).
    Proof using.
      intros Ha Hbs Hv. exists (map (fun b => code_and (ir_mask a) (ir_mask b)) bs). split; [|split; [|rewrite !map_length; reflexivity]].
      - clear - Ha Hbs Hv. induction bs as [|b bs IH]; [reflexivity|]. inversion Hbs; subst; inversion Hv; subst. cbn [map mapM_res].
        assert (combine_masks (ir_mask a) (ir_mask b) = Ok (code_and (ir_mask a) (ir_mask b))) as ->.
        { unfold combine_masks. destruct Ha as [_ Ha]. destruct H1 as [_ H1].
          rewrite count_ones_spec by (apply code_and_wf; assumption).
          rewrite (count_ext _ (both_valid a b)) by (intros; apply code_and_bit; assumption).
          rewrite mask_threshold_exact. unfold enough_valid in H3.
          destruct (Z.ltb_spec (count (both_valid a b)) 8960); [lia|reflexivity]. }
        rewrite IH by assumption. reflexivity.
      - rewrite Forall_map. eapply Forall_impl; [|exact Hbs]. intros b [_ Hb]. apply code_and_wf; [apply Ha|exact Hb].
    Qed.
    Lemma chunks_good a bs : wf_iris a -> Forall wf_iris bs -> Forall (enough_valid a) bs ->
      Forall (fun m => (0 < length m)%nat /\ good_masks (ir_mask a) m) (chunks chunk (map ir_mask bs)).
    Proof using Hch.
      intros Ha Hbs Hv. rewrite chunks_map, Forall_map. 
      assert (N : Forall (fun c => (0 < length c)%nat) (chunks chunk bs)) by (apply chunks_fuel_nonempty, Hch).
      assert (W : Forall (Forall wf_iris) (chunks chunk bs)) by (apply chunks_incl, Hbs).
      assert (V : Forall (Forall (enough_valid a)) (chunks chunk bs)) by (apply chunks_incl, Hv).
      rewrite Forall_forall in N, W, V. apply Forall_forall. intros c Hc. rewrite map_length. split; [apply N, Hc|apply good_from; [exact Ha|apply W, Hc|apply V, Hc]].
    Qed.
    Notation fold j z := (foldM (body (fst z) ma j) (combine (chunks chunk (snd z)) (chunks chunk mb)) []).
    Definition foldE (X : pid -> T) (W : pid -> list share) : Prop := exists a bs, holds X a bs /\ RL aby3_bit W (map (matches a) bs).
    Lemma fold_wp X a bs u v h : holds X a bs -> wpM (fun j => fold j (X j)) (deal i u v h) (fun _ W => RL aby3_bit W (map (matches a) bs)).
    Proof using HW HK Hch Hmb.
      intros (Ha & Hbs & Hv & Hma & Hmbs & HX & HD & _). rewrite <- Hma, <- Hmbs.
      eapply wpM_mono; [|apply (wpM_ext (fun j => foldM (body (fst (X j)) (ir_mask a) j) (combine (chunks chunk (snd (X j))) (map (map ir_mask) (chunks chunk bs))) []))].
      3: { apply (compare_chunks_ok (aby3_engine tape K) K (arith_shared K) aby3_bit _ _ _ _ _ _ _ (aby3_mpc_ok tape K HW ltac:(lia)) HK signed a (fun j => fst (X j)) (chunks chunk bs) Ha HX) with (Y := fun j => chunks chunk (snd (X j))) (acc := fun _ => []) (accs := @nil bool).
        - apply chunks_fuel_nonempty, Hch.
        - apply chunks_incl, Hbs.
        - apply chunks_incl, Hv.
        - exact tt.
        - apply deal_synced.
        - rewrite <- chunks_map. apply RL_chunks, HD.
        - apply RL_nil'. }
      - cbn beta. intros s' W [_ HW']. cbn [app] in HW'. rewrite <- concat_map, chunks_concat in HW' by exact Hch. exact HW'.
      - intros j. rewrite chunks_map. reflexivity.
    Qed.
    Lemma holds_lens X a bs j : holds X a bs -> length (fst (X j)) = isz /\ lens (length mb) (snd (X j)).
    Proof using.
      intros (_ & _ & _ & _ & Hmbs & HX & HD & _). split; [|split].
      - pose proof (RL_length _ _ _ HX j) as L. cbn beta in L. rewrite L. apply code_vals_length.
      - pose proof (RL_length _ _ _ HD j) as L. cbn beta in L. rewrite L, <- Hmbs, !map_length. reflexivity.
      - assert (G : forall Y bs, RL (RL (arith_shared K)) Y (map (fun b => code_vals (ir_code b)) bs) -> Forall (fun y => length y = isz) (Y j)).
        { clear. intros Y bs. revert Y. induction bs as [|b bs IH]; intros Y H; [rewrite (RL_inv_nil _ _ H); constructor|].
          cbn [map] in H. apply RL_inv_cons in H. destruct H as (A & B & EY & HA & HB). rewrite EY. constructor; [|apply IH, HB].
          rewrite (RL_length _ _ _ HA). apply code_vals_length. }
        apply (G (fun j => snd (X j)) bs HD).
    Qed.
    Hypothesis HG : Forall (fun m => (0 < length m)%nat /\ good_masks ma m) (chunks chunk mb).
    Lemma fold_priv : priv i dbD (fun j z => fold j z) (fun X W => (forall j, okL 1 (length mb) (W j)) /\ foldE X W).
    Proof using HW HK Hmb Hch HG.
      apply (priv_know i dbD (fun j z => fold j z) (fun _ W => forall j, okL 1 (length mb) (W j)) foldE).
      - eapply (priv_pre i _ _ _ _ _ _ (fun _ z => ((fst z, chunks chunk (snd z)), [])) (pp_chunks ma (chunks chunk mb) HG 0)); [|reflexivity|].
        + intros X (a' & bs' & HX) j. cbn [fst snd]. destruct (holds_lens X a' bs' j HX) as [L1 [L2 L3]]. split; [|split; [reflexivity|constructor]]. split; [exact L1|].
          clear - L2 L3 Hch. revert L2 L3. generalize (snd (X j)). intros l L2 L3.
          assert (G : forall f (l : list (list share)) (m : list code), length l = length m -> Forall (fun y => length y = isz) l -> Forall2 fits_chunk (chunks_fuel f chunk l) (chunks_fuel f chunk m)).
          { clear - Hch. induction f as [|f IH]; intros l m L F; [constructor|]. destruct l as [|x l], m as [|y m]; try discriminate; [constructor|].
            cbn [chunks_fuel]. rewrite <- (firstn_skipn chunk) in F. apply Forall_app in F. destruct F as [F1 F2]. constructor.
            - split; [rewrite !firstn_length, L; reflexivity|exact F1].
            - apply IH; [rewrite !skipn_length, L; reflexivity|exact F2]. }
          unfold chunks. rewrite L2. apply G; assumption.
        + intros X R _ H j. specialize (H j). cbn beta in H. rewrite Nat.add_0_l in H.
          replace (list_sum (map (@length code) (chunks chunk mb))) with (length mb) in H; [exact H|].
          rewrite <- (chunks_concat chunk mb Hch) at 1. generalize (chunks chunk mb). clear. intros l. induction l as [|x l IH]; [reflexivity|].
          cbn [concat map list_sum fold_right]. rewrite app_length, IH. reflexivity.
      - intros X R R' HE (a & bs & H & HR). exists a, bs. split; [exact H|]. eapply RL_ext; [|exact HR]. exact HE.
      - intros X u v h (a & bs & H). eapply wpM_mono; [|apply (fold_wp X a bs u v h H)]. intros s0 W HWs. exists a, bs. auto.
    Qed.
    Lemma or_priv : priv i (fun W => (forall j, okL 1 (length mb) (W j)) /\ exists bits, RL aby3_bit W bits /\ existsb (fun b => b) bits = ans)
      (fun j z => aby3_reduce_binary_or tape j z chunk) (fun _ V => aby3_bit V ans).
    Proof using HW HK Hmb Hch.
      eapply (priv_conseq i _ _ _ (fun W V => (forall j, okS 1 (V j)) /\ aby3_bit V ans)); [|intros X HX; exact HX|intros X R _ [_ H]; exact H].
      apply (priv_know i _ (fun j z => aby3_reduce_binary_or tape j z chunk) (fun _ V => forall j, okS 1 (V j)) (fun _ V => aby3_bit V ans)).
      - eapply (priv_conseq i _ _ _ _ _ (pp_reduce_or i (length mb) chunk Hch Hmb)); [intros X [HX _]; exact HX|auto].
      - intros X R R' HE H. eapply brel_ext; [exact HE|exact H].
      - intros W u v h [HL (bits & HR & <-)].
        eapply wpM_mono; [|apply (mo_or _ _ _ _ _ _ _ _ _ _ _ (aby3_mpc_ok tape K HW ltac:(lia)) tt (deal i u v h) W bits chunk (deal_synced i u v h) Hch); [|exact HR]].
        + intros s V [_ HV]. exact HV.
        + rewrite <- (RL_length _ _ _ HR P0), (proj1 (HL P0)). exact Hmb.
    Qed.
    Lemma open_priv : priv i (fun V => aby3_bit V ans) (fun j v => open_bit tape j v) (fun _ _ => True).
    Proof using.
      apply (priv_swap i _ _ (fun j v => to_bytes 1 (sb v)) (fun j v mg => rxor (rxor (sa v) (sb v)) (match from_bytes 1 mg with Ok v => v | Err _ => 0 end) =? 1)).
      - intros V HV j s. eexists. split; [unfold open_bit, bindM, liftM, send_and_receive_value, send_and_receive; cbn [bind]; reflexivity|].
        cbn beta. rewrite from_to_bytes by first [exact W1|apply (bit_ok _ _ (prev j) HV)]. reflexivity.
      - intros V V' HV HV' E. rewrite (open_bit_fixed i V V' ans HV HV' E). reflexivity.
    Qed.
    Lemma db_priv : priv i dbD (fun j z => iris_in_db (E j) signed (fst z) (snd z) ma mb chunk) (fun _ _ => True).
    Proof using HW HK Hmb Hch HG.
      eapply (priv_eq i _ (fun j z => bindM (fold j z) (fun sh => bindM (aby3_reduce_binary_or tape j sh chunk) (fun r => bindM (unwrapM (retM tt)) (fun _ => open_bit tape j r))))).
      - eapply (priv_bind i dbD (fun j z => fold j z) _ (fun j z sh => bindM (aby3_reduce_binary_or tape j sh chunk) (fun r => bindM (unwrapM (retM tt)) (fun _ => open_bit tape j r))) (fun _ _ => True) fold_priv).
        eapply (priv_bind i _ (fun j zz => aby3_reduce_binary_or tape j (snd zz) chunk) (fun _ V => aby3_bit V ans) (fun j zz r => bindM (unwrapM (retM tt)) (fun _ => open_bit tape j r)) (fun _ _ => True)).
        + eapply (priv_pre i _ _ _ _ _ _ (fun _ z => snd z) or_priv); [|reflexivity|auto].
          intros X [_ [HL (a & bs & H & HR)]]. split; [exact HL|]. exists (map (matches a) bs). split; [exact HR|].
          destruct H as (_ & _ & _ & _ & _ & _ & _ & <-). clear. induction bs as [|b bs IH]; [reflexivity|]. cbn. rewrite IH. reflexivity.
        + eapply (priv_pre i _ _ _ _ _ _ (fun _ z => snd z) open_priv); [|reflexivity|auto]. intros X [_ HV]. exact HV.
      - intros X (a & bs & H) j s. destruct (holds_lens X a bs j H) as [L1 [L2 L3]]. unfold iris_in_db. rewrite L2, Nat.eqb_refl.
        replace (Nat.eqb (length mb) 0) with false by (symmetry; apply Nat.eqb_neq; lia).
        replace (Nat.eqb chunk 0) with false by (symmetry; apply Nat.eqb_neq; lia). reflexivity.
    Qed.
  End Db.

  Lemma iris_same chunk X DB a bs X' DB' a' bs' : (0 < chunk)%nat -> (0 < length bs)%nat ->
    wf_iris a -> Forall wf_iris bs -> Forall (enough_valid a) bs -> wf_iris a' -> Forall wf_iris bs' ->
    RL (arith_shared K) X (code_vals (ir_code a)) -> RL (RL (arith_shared K)) DB (map (fun b => code_vals (ir_code b)) bs) ->
    RL (arith_shared K) X' (code_vals (ir_code a')) -> RL (RL (arith_shared K)) DB' (map (fun b => code_vals (ir_code b)) bs') ->
    ir_mask a = ir_mask a' -> map ir_mask bs = map ir_mask bs' -> existsb (matches a) bs = existsb (matches a') bs' -> X i = X' i -> DB i = DB' i ->
    same_to i (fun j => iris_in_db (E j) signed (X j) (DB j) (ir_mask a) (map ir_mask bs) chunk)
              (fun j => iris_in_db (E j) signed (X' j) (DB' j) (ir_mask a') (map ir_mask bs') chunk).
  Proof using HW HK.
    intros Hch Hl Ha Hbs Hv Ha' Hbs' HX HD HX' HD' Hma Hmb Hans EX ED. rewrite <- Hma, <- Hmb.
    assert (Hv' : Forall (enough_valid a') bs').
    { clear - Hv Hma Hmb. revert bs' Hmb. induction Hv as [|b bs H _ IH]; intros [|b' bs'] E; try discriminate; [constructor|]. injection E as E1 E2.
      constructor; [|apply IH, E2]. unfold enough_valid, both_valid in *. rewrite <- Hma, <- E1. exact H. }
    assert (Hl' : (0 < length (map ir_mask bs))%nat) by (rewrite map_length; exact Hl).
    apply (priv_same i _ _ _ (db_priv (ir_mask a) (map ir_mask bs) chunk (existsb (matches a) bs) Hl' Hch (chunks_good chunk Hch a bs Ha Hbs Hv)) (fun j => (X j, DB j)) (fun j => (X' j, DB' j))).
    - exists a, bs. repeat (split; [first [assumption|reflexivity]|]). reflexivity.
    - exists a', bs'. repeat (split; [first [assumption|symmetry; assumption]|]). symmetry. exact Hans.
    - rewrite EX, ED. reflexivity.
  Qed.
End Iris.
