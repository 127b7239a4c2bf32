(** Honest runs of the SPDZ-wise engine, part 4: the engine's contracts. *)
From Verif Require Import Base Ring RingProofs Prog Sched Conc Rng Rel Net BinTrait BitArith BinProofs AddProofs Iris IrisSpec IrisProofs
  Protocol MpcSpec Plain Aby3 ShareSpec Aby3Proofs Aby3Proofs2 SlicedProofs OrProofs EngineProofs Client ApiProofs Jmp JmpProofs Aby3Mal Aby3MalProofs Aby3MalProofs2
  Spdz TripleSpec TripleProofs SpdzProofs SpdzProofs2 SpdzProofs3.
From Coq Require Import ZifyBool ZifyNat.


Lemma verif_width_in K : In (verif_width K) widths.
Proof. unfold verif_width. destruct (K <=? 32); cbn; tauto. Qed.
Lemma verif_width_le K : In K widths -> 0 <= K <= verif_width K.
Proof. unfold verif_width. intros HK. cbn in HK. destruct (Z.leb_spec K 32); lia. Qed.

Lemma spdz_lists K r X xs : RL (spdz_shared K r) X xs -> exists vs, RL (auth_shared (verif_width K) r) X vs /\ xs = map (fun v => v mod 2 ^ K) vs.
Proof.
  intros HX. destruct (RL_exists (auth_shared (verif_width K) r) (fun v x => x = v mod 2 ^ K) X xs) as (vs & HV & HF).
  { eapply RL_mono; [|exact HX]. intros Y y Hy. exact Hy. }
  exists vs. split; [exact HV|]. clear -HF. induction HF as [|v x vs xs E HF IH]; [reflexivity|]. cbn [map]. congruence.
Qed.
Lemma spdz_lists_intro K r X vs : RL (auth_shared (verif_width K) r) X vs -> RL (spdz_shared K r) X (map (fun v => v mod 2 ^ K) vs).
Proof.
  intros HX. induction HX as [X HX|X Y X0 y ys HX HY H IH]; [apply RL_nil, HX|]. cbn [map].
  apply (RL_cons _ _ Y X0); auto. exists y. auto.
Qed.
Lemma spdz_rows K r X xs : RL (RL (spdz_shared K r)) X xs -> exists vs, RL (RL (auth_shared (verif_width K) r)) X vs /\ xs = map (map (fun v => v mod 2 ^ K)) vs.
Proof.
  intros HX. destruct (RL_exists (RL (auth_shared (verif_width K) r)) (fun v x => x = map (fun v => v mod 2 ^ K) v) X xs) as (vs & HV & HF).
  { eapply RL_mono; [|exact HX]. intros Y y Hy. apply spdz_lists, Hy. }
  exists vs. split; [exact HV|]. clear -HF. induction HF as [|v x vs xs E HF IH]; [reflexivity|]. cbn [map]. congruence.
Qed.
Lemma dotp_trunc K U xs ys : 0 <= K <= U -> (dotp xs ys mod 2 ^ U) mod 2 ^ K = dotp (map (fun v => v mod 2 ^ K) xs) (map (fun v => v mod 2 ^ K) ys) mod 2 ^ K.
Proof.
  intros HK. rewrite mod_mod_pow by lia. unfold dotp. revert ys. induction xs as [|x xs IH]; intros [|y ys]; cbn [map map2 fold_right]; try reflexivity.
  rewrite Zplus_mod, IH, <- Zplus_mod. modring.
Qed.
Lemma mdotp_trunc K U xs ys m : 0 <= K <= U -> (mdotp xs ys m mod 2 ^ U) mod 2 ^ K = mdotp (map (fun v => v mod 2 ^ K) xs) (map (fun v => v mod 2 ^ K) ys) m mod 2 ^ K.
Proof.
  intros HK. rewrite mod_mod_pow by lia. unfold mdotp. revert ys m. induction xs as [|x xs IH]; intros [|y ys] [|b m]; cbn [map map2]; try reflexivity.
  rewrite !msum_cons, Zplus_mod, IH, <- Zplus_mod. destruct b; modring.
Qed.

Lemma ash_filter_zip U a b m : ash_filter_reduce_add_twice U a b m = zip_filter_reduce_add_twice azero (ash_add U) a b m.
Proof.
  unfold ash_filter_reduce_add_twice, zip_filter_reduce_add_twice.
  destruct (Nat.eqb_spec (length a) 0); cbn [orb]; [reflexivity|].
  destruct (Nat.eqb_spec (length a) (length b)) as [E|E]; cbn [orb negb]; [|reflexivity].
  destruct (bits m) as [bs|e]; cbn [rbind]; [|reflexivity]. f_equal. unfold zip_filter_sum. clear n.
  generalize azero at 1 3 as c. generalize azero as d. revert b bs E. induction a as [|x a IH]; intros [|y b] [|t bs] E d c; try discriminate; try reflexivity.
  cbn [combine filter snd fst fold_left]. injection E as E. destruct t; cbn [fold_left fst snd]; apply IH; exact E.
Qed.

Section Contracts.
  Variables (G : rng) (H : hasher) (K r : Z).
  Hypothesis (HW : In K widths).
  Let U := verif_width K.
  Let HU : In U widths. Proof. apply verif_width_in. Qed.
  Let HKU : 0 <= K <= U. Proof. apply verif_width_le, HW. Qed.
  Let HU0 : 0 <= U. Proof. lia. Qed.
  Notation inv := (spdz_inv G U r).
  Notation AR := (spdz_shared K r).

  Lemma ar_ext X X' x : (forall i, X i = X' i) -> AR X x -> AR X' x.
  Proof using Type. intros E (v & Hv & Ex). exists v. split; [eapply auth_ext; eassumption|exact Ex]. Qed.
  Lemma ar_range X x : AR X x -> inr K x.
  Proof using HW. intros (v & Hv & ->). apply inr_mod. lia. Qed.
  Lemma ar_zero : AR (fun _ => azero) 0.
  Proof using HW. exists 0. split; [apply azero_ok, HU0|]. reflexivity. Qed.
  Lemma ar_intro X v x : auth_shared U r X v -> x = v mod 2 ^ K -> AR X x.
  Proof using Type. intros Hv E. exists v. auto. Qed.
  Lemma ar_av X x : AR X x -> arith_shared K (fun i => sh_trunc K (av (X i))) x.
  Proof using HW. intros (v & [Hv _] & ->). apply (sh_trunc_ok K U (fun i => av (X i))); assumption. Qed.
  Lemma ar_avs X xs : RL AR X xs -> RL (arith_shared K) (fun i => map (fun x => sh_trunc K (av x)) (X i)) xs.
  Proof using HW. intros HX. apply (rl_map_ok AR (arith_shared K) (fun _ x => sh_trunc K (av x))); [|exact HX]. apply ar_av. Qed.

  Ltac trunc := fold U; rewrite ?mod_mod_pow by (assumption || lia).

  Lemma spdz_masked_dot_many_ok X xs Y yss masks g s : inv g s -> RL AR X xs -> RL (RL AR) Y yss ->
    length xs = IRIS_CODE_SIZE -> Forall (fun ys => length ys = IRIS_CODE_SIZE) yss -> Forall wf_code masks ->
    wpM (fun i => spdz_masked_dot_many G i K (X i) (Y i) masks) s
      (fun s' W => inv g s' /\ RL AR W (map2 (fun ys m => mdotp xs ys (mask_bits m) mod 2 ^ K) yss masks)).
  Proof using HW.
    intros Hs HX HY Lx Ly Hm. destruct (spdz_lists _ _ _ _ HX) as (vs & HV & ->). destruct (spdz_rows _ _ _ _ HY) as (vss & HVs & ->).
    rewrite map_length in Lx.
    assert (Ly' : Forall (fun ys : list Z => length ys = IRIS_CODE_SIZE) vss).
    { clear -Ly. induction vss as [|v vss IH]; constructor; inversion Ly; subst; [rewrite map_length in *; assumption|auto]. }
    eapply wpM_mono; [|apply (auth_masked_ok G U r HU X vs Y vss masks g s Hs HV HVs Lx Ly' Hm)].
    cbn beta. intros s' W [Hs' HW']. split; [exact Hs'|]. apply spdz_lists_intro in HW'.
    match type of HW' with RL _ _ ?l => match goal with |- RL _ _ ?l' => replace l' with l; [exact HW'|] end end.
    clear -HKU. revert masks. induction vss as [|v vss IH]; intros [|m masks]; cbn [map map2]; try reflexivity.
    rewrite IH. f_equal. apply mdotp_trunc. lia.
  Qed.
  Lemma spdz_dot_many_ok X xs Y ys g s : inv g s -> RL (RL AR) X xs -> RL (RL AR) Y ys ->
    Forall2 (fun x y => length x = length y) xs ys ->
    wpM (fun i => spdz_dot_many G i K (X i) (Y i)) s
      (fun s' W => inv g s' /\ RL AR W (map2 (fun x y => dotp x y mod 2 ^ K) xs ys)).
  Proof using HW.
    intros Hs HX HY HF. destruct (spdz_rows _ _ _ _ HX) as (vx & HVx & ->). destruct (spdz_rows _ _ _ _ HY) as (vy & HVy & ->).
    assert (HF' : Forall2 (fun x y : list Z => length x = length y) vx vy).
    { clear -HF. revert vy HF. induction vx as [|v vx IH]; intros [|w vy] HF; inversion HF; subst; constructor; [rewrite !map_length in *; assumption|auto]. }
    eapply wpM_mono; [|apply (auth_dot_many_ok G U r HU X vx Y vy g s Hs HVx HVy HF')].
    cbn beta. intros s' W [Hs' HW']. split; [exact Hs'|]. apply spdz_lists_intro in HW'.
    match type of HW' with RL _ _ ?l => match goal with |- RL _ _ ?l' => replace l' with l; [exact HW'|] end end.
    clear -HKU. revert vy. induction vx as [|v vx IH]; intros [|w vy]; cbn [map map2]; try reflexivity.
    rewrite IH. f_equal. apply dotp_trunc. lia.
  Qed.
  Lemma spdz_dot_ok X xs Y ys g s : inv g s -> RL AR X xs -> RL AR Y ys -> length xs = length ys ->
    wpM (fun i => spdz_dot G i K (X i) (Y i)) s (fun s' W => inv g s' /\ AR W (dotp xs ys mod 2 ^ K)).
  Proof using HW.
    intros Hs HX HY HL. unfold spdz_dot. cbv zeta.
    match goal with |- wpM (fun i => if _ then _ else bindM (@?P i) (@?F i)) _ _ => apply (wpM_ext (fun i => bindM (P i) (F i))) end.
    { intros i. rewrite (RL_length _ _ _ HX), (RL_length _ _ _ HY), HL, Nat.eqb_refl. reflexivity. }
    destruct (spdz_lists _ _ _ _ HX) as (vx & HVx & ->). destruct (spdz_lists _ _ _ _ HY) as (vy & HVy & ->). rewrite !map_length in HL.
    eapply wpM_mono; [|apply (auth_dot_ok G U r HU X vx Y vy g s Hs HVx HVy HL)].
    cbn beta. intros s' W [Hs' HW']. split; [exact Hs'|]. eapply ar_intro; [exact HW'|]. symmetry. apply dotp_trunc. lia.
  Qed.
  Lemma spdz_mul_ok X x Y y g s : inv g s -> AR X x -> AR Y y ->
    wpM (fun i => spdz_mul G i K (X i) (Y i)) s (fun s' W => inv g s' /\ AR W ((x * y) mod 2 ^ K)).
  Proof using HW.
    intros Hs (vx & HVx & ->) (vy & HVy & ->).
    eapply wpM_mono; [|apply (auth_mul_ok G U r HU X vx Y vy g s Hs HVx HVy)].
    cbn beta. intros s' W [Hs' HW']. split; [exact Hs'|]. eapply ar_intro; [exact HW'|]. trunc. modring.
  Qed.
  Lemma spdz_input_ok (v : pid -> option Z) p x g s : inr K x -> v p = Some x -> inv g s ->
    wpM (fun i => spdz_input G i K (v i) (pid_num p)) s (fun s' W => inv g s' /\ AR W x).
  Proof using HW.
    intros Hx Hv Hs. unfold spdz_input. cbv zeta. fold U.
    assert (HxU : inr U x). { unfold inr in *. pose proof (Z.pow_le_mono_r 2 K U ltac:(lia) ltac:(lia)). lia. }
    wbind. eapply wpM_mono; [|apply (on_aby_ok G U r (fun i => input G i U (option_map to_verif (v i)) (pid_num p)) g s (fun W => arith_shared U W x) Hs);
      intros Hp; apply input_ok; [exact HU|exact HxU|rewrite Hv; reflexivity|exact Hp]].
    cbn beta. intros s1 V (Hs1 & _ & HV). wbind. apply wpM_get. wbind.
    eapply wpM_mono; [|apply (on_aby_ok G U r _ g s1 (fun W => arith_shared U W ((x * r) mod 2 ^ U)) Hs1); intros Hp;
      apply (mul_ok G U V x (fun i => s_mac G (s1 i)) r _ HU Hp HV); apply Hs1].
    cbn beta. intros s2 m (Hs2 & _ & Hm).
    assert (HA : auth_shared U r (fun i => AShare (V i) (m i)) x) by (split; assumption).
    wbind. eapply wpM_mono; [|apply (vq_push_ok G U r (fun i => [AShare (V i) (m i)]) [x] g s2 Hs2); apply RL_one, HA].
    cbn beta. intros s3 ? Hs3. apply wpM_ret. split; [exact Hs3|]. eapply ar_intro; [exact HA|]. symmetry. apply Z.mod_small, Hx.
  Qed.
  Lemma spdz_open_ok X x g s : inv g s -> AR X x -> wpM (fun i => spdz_open G H i K (X i)) s (fun s' v => inv g s' /\ forall i, v i = x).
  Proof using HW.
    intros Hs (v & HV & ->). unfold spdz_open. cbv zeta. fold U. wbind.
    eapply wpM_mono; [|apply (vq_push_ok G U r (fun i => [X i]) [v] g s Hs); apply RL_one, HV]. cbn beta. intros s1 ? Hs1. wbind.
    eapply wpM_mono; [|apply (verify_macs_ok G H U r HU g s1 Hs1)]. cbn beta. intros s2 ? Hs2. wbind.
    eapply wpM_mono; [|apply (on_aby_ok G U r _ g s2 (fun w => forall i, w i = v) Hs2); intros Hp;
      eapply wpM_mono; [|apply (open_ok G U (fun i => av (X i)) v _ HU); apply HV]; cbn beta; intros f w [-> Hw]; auto].
    cbn beta. intros s3 w (Hs3 & _ & Hw). apply wpM_ret. split; [exact Hs3|]. intros i. rewrite Hw. reflexivity.
  Qed.
  Lemma spdz_open_many_ok X xs g s : inv g s -> RL AR X xs -> wpM (fun i => spdz_open_many G H i K (X i)) s (fun s' v => inv g s' /\ forall i, v i = xs).
  Proof using HW.
    intros Hs HX. destruct (spdz_lists _ _ _ _ HX) as (vs & HV & ->). unfold spdz_open_many. cbv zeta. fold U. wbind.
    eapply wpM_mono; [|apply (vq_push_ok G U r X vs g s Hs HV)]. cbn beta. intros s1 ? Hs1. wbind.
    eapply wpM_mono; [|apply (verify_macs_ok G H U r HU g s1 Hs1)]. cbn beta. intros s2 ? Hs2. wbind.
    eapply wpM_mono; [|apply (on_aby_ok G U r _ g s2 (fun w => forall i, w i = vs) Hs2); intros Hp;
      eapply wpM_mono; [|apply (open_many_ok G U (fun i => map av (X i)) vs _ HU); apply (auth_av U r), HV]; cbn beta; intros f w [-> Hw]; auto].
    cbn beta. intros s3 w (Hs3 & _ & Hw). apply wpM_ret. split; [exact Hs3|]. intros i. rewrite Hw. reflexivity.
  Qed.
  Lemma spdz_open_bit_ok X b g s : inv g s -> aby3_bit X b -> wpM (fun i => spdz_open_bit G H i (X i)) s (fun s' v => inv g s' /\ forall i, v i = b).
  Proof using Type.
    intros Hs HX. unfold spdz_open_bit. eapply wpM_mono; [|apply (on_j_ok G U r _ g s (fun v => forall i, v i = b) Hs); apply mal_open_bit_ok; [apply Hs|exact HX]].
    cbn beta. intros s' v (H1 & _ & H2). auto.
  Qed.
  Lemma spdz_open_bit_many_ok X bs g s : inv g s -> RL aby3_bit X bs -> wpM (fun i => spdz_open_bit_many G H i (X i)) s (fun s' v => inv g s' /\ forall i, v i = bs).
  Proof using Type.
    intros Hs HX. unfold spdz_open_bit_many. eapply wpM_mono; [|apply (on_j_ok G U r _ g s (fun v => forall i, v i = bs) Hs); apply mal_open_bit_many_ok; [apply Hs|exact HX]].
    cbn beta. intros s' v (H1 & _ & H2). auto.
  Qed.
  Lemma spdz_get_msb_ok X x g s : inv g s -> AR X x ->
    wpM (fun i => spdz_get_msb G H i K (X i)) s (fun s' W => inv (g_add3 g_and K g) s' /\ aby3_bit W (Z.testbit x (K - 1))).
  Proof using HW.
    intros Hs HX. unfold spdz_get_msb. cbv zeta. fold U. destruct HX as (v & HV & Ex). wbind.
    eapply wpM_mono; [|apply (vq_push_ok G U r (fun i => [X i]) [v] g s Hs); apply RL_one, HV]. cbn beta. intros s1 ? Hs1. wbind.
    eapply wpM_mono; [|apply (verify_macs_ok G H U r HU g s1 Hs1)]. cbn beta. intros s2 ? Hs2. wbind.
    assert (HX : AR X x) by (exists v; auto). apply ar_av in HX.
    destruct (a2b_pre_ok K _ x HW HX) as (x1 & x2 & x3 & H1 & H2 & H3 & E). unfold spdz_a2b.
    set (T := fun i => a2b_pre i (sh_trunc K (av (X i)))) in *.
    apply (wpM_ext (fun i => binary_add_3 (spdz_bin G i K) (fst (fst (T i))) (snd (fst (T i))) (snd (T i)))).
    { intros i. unfold T. destruct (a2b_pre i (sh_trunc K (av (X i)))) as [[u w] t]. reflexivity. }
    eapply wpM_mono; [|apply (binary_add_3_ok _ _ _ _ (spdz_bin_ok G U r) K HW g s2 _ x1 _ x2 _ x3 Hs2 H1 H2 H3)].
    intros s' W [Hs' HWs]. rewrite E in HWs. apply wpM_ret. split; [exact Hs'|]. apply sh_get_msb_ok; [exact HW|apply HWs].
  Qed.
  Lemma spdz_get_msb_many_ok X xs g s : 3 <= K -> inv g s -> (0 < length xs)%nat -> RL AR X xs ->
    wpM (fun i => spdz_get_msb_many G H i K (X i)) s (fun s' W => inv (g_msb g_and K (length xs) g) s' /\ RL aby3_bit W (map (fun x => Z.testbit x (K - 1)) xs)).
  Proof using HW.
    intros HK3 Hs Hl HX. unfold spdz_get_msb_many. cbv zeta. fold U. destruct (spdz_lists _ _ _ _ HX) as (vs & HV & Exs). wbind.
    eapply wpM_mono; [|apply (vq_push_ok G U r X vs g s Hs HV)]. cbn beta. intros s1 ? Hs1. wbind.
    eapply wpM_mono; [|apply (verify_macs_ok G H U r HU g s1 Hs1)]. cbn beta. intros s2 ? Hs2.
    apply ar_avs in HX. destruct (a2b_pre_many_ok K _ xs HW HX) as (x1 & x2 & x3 & H1 & H2 & H3 & E & L1 & L2 & L3).
    eapply wpM_mono; [|apply (msb_adder_many_ok _ _ _ (spdz_bin_ok G U r) K _ x1 _ x2 _ x3 g s2 HW HK3 Hs2 H1 H2 H3); congruence].
    intros s' W [Hs' HWs]. rewrite L1 in Hs'. split; [exact Hs'|]. apply RL_brel in HWs; [|left; reflexivity]. apply RL_bits. rewrite map_map.
    match type of HWs with RL _ _ ?l => match goal with |- RL _ _ ?l' => replace l' with l; [exact HWs|] end end.
    rewrite <- E. clear -HK3. revert x2 x3. induction x1 as [|a x1 IH]; intros [|b x2] [|c x3]; cbn [map3 map]; try reflexivity.
    rewrite IH. f_equal. f_equal. unfold norm. symmetry. apply Z.mod_pow2_bits_low. lia.
  Qed.
  Lemma spdz_reduce_or_ok X bs chunk g s : inv g s -> (0 < chunk)%nat -> (0 < length bs)%nat -> RL aby3_bit X bs ->
    wpM (fun i => spdz_reduce_binary_or G i (X i) chunk) s (fun s' W => inv (g_reduce_or g_and (length bs) chunk g) s' /\ aby3_bit W (existsb (fun b => b) bs)).
  Proof using Type.
    intros Hs Hc Hl HX. apply RL_bits in HX. apply RL_brel in HX; [|left; reflexivity]. unfold spdz_reduce_binary_or.
    eapply wpM_mono; [|apply (reduce_binary_or_ok _ _ _ (spdz_bin_ok G U r) X _ chunk g s Hc) with (3 := HX); [|exact Hs]].
    - intros s' W [Hs' [_ HWs]]. rewrite map_length in Hs'. split; [exact Hs'|]. rewrite or_bits_b2z in HWs. exact HWs.
    - rewrite map_length. exact Hl.
  Qed.
  Lemma spdz_verify_ok g s : inv g s -> queue_ok g -> wpM (fun i => spdz_verify G H i K) s (fun s' _ => inv (g_verq g) s').
  Proof using HW.
    intros Hs Hq. unfold spdz_verify. fold U. wbind. eapply wpM_mono; [|apply (verify_macs_ok G H U r HU g s Hs)]. cbn beta. intros s1 ? Hs1.
    apply verify_queue_ok; assumption.
  Qed.
  Lemma spdz_filter_ok X xs Y ys m : RL AR X xs -> RL AR Y ys ->
    length xs = IRIS_CODE_SIZE -> length ys = IRIS_CODE_SIZE -> wf_code m ->
    exists V W, (forall i, ash_filter_reduce_add_twice U (X i) (Y i) m = Ok (V i, W i)) /\
      AR V (msum xs (mask_bits m) mod 2 ^ K) /\ AR W (msum ys (mask_bits m) mod 2 ^ K).
  Proof using HW.
    intros HX HY Lx Ly Hm.
    destruct (zip_filter_ok AR K (fun _ => azero)) with (add := fun _ : pid => ash_add U) (X := X) (xs := xs) (Y := Y) (ys := ys) (m := m) as (V & W & E & H1 & H2); auto using ar_zero.
    - intros; eapply ar_ext; eassumption.
    - lia.
    - intros X0 x0 Y0 y0 (v & Hv & ->) (w & Hw & ->). eapply ar_intro; [apply ash_add_ok; [exact HU0|exact Hv|exact Hw]|]. trunc. modring.
    - intros; eapply ar_range; eassumption.
    - exists V, W. split; [|auto]. intros i. rewrite ash_filter_zip. apply E.
  Qed.

  Lemma spdz_mpc_ok : 3 <= K -> mpc_ok (fun i => spdz_engine G H i K) K AR aby3_bit inv
    g_pre (fun _ g => g) (g_msb g_and K) (g_reduce_or g_and) queue_ok g_verq.
  Proof using HW.
    intros HK3. constructor; cbn [spdz_engine m_K m_precompute m_masked_dot_many m_filter_reduce_add_twice m_add m_sub m_mul_const m_sub_const m_get_msb_many m_reduce_binary_or m_verify m_open_bit].
    - reflexivity.
    - intros. apply precompute_ok; assumption.
    - intros g s X xs Y yss masks Hs HX HY Lx Ly Hm Hl Hlm. apply spdz_masked_dot_many_ok; assumption.
    - intros X xs Y ys m HX HY Lx Ly _ _ Hm. apply spdz_filter_ok; assumption.
    - intros X x Y y (v & Hv & ->) (w & Hw & ->). eapply ar_intro; [apply ash_add_ok; [exact HU0|exact Hv|exact Hw]|]. trunc. modring.
    - intros X x Y y (v & Hv & ->) (w & Hw & ->). eapply ar_intro; [apply ash_sub_ok; [exact HU0|exact Hv|exact Hw]|]. trunc. modring.
    - intros X x c (v & Hv & ->) _. eapply ar_intro; [apply ash_mulc_ok; [exact HU0|exact Hv]|]. trunc. modring.
    - intros g s X x c Hs (v & Hv & ->) _. eapply ar_intro; [apply ash_sub_const_ok; [exact HU0|apply Hs|exact Hv]|]. trunc. modring.
    - intros. apply spdz_get_msb_many_ok; assumption.
    - intros. apply spdz_reduce_or_ok; assumption.
    - intros. apply spdz_verify_ok; assumption.
    - intros. apply spdz_open_bit_ok; assumption.
  Qed.

  (** Between operations: some number of precomputed words and waiting gates. *)
  Definition spdz_J (s : pid -> sst G) : Prop := exists g, inv g s.
  Lemma J_lift {A} (p : pid -> M (sst G) A) f s Q : (forall g, inv g s -> wpM p s (fun s' a => inv (f g) s' /\ Q a)) ->
    spdz_J s -> wpM p s (fun s' a => spdz_J s' /\ Q a).
  Proof using Type. intros Hf [g Hg]. eapply wpM_mono; [|apply (Hf g Hg)]. cbn beta. intros s' a [H1 H2]. split; [eexists; exact H1|exact H2]. Qed.
  Lemma spdz_api_ok : 3 <= K -> api_ok (fun i => spdz_api G H i K) K AR aby3_bit spdz_J.
  Proof using HW.
    intros HK3. constructor; cbn [spdz_api spdz_engine m_add m_sub m_mul_const m_sub_const m_get_msb_many m_reduce_binary_or m_open_bit a_mpc a_input a_open a_open_many a_open_bit_many a_add_const a_mul a_dot a_dot_many a_get_msb a_binary_or].
    - apply ar_range.
    - apply ar_ext.
    - intros. eapply brel_ext; eassumption.
    - intros s p x v Hs Hx Hv. apply (J_lift _ (fun g => g)); [|exact Hs]. intros; apply spdz_input_ok; assumption.
    - intros s X x Hs HX. apply (J_lift _ (fun g => g)); [|exact Hs]. intros; apply spdz_open_ok; assumption.
    - intros s X x Hs HX. apply (J_lift _ (fun g => g)); [|exact Hs]. intros; apply spdz_open_many_ok; assumption.
    - intros s X x Hs HX. apply (J_lift _ (fun g => g)); [|exact Hs]. intros; apply spdz_open_bit_ok; assumption.
    - intros s X x Hs HX. apply (J_lift _ (fun g => g)); [|exact Hs]. intros; apply spdz_open_bit_many_ok; assumption.
    - intros X x Y y (v & Hv & ->) (w & Hw & ->). eapply ar_intro; [apply ash_add_ok; [exact HU0|exact Hv|exact Hw]|]. trunc. modring.
    - intros X x Y y (v & Hv & ->) (w & Hw & ->). eapply ar_intro; [apply ash_sub_ok; [exact HU0|exact Hv|exact Hw]|]. trunc. modring.
    - intros X x c (v & Hv & ->) _. eapply ar_intro; [apply ash_mulc_ok; [exact HU0|exact Hv]|]. trunc. modring.
    - intros s X x c (g & Hs) (v & Hv & ->) _. eapply ar_intro; [apply ash_add_const_ok; [exact HU0|apply Hs|exact Hv]|]. trunc. modring.
    - intros s X x c (g & Hs) (v & Hv & ->) _. eapply ar_intro; [apply ash_sub_const_ok; [exact HU0|apply Hs|exact Hv]|]. trunc. modring.
    - intros s X x Y y Hs HX HY. apply (J_lift _ (fun g => g)); [|exact Hs]. intros; apply spdz_mul_ok; assumption.
    - intros s X x Y y Hs HX HY HL _. apply (J_lift _ (fun g => g)); [|exact Hs]. intros; apply spdz_dot_ok; assumption.
    - intros s X x Y y Hs HX HY HF _. apply (J_lift _ (fun g => g)); [|exact Hs]. intros; apply spdz_dot_many_ok; try assumption.
      clear - HF. induction HF as [|a b l l' [E1 E2] ? IH]; constructor; assumption.
    - intros s X x Hs HX. apply (J_lift _ (g_add3 g_and K)); [|exact Hs]. intros; apply spdz_get_msb_ok; assumption.
    - intros s X xs Hs Hl HX. apply (J_lift _ (g_msb g_and K (length xs))); [|exact Hs]. intros; apply spdz_get_msb_many_ok; assumption.
    - intros s X x Y y [g Hs] HX HY.
      eapply wpM_mono; [|eapply (or_ok _ _ _ _ (spdz_bin_ok G U r) 1 (or_introl eq_refl) g s X _ Y _ Hs); (split; [left; reflexivity|eassumption])].
      intros s' W [Hs' [_ HWs]]. split; [eexists; exact Hs'|]. unfold aby3_bit. rewrite <- or_b2z. exact HWs.
    - intros s X bs ch Hs Hc Hl HX. apply (J_lift _ (g_reduce_or g_and (length bs) ch)); [|exact Hs]. intros; apply spdz_reduce_or_ok; assumption.
  Qed.
End Contracts.
