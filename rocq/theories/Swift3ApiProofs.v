(** The Swift3 engine meets the contract of every MpcTrait operation. *)
From Verif Require Import Base Ring RingProofs Prog Sched Rel Rng Net Jmp BinTrait BinProofs Iris IrisSpec Protocol MpcSpec
  BitArith Plain OrProofs EngineProofs Client ClientProofs Apis ApiProofs Swift3 Swift3Spec Swift3Proofs Swift3Gates Swift3Circ Swift3Open Swift3Api.

Definition bit3 (X : pid -> share3) (b : bool) : Prop := bin3 1 X (Z.b2z b).
Lemma RL_bit3 X bs : RL bit3 X bs <-> RL (bin3 1) X (map Z.b2z bs).
Proof.
  split.
  - intros H. induction H as [X HX|X Y X0 y ys HX HY H IH]; [apply RL_nil; exact HX|].
    cbn [map]. apply (RL_cons _ _ Y X0); assumption.
  - revert X. induction bs as [|b bs IH]; intros X H; cbn [map] in H.
    + apply RL_nil, (RL_inv_nil _ _ H).
    + apply RL_inv_cons in H. destruct H as (Y & X0 & EX & HY & H0). apply (RL_cons _ _ Y X0); auto.
Qed.
Lemma arith3_ext K X X' x : (forall i, X i = X' i) -> arith3 K X x -> arith3 K X' x.
Proof.
  intros E (A1 & A2 & A3). split; [intros i; rewrite <- E; apply A1|]. split; [intros i; rewrite <- !E; apply A2|].
  rewrite <- !E. exact A3.
Qed.
Lemma bin3_ext K X X' x : (forall i, X i = X' i) -> bin3 K X x -> bin3 K X' x.
Proof.
  intros E (A1 & A2 & A3). split; [intros i; rewrite <- E; apply A1|]. split; [intros i; rewrite <- !E; apply A2|].
  rewrite <- !E. exact A3.
Qed.

Section Api.
  Variables (G : rng) (H : hasher) (V : pid -> M (sst G) unit) (K : Z).
  Hypothesis HW : In K widths.
  Let HK : 0 <= K. Proof. apply in_widths_pos in HW. lia. Qed.
  Notation winv := (winv G K).

  Lemma swift3_reduce_ok s X bs chunk : winv s -> (0 < chunk)%nat -> (0 < length bs)%nat -> RL bit3 X bs ->
    wpM (fun i => w_reduce_or G i (X i) chunk) s (fun s' W => winv s' /\ bit3 W (existsb (fun b => b) bs)).
  Proof using.
    intros Hs Hc Hl HX. apply RL_bit3 in HX.
    eapply wpM_mono; [|apply (w_reduce_or_ok G K X (map Z.b2z bs) chunk s Hc); [rewrite map_length; exact Hl|exact Hs|exact HX]].
    intros s' W [Hs' HWs]. split; [exact Hs'|]. rewrite or_bits_b2z in HWs. exact HWs.
  Qed.

  Lemma swift3_mpc_ok (ver_ok : Prop) : (forall s, winv s -> ver_ok -> wpM V s (fun s' _ => winv s')) ->
    mpc_ok (fun i => swift3_engine G H (V i) i K) K (arith3 K) bit3 (fun (_ : unit) s => winv s)
    (fun _ g => g) (fun _ g => g) (fun _ g => g) (fun _ _ g => g) (fun _ => ver_ok) (fun g => g).
  Proof using HW.
    intros HV. constructor; cbn [swift3_engine m_K m_precompute m_masked_dot_many m_filter_reduce_add_twice m_add m_sub m_mul_const m_sub_const m_get_msb_many m_reduce_binary_or m_verify m_open_bit].
    - reflexivity.
    - intros g s n Hs. apply wpM_ret. exact Hs.
    - intros g s X xs Y yss masks Hs HX HY Lx Ly Hm Hl Hlm.
      apply (default_masked_dot_many_ok (arith3 K)) with (Inv := fun (_ : unit) s => winv s) (g_dot := fun _ g => g) (zero := fun _ => tzero) (g := g); try assumption.
      + intros; eapply arith3_ext; eassumption.
      + apply tzero_ok, HK.
      + intros g0 s0 X0 xs0 Y0 ys0 Hs0 HX0 HY0 HF _. apply w_dot_many_ok; try assumption.
        clear - HF. induction HF as [|? ? ? ? [E1 E2] ? IH]; constructor; [congruence|assumption].
    - intros X xs Y ys m HX HY Lx Ly _ _ Hm.
      eapply (zip_filter_ok (arith3 K) K (fun _ => tzero)) with (add := fun _ => t_add K); try eassumption.
      + intros; eapply arith3_ext; eassumption.
      + apply tzero_ok, HK.
      + intros. apply t_add_ok; assumption.
      + intros ? ?. apply arith3_range, HK.
    - intros. apply t_add_ok; assumption.
    - intros. apply t_sub_ok; assumption.
    - intros. apply t_mulc_ok; assumption.
    - intros. apply t_sub_const_ok; assumption.
    - intros g s X xs Hs Hl HX. eapply wpM_mono; [|apply (w_get_msb_many_ok G K K X xs s HW Hs HX)].
      intros s' W [Hs' HWs]. split; [exact Hs'|]. apply RL_bit3. rewrite map_map. exact HWs.
    - intros g s X bs chunk Hs Hc Hl HX. apply swift3_reduce_ok; assumption.
    - intros g s Hs Hg. apply HV; assumption.
    - intros g s X b Hs HX. apply w_open_bit_ok; assumption.
  Qed.

  Lemma swift3_api_ok : api_ok (fun i => swift3_api G H (V i) i K) K (arith3 K) bit3 (fun s => winv s).
  Proof using HW.
    constructor; cbn [swift3_api swift3_engine m_add m_sub m_mul_const m_sub_const m_get_msb_many m_reduce_binary_or m_open_bit a_mpc a_input a_open a_open_many a_open_bit_many a_add_const a_mul a_dot a_dot_many a_get_msb a_binary_or].
    - intros X x HX. apply (arith3_range K HK X x HX).
    - intros. eapply arith3_ext; eassumption.
    - intros. eapply bin3_ext; eassumption.
    - intros s p x v Hs Hx Hv. apply w_input_ok; assumption.
    - intros. apply w_open_ok; assumption.
    - intros. apply w_open_many_ok; assumption.
    - intros. apply w_open_bit_ok; assumption.
    - intros s X xs Hs HX. apply w_open_bit_many_ok; [assumption|]. apply RL_bit3, HX.
    - intros. apply t_add_ok; assumption.
    - intros. apply t_sub_ok; assumption.
    - intros. apply t_mulc_ok; assumption.
    - intros. apply t_add_const_ok; assumption.
    - intros. apply t_sub_const_ok; assumption.
    - intros. apply w_mulg_ok; assumption.
    - intros. apply w_dotg_ok; assumption.
    - intros s X xs Y ys Hs HX HY HF _. apply w_dot_many_ok; try assumption.
      clear - HF. induction HF as [|a b l l' [E1 E2] ? IH]; constructor; assumption.
    - intros. apply w_get_msb_ok; assumption.
    - intros s X xs Hs Hl HX. eapply wpM_mono; [|apply (w_get_msb_many_ok G K K X xs s HW Hs HX)].
      intros s' W [Hs' HWs]. split; [exact Hs'|]. apply RL_bit3. rewrite map_map. exact HWs.
    - intros s X x Y y Hs HX HY.
      eapply wpM_mono; [|eapply (or_ok _ _ _ _ (swift3_bin_ok G K) 1 (or_introl eq_refl) tt s X _ Y _ Hs); (split; [left; reflexivity|eassumption])].
      intros s' W [Hs' [_ HWs]]. split; [exact Hs'|]. unfold bit3. rewrite <- or_b2z. exact HWs.
    - intros s X bs ch Hs Hc Hl HX. apply swift3_reduce_ok; assumption.
  Qed.
End Api.
