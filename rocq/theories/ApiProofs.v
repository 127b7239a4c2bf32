(** The ABY3 engine meets the contract of every MpcTrait operation. *)
From Verif Require Import Base Ring RingProofs Prog Sched Rel Rng Net BinTrait BinProofs Iris IrisSpec Protocol MpcSpec
  ShareSpec Plain Aby3 Aby3Proofs Aby3Proofs2 SlicedProofs OrProofs EngineProofs Client ClientProofs Apis.

(** An engine meeting the iris contract (possibly with ghost state) meets the part of the full contract
    it has in common with it. *)
Lemma or_b2z x y : Z.lor (Z.b2z x) (Z.b2z y) = Z.b2z (x || y).
Proof. destruct x, y; reflexivity. Qed.

Section Aby3.
  Variables (G : rng) (K : Z).
  Hypothesis (HW : In K widths) (HK3 : 3 <= K).
  Lemma aby3_api_ok : api_ok (aby3_api G K) K (arith_shared K) aby3_bit (fun s => prf_synced s).
  Proof using HW HK3.
    assert (HK : 0 <= K) by lia.
    pose proof (aby3_mpc_ok G K HW HK3) as M.
    constructor; cbn [aby3_api a_mpc a_input a_open a_open_many a_open_bit_many a_add_const a_mul a_dot a_dot_many a_get_msb a_binary_or].
    - intros X x H. apply (arel_range K X x HK H).
    - intros. eapply arel_ext; eassumption.
    - intros. eapply brel_ext; eassumption.
    - intros s p x v Hs Hx Hv. apply input_ok; assumption.
    - intros s X x Hs HX. eapply wpM_mono; [|apply (open_ok G K X x s HW HX)]. intros s' v [-> Hv]. auto.
    - intros s X x Hs HX. eapply wpM_mono; [|apply (open_many_ok G K X x s HW HX)]. intros s' v [-> Hv]. auto.
    - intros s X x Hs HX. exact (mo_open _ _ _ _ _ _ _ _ _ _ _ M tt s X x Hs HX).
    - intros s X x Hs HX. apply RL_bits in HX. eapply wpM_mono; [|apply (open_bit_many_ok G X _ s HX)].
      intros s' v [-> Hv]. split; [exact Hs|]. intros i. rewrite Hv, map_map. rewrite <- (map_id x) at 2.
      apply map_ext. intros []; reflexivity.
    - intros. apply sh_add_ok; assumption.
    - intros. apply sh_sub_ok; assumption.
    - intros. apply sh_mulc_ok; assumption.
    - intros. apply sh_add_const_ok; assumption.
    - intros. apply sh_sub_const_ok; assumption.
    - intros. apply mul_ok; assumption.
    - intros. apply dot_ok; assumption.
    - intros s X xs Y ys Hs HX HY HF _. apply dot_many_ok; try assumption.
      clear - HF. induction HF as [|a b l l' [H _] _ IH]; constructor; assumption.
    - intros. apply get_msb_share_ok; assumption.
    - intros s X xs Hs Hl HX. exact (mo_msb _ _ _ _ _ _ _ _ _ _ _ M tt s X xs Hs Hl HX).
    - intros s X x Y y Hs HX HY.
      eapply wpM_mono; [|eapply (or_ok _ _ _ _ (aby3_bin_ok G) 1 (or_introl eq_refl) tt s X _ Y _ Hs); (split; [left; reflexivity|eassumption])].
      intros s' W [Hs' [_ HWs]]. split; [exact Hs'|]. unfold aby3_bit. rewrite <- or_b2z. exact HWs.
    - intros s X bs ch Hs Hc Hl HX. apply aby3_reduce_binary_or_ok; assumption.
  Qed.
End Aby3.
