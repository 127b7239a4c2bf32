(** Honest runs of and_verify, mul_verify, dot_verify. *)
From Coq Require Import Ring Setoid Morphisms.
From Verif Require Import Base Ring RingProofs Prog Sched Rng Net Rel Aby3Proofs Jmp JmpProofs FailProofs IrisProofs SlicedProofs ShareSpec Gf2 GfRing Poly PolyProofs PolyDiv Galois GaloisSpec GaloisPoints GaloisDzkp GaloisMul GaloisGates
  Swift3 Swift3Spec Swift3Proofs Swift3Setup Swift3SetupProofs Dzkp DzkpProofs DzkpSpec DzkpAnd Swift3Verify Swift3VerifyProofs Swift3VerifyKinds.
Local Open Scope list_scope.

(** ** Registered AND gates *)
Lemma and_item_gates (E : pid -> list (entry (pinput bool))) us : RL and_item E us -> forall j,
  gates_joined (map e_proof (E j)) (map e_prev (E (next j))) (map e_next (E (prev j))) /\ Forall and_correct (map e_proof (E j)).
Proof.
  induction 1 as [X HX|X Y X0 y ys HX HY HR IH]; intros j; rewrite !HX.
  - split; [|constructor]. split; [reflexivity|]. split; [reflexivity|]. intros [|k]; reflexivity.
  - destruct (HY j) as [HJ HC]. destruct (IH j) as ((L1 & L2 & N) & F). cbn [map]. split.
    + split; [cbn; congruence|]. split; [cbn; congruence|]. intros [|k]; cbn [nth]; [exact HJ|apply N].
    + constructor; [|exact F]. unfold and_c in HC. unfold and_correct. symmetry. apply xorb_eq. exact HC.
Qed.
Lemma pad_and k L : and_shared L -> and_shared (fun i => pad_entries k pin_false (L i)).
Proof.
  intros (us & HL). exists (resize k tt us). apply RL_resize; [exact HL|]. intros i. split; reflexivity.
Qed.
Lemma resize_len {A} k (d : A) l : (length l <= k)%nat -> length (resize k d l) = k.
Proof. intros H. unfold resize. rewrite app_length, firstn_all2, repeat_length by exact H. lia. Qed.

Lemma small64 m : and_secure m = true -> (N.of_nat m < 2 ^ 64)%N.
Proof. intros Hm. pose proof (secure_small m Hm). lia. Qed.

Section Run.
  Variables (G : rng) (H : hasher) (K : Z) (fuel : nat).
  Notation winv := (winv G K).

  Lemma winv_set_and s L : winv s -> and_shared L -> winv (fun i => w_set_and G (s i) (L i)).
  Proof. intros (A1 & A2 & A3 & A4 & A5 & A6 & A7) HL. do 4 (split; [assumption|]). split; [exact HL|]. split; assumption. Qed.
  Lemma winv_set_p s p : winv s -> winv (fun i => w_set_p G (s i) p).
  Proof. intros (A1 & A2 & A3 & A4 & A5 & A6 & A7). split; [exact A1|]. split; [intros i; reflexivity|]. repeat (split; [assumption|]). assumption. Qed.

  Definition and_good : N -> Prop := good gf_wf (fun _ => True).
  Lemma and_good_draw s : and_good (snd (gf_draw G s)).
  Proof.
    unfold gf_draw. pose proof (draw_range G 64 s ltac:(lia)) as R. destruct (draw G 64 s) as [s1 v]. cbn [snd] in *. split; [|exact I]. unfold gf_wf. unfold inr in R.
    change (2 ^ 64)%N with (Z.to_N (2 ^ 64)). apply Z2N.inj_lt; lia.
  Qed.
  Lemma and_good_codec : codec and_good gf_enc gf_dec.
  Proof. intros x rest [Hx _]. apply gf_codec, Hx. Qed.

  Section And.
    Variables (l m : nat) (lag : list (list N)) (E : pid -> list (entry (pinput bool))).
    Hypothesis Hm : and_secure m = true.
    Hypothesis Hl : (6 * Z.of_nat l < 2 ^ 64).
    Hypothesis El : gf_lagrange (and_points (m + 1)) = Ok lag.
    Hypothesis HE : and_shared E.
    Hypothesis LE : forall i, length (E i) = (l * m)%nat.
    Let Pf i := map (fun e => and_inputs (e_proof e)) (E i).
    Let Vp i := map (fun e => and_inputs (e_prev e)) (E i).
    Let Vn i := map (fun e => and_inputs (e_next e)) (E i).
    Lemma and_wfi (h : entry (pinput bool) -> pinput bool) i : length (map (fun e => and_inputs (h e)) (E i)) = (l * m)%nat /\ wfi gf_wf (map (fun e => and_inputs (h e)) (E i)).
    Proof using LE. split; [rewrite map_length; apply LE|]. rewrite <- (map_map h and_inputs). apply inputs_wf. Qed.
    Lemma and_provable : provable gf_ops (@Ok N) 6 c_mul G (gf_draw G) and_good l m lag (and_points (m + 1)) Pf Vp Vn.
    Proof using Hm Hl El LE.
      destruct (and_lagrange m (small64 m Hm)) as (lag' & El' & HL). rewrite El in El'. injection El' as <-.
      apply (provable_ok gf_ops gf_eq gf_wf GF (@Ok N) ok_red 6 ltac:(lia) c_mul and_cf (and_points (m + 1)) lag (and_points_wf m (small64 m Hm)) HL l m (and_points_len m) (fun _ => True) I (fun _ _ _ _ => I) (fun _ _ _ => I) G (gf_draw G) and_good_draw).
      - lia.
      - pose proof (secure_small m Hm). lia.
      - apply and_wfi.
      - apply and_wfi.
      - apply and_wfi.
    Qed.
    Lemma and_verdict ent p0 j : dz_verdict gf_ops (@Ok N) N.eqb 6 c_mul G (gf_draw G) (gf_again m) fuel l m lag (and_points (m + 1)) Pf Vp Vn ent p0 j = Ok tt.
    Proof using Hm Hl El LE HE.
      destruct (verdict_is gf_ops (@Ok N) N.eqb 6 c_mul G (gf_draw G) (gf_again m) fuel and_good and_good_draw l m lag (and_points (m + 1)) Pf Vp Vn ent p0 j and_provable)
        as (betas & r & w & g & seed & Lb & Gb & Gr & Lw & Gw & Eg & EV). cbv zeta in EV. rewrite EV. clear EV.
      destruct HE as (us & HR). destruct (and_item_gates E us HR j) as [HJ HC].
      destruct (draw_three_ok G (gf_draw G) and_good and_good_draw l (rseed G (snd (draw_bytes G 32 p0))) j) as [Lt Gt]. fold (v_thetas G (gf_draw G) l p0 j) in Lt, Gt.
      assert (W : forall xs, Forall and_good xs -> Forall u64 xs) by (intros xs; apply Forall_impl; intros x [Hx _]; exact Hx).
      destruct (and_complete_correct l m _ _ _ (v_thetas G (gf_draw G) l p0 j) w (small64 m Hm) ltac:(rewrite map_length; apply LE) HJ HC) as (g' & Eg' & HK); [split; auto|split; auto|].
      unfold and_prover in Eg'. rewrite El in Eg'. cbn [rbind] in Eg'. unfold and_prove in Eg'. rewrite map_map in Eg'. unfold Pf in Eg. rewrite Eg in Eg'. injection Eg' as <-.
      destruct (from_seed_ok gf_wf 6 l m (fun _ => True) G (gf_draw G) and_good_draw seed) as (L1 & G1 & L2 & G2).
      specialize (HK betas r (proof_from_seed 6 G (gf_draw G) l m seed)). unfold and_check in HK. rewrite El in HK. cbn [rbind] in HK. rewrite !map_map in HK.
      apply HK; [split; auto|apply Gr|split; split; auto].
    Qed.
  End And.

  Theorem and_verify_ok s (ent : pid -> sst G -> rstate G) l m : winv s -> calc_params (length (w_and G (s P0))) = (l, m) -> (0 < length (w_and G (s P0)))%nat -> and_secure m = true ->
    wpM (fun i => and_verify G H fuel i (ent i)) s (fun s' _ => winv s').
  Proof.
    intros Hs Ep HL Hm. pose proof Hs as (_ & Hp & _ & _ & (us & RA) & _ & _). pose proof (RL_length _ _ _ RA) as LA. cbn beta in LA.
    assert (LE : forall i, length (w_and G (s i)) = length (w_and G (s P0))) by (intros i; rewrite !LA; reflexivity).
    destruct (calc_params_ok _ _ _ HL Ep) as (B1 & B2 & B3 & B4).
    unfold and_verify. wbind. apply wpM_get.
    set (E := fun i => pad_entries (l * m) pin_false (w_and G (s i))). set (s1 := fun i => w_set_and G (s i) (E i)).
    assert (HE : and_shared E) by (apply pad_and; exists us; exact RA).
    assert (LE' : forall i, length (E i) = (l * m)%nat) by (intros i; apply resize_len; rewrite LE; exact B1).
    assert (Hs1 : winv s1) by (apply winv_set_and; assumption).
    destruct (and_lagrange m (small64 m Hm)) as (lag & El & _).
    match goal with |- wpM ?PP _ _ => eapply (wpM_ext (fun i => bindM (putM (s1 i)) (fun _ => bindM (resM (gf_lagrange (and_points (m + 1)))) (fun lag => bindM getM (fun t =>
      dz_verify gf_ops (@Ok N) N.eqb 6 c_mul gf_enc gf_dec G H (gf_draw G) (gf_again m) fuel i l m lag (and_points (m + 1))
        (map (fun e => and_inputs (e_proof e)) (w_and G t)) (map (fun e => and_inputs (e_prev e)) (w_and G t)) (map (fun e => and_inputs (e_next e)) (w_and G t)) (ent i (s i))))))) end.
    { intros i. rewrite LE, Ep. unfold and_set_parameters, getM, putM, bindM. cbn [bind fst snd]. rewrite LE.
      destruct (Nat.ltb_spec (l * m) (length (w_and G (s P0)))); [lia|]. rewrite Hm. cbn [negb]. reflexivity. }
    wbind. apply (wpM_put s s1). wbind. apply (wpM_res _ (fun _ => lag)); [intros i; exact El|]. wbind. apply wpM_get.
    unfold dz_verify. wbind. pose proof (secure_small m Hm).
    assert (Hl : 6 * Z.of_nat l < 2 ^ 64) by nia.
    eapply wpM_mono; [|apply (dz_exchange_ok gf_ops (@Ok N) N.eqb 6 c_mul gf_enc gf_dec G H (gf_draw G) (gf_again m) fuel and_good and_good_codec and_good_draw l m lag (and_points (m + 1))
      (fun i => map (fun e => and_inputs (e_proof e)) (E i)) (fun i => map (fun e => and_inputs (e_prev e)) (E i)) (fun i => map (fun e => and_inputs (e_next e)) (E i)) (fun i => ent i (s i)) (w_p G (s P0)) s1 (and_provable l m lag E Hm Hl El LE'))].
    2:{ intros i. apply (Hp i). }
    intros s2 W [-> HV]. apply (wpM_res _ (fun _ => tt)). { intros i. rewrite HV. apply (and_verdict l m lag E Hm Hl El HE LE'). }
    apply winv_set_p. exact Hs1.
  Qed.
End Run.
