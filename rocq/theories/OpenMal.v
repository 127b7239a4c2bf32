(** Opening ring values on the SPDZ-wise engine, one party being malicious. *)
From Verif Require Import Base Ring RingProofs Prog Sched Conc Rng Rel Net BinTrait BitArith BinProofs AddProofs IrisSpec MpcSpec Aby3 ShareSpec Aby3Proofs Jmp JmpProofs Session SessionProofs Aby3Mal Aby3MalProofs Aby3MalProofs2
  SacrificeProofs PropLemmas PropLemmas2 SpecProofs Duo DuoProofs PropLemmas5 MacSpec MacProofs Client ClientProofs Emits TripleMalMet Properties22
  ProgMalSpec ProgMalDuo ProgMalMet Spdz TripleSpec SpdzProofs2 SpdzProofs3 SpdzProofs4.
From Coq Require Import ZifyBool ZifyNat.

Section A.
  Variables (G : rng) (H : hasher) (i : pid).
  Hypothesis HH : forall x, bytes (hfun H x).
  Lemma on_aby_emits {A} (p : M (prf G) A) : emitsM p -> emitsM (on_aby G p).
  Proof using Type. intros Hp. unfold on_aby, on_j, on_prf. do 2 apply emitsM_zoom. exact Hp. Qed.
  Lemma dot_many_emits K a b : emitsM (dot_many G i K a b).
  Proof using Type.
    unfold dot_many. destruct (negb _); [apply emitsM_fail|]. apply emitsM_bind.
    - apply emitsM_mapM2. intros x y. apply emitsM_bind; [apply zero_emits|intros r]. destruct (negb _); [apply emitsM_fail|apply emitsM_ret].
    - intros l. unfold reshare_many. apply emitsM_bind; [apply emitsM_lift, slice_emits|intros; apply emitsM_ret].
  Qed.
  Lemma sar_emits K v : emits (send_and_receive_value i K v).
  Proof using Type. unfold send_and_receive_value, send_and_receive. cbn [bind]. constructor; [apply to_be_bytes|]. constructor. intros m. cbn [bind]. apply emits_of_res. Qed.
  Lemma mul_emits_aby K a b : emitsM (mul G i K a b).
  Proof using Type. unfold mul. apply emitsM_bind; [apply zero_emits|intros r]. unfold reshare. apply emitsM_bind; [apply emitsM_lift, sar_emits|intros; apply emitsM_ret]. Qed.
  Lemma vq_push_emits l : emitsM (vq_push G l).
  Proof using Type. unfold vq_push. apply emitsM_bind; [apply emitsM_get|intros; apply emitsM_put]. Qed.
  Lemma verify_macs_emits U : emitsM (verify_macs G H i U).
  Proof.
    unfold verify_macs. apply emitsM_bind; [apply emitsM_get|intros s]. destruct (Nat.eqb _ 0); [apply emitsM_ret|].
    apply emitsM_bind; [apply on_aby_emits, emitsM_mapM; intros; apply rand_emits|intros rs].
    apply emitsM_bind; [apply emitsM_get|intros s1]. apply emitsM_bind; [apply emitsM_put|intros _].
    apply emitsM_bind; [apply on_aby_emits, dot_many_emits|intros rs2]. apply emitsM_bind; [apply emitsM_res|intros r0].
    apply emitsM_bind; [apply on_aby_emits, mul_emits_aby|intros m]. apply emitsM_bind; [apply emitsM_res|intros r1].
    unfold on_j. apply emitsM_zoom, zero_verify_emits, HH.
  Qed.
End A.

(** What the third party k does: as spdz_open, but its word of the opening is off by d. *)
Definition open_off (G : rng) (H : hasher) (k : pid) (K : Z) (x : ashare) (d : Z) : M (sst G) Z :=
  bindM (vq_push G [x]) (fun _ => bindM (verify_macs G H k (verif_width K)) (fun _ =>
    bindM (on_aby G (open G k (verif_width K) (Share (sa (av x)) (radd (verif_width K) (sb (av x)) d)))) (fun v => retM (from_verif K v)))).

Section B.
  Variables (G : rng) (H : hasher) (K r : Z).
  Hypothesis HW : In K widths.
  Notation U := (verif_width K).
  Notation inv := (spdz_inv G U r).
  Lemma open_off_runs k X x d g s : inv g s -> spdz_shared K r X x ->
    wpM (fun i => if pid_eqb i k then open_off G H k K (X i) d else spdz_open G H i K (X i)) s
      (fun s' v => v (prev k) = x /\ v (next k) = (x + d) mod 2 ^ K).
  Proof using HW.
    intros Hs (v & HV & ->).
    assert (HKU : K <= U /\ In U widths) by (cbn in HW; unfold verif_width; cbn; intuition subst; cbn; auto 10; lia).
    destruct HKU as [HKU HU]. assert (HU0 : 0 <= U) by (apply in_widths_pos in HU; lia). assert (HK0 : 0 <= K) by (apply in_widths_pos in HW; lia).
    apply (wpM_ext (fun i => bindM (vq_push G [X i]) (fun _ => bindM (verify_macs G H i U) (fun _ =>
      bindM (on_aby G (open G i U (Share (sa (av (X i))) (if pid_eqb i k then radd U (sb (av (X i))) d else sb (av (X i)))))) (fun v => retM (from_verif K v)))))).
    { intros i. destruct (pid_eqb i k) eqn:E; [replace k with i by (destruct i, k; (reflexivity || discriminate E)); reflexivity|].
      unfold spdz_open. destruct (X i) as [[? ?] ?]. reflexivity. }
    wbind. eapply wpM_mono; [|apply (vq_push_ok G U r (fun i => [X i]) [v] g s Hs); apply RL_cons'; [exact HV|apply RL_nil']]. cbn beta. intros s1 ? Hs1. wbind.
    eapply wpM_mono; [|apply (verify_macs_ok G H U r HU g s1 Hs1)]. cbn beta. intros s2 ? Hs2. wbind.
    eapply wpM_mono; [|apply (on_aby_ok G U r _ g s2 (fun w => w (prev k) = v /\ w (next k) = radd U v d) Hs2)].
    - cbn beta. intros s3 w (_ & _ & W2 & W3). apply wpM_ret. rewrite W2, W3. split; [reflexivity|].
      unfold from_verif, radd. rewrite Zplus_mod_idemp_l.
      apply mod_mod_pow. lia.
    - intros Hp. destruct HV as [(A1 & A2 & A3) _]. unfold open.
      wbind. apply wpM_lift. apply wp_sar_value; [exact HU| |].
      + intros i. cbn [sb]. destruct (pid_eqb i k); [apply inr_mod, HU0|rewrite A2; apply A1].
      + apply wpM_ret. split; [exact Hp|]. cbn [sa sb]. rewrite !A2. rewrite A3. clear -HU0. destruct k; cbn [pid_eqb prev next]; (split; modring).
  Qed.
End B.
