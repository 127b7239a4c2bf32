(** Honest runs of the Swift3 engine: input, opening, the jmp check. *)
From Verif Require Import Base Ring RingProofs Prog Sched Conc Rng Rel Net BitArith Iris IrisSpec Protocol MpcSpec BinTrait BinProofs AddProofs SlicedProofs OrProofs
  Aby3 ShareSpec Aby3Proofs Aby3Proofs2 Jmp JmpProofs Swift3 Swift3Spec Swift3Proofs Swift3Gates Swift3Circ.
From Coq Require Import ZifyBool ZifyNat Btauto.

Section Open.
  Variable G : rng.
  Variable H : hasher.
  Variable KU : Z.
  Notation ST := (sst G).
  Notation winv := (winv G KU).

  Ltac winv_tac :=
    match goal with HR : and_shared (fun i => w_and G (?s i)) /\ _ , Hs : prf_synced _, Hp : (forall i, w_p _ _ = _),
       Hq1 : (forall i, w_sn _ _ = _), Hq2 : (forall i, w_sp _ _ = _) |- winv _ =>
      apply (winv_intro G KU s); [..|exact HR];
      [ intros [| |]; cbn; try reflexivity; apply (Hs P0) || apply (Hs P1) || apply (Hs P2)
      | intros [| |]; cbn; try reflexivity; apply Hp
      | intros [| |]; cbn; (rewrite <- (Hq1 P0) || rewrite <- (Hq1 P1) || rewrite <- (Hq1 P2)); reflexivity
      | intros [| |]; cbn; (rewrite <- (Hq2 P0) || rewrite <- (Hq2 P1) || rewrite <- (Hq2 P2)); reflexivity
      | intros [| |]; reflexivity | intros [| |]; reflexivity | intros [| |]; reflexivity ] end.

  Ltac wprog := unfold w_send, w_receive, w_queue, w_queue_many, w_received, liftM, bindM, getM, putM, retM, send_value, receive_value;
    cbn [bind pid_eqb next prev].
  Lemma w_input_ok s p x v : In KU widths -> winv s -> inr KU x -> v p = Some x ->
    wpM (fun i => w_input G i KU (v i) (pid_num p)) s (fun s' W => winv s' /\ arith3 KU W x).
  Proof using.
    intros HK (Hs & Hp & Hq1 & Hq2 & HR) Hx Hv. assert (HK0 : 0 <= KU) by (apply in_widths_pos in HK; lia).
    apply wp_cwp. pose proof (Hs P0) as E0. pose proof (Hs P1) as E1. pose proof (Hs P2) as E2. cbn [prev] in E0, E1, E2.
    pose proof (draw_range G KU (w_p G (s P0)) HK0) as Rp. pose proof (draw_range G KU (my_prf G (w_prf G (s P0))) HK0) as R0.
    pose proof (draw_range G KU (my_prf G (w_prf G (s P1))) HK0) as R1. pose proof (draw_range G KU (my_prf G (w_prf G (s P2))) HK0) as R2.
    destruct (draw G KU (w_p G (s P0))) as [rp ap] eqn:Dp. destruct (draw G KU (my_prf G (w_prf G (s P0)))) as [r0 a0] eqn:D0.
    destruct (draw G KU (my_prf G (w_prf G (s P1)))) as [r1 a1] eqn:D1. destruct (draw G KU (my_prf G (w_prf G (s P2)))) as [r2 a2] eqn:D2.
    cbn [snd] in Rp, R0, R1, R2.
    unfold w_input. destruct p; cbn [pid_num Z.eqb Pos.eqb andb]; rewrite Hv; unfold gen_p, gen_1, gen_2, bindM;
      do 3 (rewrite ?(Hp P1), ?(Hp P2), ?E0, ?E1, ?E2, ?Dp, ?D0, ?D1, ?D2; cbn [bind w_prf w_set_p w_set_prf my_prf next_prf w_p fst snd]); wprog;
      do 4 (cstep; qnorm; cbv beta; rewrite ?from_to_bytes by (auto; apply (inr_mod KU _ HK0)); cbn [of_res bind]);
      (eapply (cwp_ret _ _ _ _ (fun i => match i with P0 => _ | P1 => _ | P2 => _ end)); [reflexivity..|]);
      cbn [fst snd]; (split; [winv_tac|]); split; [|split| |split| |split].
    all: try (intros [| |]; cbn [ta tc]; split; auto; apply (inr_mod KU _ HK0)).
    all: try (intros [| |]; split; reflexivity).
    all: cbn [ta tc snd]; rewrite <- (norm_inr KU x) by auto; unfold norm; modring.
  Qed.

  Lemma w_verify_ok s : winv s -> wpM (fun i => w_verify G H i) s (fun s' _ => winv s').
  Proof using.
    intros (Hs & Hp & Hq1 & Hq2 & HR). unfold w_verify. wbind. apply wpM_get. wbind.
    apply (wpM_put s (fun i => w_set_log G (w_set_q G (s i) [] [] [] []) (w_log G (s i) ++ [w_sn G (s i); w_sp G (s i); w_rn G (s i); w_rp G (s i)]))).
    wbind. apply wpM_lift.
    assert (HW : forall (m m' : pid -> msg) (Q : (pid -> msg * msg) -> Prop), Q (fun i => (m (prev i), m' (next i))) ->
      wp (fun i => Send (next i) (m i) (Send (prev i) (m' i) (Recv (prev i) (fun rp => Recv (next i) (fun rn => Ret (rp, rn)))))) Q).
    { intros m m' Q HQ. apply wp_cwp. cbn [prev next]. crun. eapply cwp_ret; [..|exact HQ]; reflexivity. }
    apply (HW (fun i => hfun H (w_sn G (s i))) (fun i => hfun H (w_sp G (s i)))).
    apply (wpM_ext (fun i => retM tt)).
    { intros i. cbn [fst snd]. rewrite Hq1, Hq2, !bytes_eqb_refl. reflexivity. }
    apply wpM_ret. apply (winv_intro G KU s); auto; reflexivity.
  Qed.

  Lemma open_exchange_ok K X (a : pid -> Z) s : In K widths -> winv s -> (forall i, inr K (a i)) ->
    (forall i, ta (X i) = a i) -> (forall i, tb (X i) = a (prev i)) ->
    wpM (fun i => open_exchange G i K (X i)) s (fun s' r => winv s' /\ forall i, r i = a (next i)).
  Proof using.
    intros HK (Hs & Hp & Hq1 & Hq2 & HR) Ha Xa Xb. assert (HK0 : 0 <= K) by (apply in_widths_pos in HK; lia).
    apply wp_cwp. unfold open_exchange. rewrite !Xa, !Xb. wprog.
    do 6 (cstep; qnorm; cbv beta; rewrite ?from_to_bytes by auto; cbn [of_res bind]).
    (eapply (cwp_ret _ _ _ _ (fun i => match i with P0 => _ | P1 => _ | P2 => _ end)); [reflexivity..|]).
    cbn [fst snd]. split; [winv_tac|]. intros [| |]; reflexivity.
  Qed.
  Lemma open_exchange_many_ok K X (a : pid -> list Z) n s : In K widths -> winv s -> (forall i, Forall (inr K) (a i)) -> (forall i, length (X i) = n) ->
    (forall i, map ta (X i) = a i) -> (forall i, map tb (X i) = a (prev i)) ->
    wpM (fun i => open_exchange_many G i K (X i)) s (fun s' r => winv s' /\ forall i, r i = a (next i)).
  Proof using.
    intros HK (Hs & Hp & Hq1 & Hq2 & HR) Ha Hl Xa Xb. assert (HK0 : 0 <= K) by (apply in_widths_pos in HK; lia).
    assert (La : forall i, length (a i) = n) by (intros i; rewrite <- Xa, map_length; apply Hl).
    apply wp_cwp. unfold open_exchange_many. rewrite !Xa, !Xb, !Hl. cbn [prev].
    unfold w_send_many, w_receive_many, w_queue_many, w_received, liftM, bindM, getM, putM, retM, send_vec, receive_vec.
    cbn [bind pid_eqb next prev].
    do 3 (cstep; qnorm; cbv beta).
    cstep; qnorm; cbv beta. rewrite <- (La P1) at 1. rewrite vec_roundtrip by (exact HK || apply Ha). cbn [of_res bind fst snd].
    cstep; qnorm; cbv beta. rewrite <- (La P2) at 1. rewrite vec_roundtrip by (exact HK || apply Ha). cbn [of_res bind fst snd].
    cstep; qnorm; cbv beta. rewrite <- (La P0). rewrite vec_roundtrip by (exact HK || apply Ha). cbn [of_res bind fst snd].
    (eapply (cwp_ret _ _ _ _ (fun i => match i with P0 => _ | P1 => _ | P2 => _ end)); [reflexivity..|]).
    cbn [fst snd]. split; [winv_tac|]. intros [| |]; reflexivity.
  Qed.

  Lemma arith3_all K X x : arith3 K X x -> forall i, x = (tc (X i) - ta (X i) - tb (X i) - ta (X (next i))) mod 2 ^ K.
  Proof using.
    intros (A1 & A2 & ->). pose proof (A2 P0) as [E0 C0]. pose proof (A2 P1) as [E1 C1]. pose proof (A2 P2) as [E2 C2]. cbn [prev] in *.
    intros [| |]; cbn [next]; rewrite ?E0, ?E1, ?E2, ?C2, ?C1; f_equal; lia.
  Qed.
  Lemma bin3_all K X x : bin3 K X x -> forall i, x = Z.lxor (Z.lxor (Z.lxor (tc (X i)) (ta (X i))) (tb (X i))) (ta (X (next i))).
  Proof using.
    intros (A1 & A2 & ->). pose proof (A2 P0) as [E0 C0]. pose proof (A2 P1) as [E1 C1]. pose proof (A2 P2) as [E2 C2]. cbn [prev] in *.
    intros [| |]; cbn [next]; rewrite ?E0, ?E1, ?E2, ?C2, ?C1; bitsolve.
  Qed.
  Lemma w_open_ok K X x s : In K widths -> winv s -> arith3 K X x ->
    wpM (fun i => w_open G H i K (X i)) s (fun s' v => winv s' /\ forall i, v i = x).
  Proof using.
    intros HK Hs HX. unfold w_open. wbind. eapply wpM_mono; [|apply w_verify_ok, Hs]. intros s1 ? Hs1. wbind.
    pose proof HX as (A1 & A2 & _).
    eapply wpM_mono; [|apply (open_exchange_ok K X (fun i => ta (X i))); auto; [intros i; apply A1|intros i; apply A2]].
    intros s2 r (Hs2 & Hr). wbind. eapply wpM_mono; [|apply w_verify_ok, Hs2]. intros s3 ? Hs3. apply wpM_ret. split; [exact Hs3|].
    intros i. rewrite Hr, (arith3_all K X x HX i). modring.
  Qed.
  Lemma w_open_bit_ok X b s : winv s -> bin3 1 X (Z.b2z b) ->
    wpM (fun i => w_open_bit G H i (X i)) s (fun s' v => winv s' /\ forall i, v i = b).
  Proof using.
    intros Hs HX. unfold w_open_bit. wbind. eapply wpM_mono; [|apply w_verify_ok, Hs]. intros s1 ? Hs1. wbind.
    pose proof HX as (A1 & A2 & _).
    eapply wpM_mono; [|apply (open_exchange_ok 1 X (fun i => ta (X i))); [exact in1|auto|intros i; apply A1|reflexivity|intros i; apply A2]].
    intros s2 r (Hs2 & Hr). wbind. eapply wpM_mono; [|apply w_verify_ok, Hs2]. intros s3 ? Hs3. apply wpM_ret. split; [exact Hs3|].
    intros i. rewrite Hr. unfold rxor. rewrite <- (bin3_all 1 X _ HX i). destruct b; reflexivity.
  Qed.
  Lemma arith3_cols K X xs : RL (arith3 K) X xs ->
    (forall i, Forall (inr K) (map ta (X i))) /\ (forall i, map tb (X i) = map ta (X (prev i))) /\ forall i, map2 (fun x r => rsub K (rsub K (rsub K (tc x) (ta x)) (tb x)) r) (X i) (map ta (X (next i))) = xs.
  Proof using.
    induction 1 as [X HX|X Y X0 y ys HX HY HR (I1 & I2 & I3)].
    - split; [|split]; intros i; rewrite !HX; [constructor|reflexivity|reflexivity].
    - pose proof HY as (A1 & A2 & _). split; [|split]; intros i; rewrite !HX.
      + constructor; [apply A1|apply I1].
      + cbn [map]. rewrite I2, (proj1 (A2 i)). reflexivity.
      + cbn [map map2]. rewrite I3. f_equal. rewrite (arith3_all K Y y HY i). modring.
  Qed.
  Lemma bin3_cols X bs : RL (bin3 1) X (map Z.b2z bs) ->
    (forall i, Forall (inr 1) (map ta (X i))) /\ (forall i, map tb (X i) = map ta (X (prev i))) /\ forall i, map2 (fun x r => rxor (rxor (rxor (tc x) (ta x)) (tb x)) r =? 1) (X i) (map ta (X (next i))) = bs.
  Proof using.
    revert X. induction bs as [|b bs IH]; intros X HX.
    - split; [|split]; intros i; rewrite !(RL_inv_nil _ _ HX); [constructor|reflexivity|reflexivity].
    - cbn [map] in HX. apply RL_inv_cons in HX. destruct HX as (Y & X0 & EX & HY & HX0). destruct (IH _ HX0) as (I1 & I2 & I3).
      pose proof HY as (A1 & A2 & _). split; [|split]; intros i; rewrite !EX.
      + constructor; [apply A1|apply I1].
      + cbn [map]. rewrite I2, (proj1 (A2 i)). reflexivity.
      + cbn [map map2]. rewrite I3. f_equal. unfold rxor. rewrite <- (bin3_all 1 Y _ HY i). destruct b; reflexivity.
  Qed.
  Lemma w_open_many_ok K X xs s : In K widths -> winv s -> RL (arith3 K) X xs ->
    wpM (fun i => w_open_many G H i K (X i)) s (fun s' v => winv s' /\ forall i, v i = xs).
  Proof using.
    intros HK Hs HX. unfold w_open_many. wbind. eapply wpM_mono; [|apply w_verify_ok, Hs]. intros s1 ? Hs1. wbind.
    destruct (arith3_cols K X xs HX) as (C1 & C2 & C3).
    eapply wpM_mono; [|apply (open_exchange_many_ok K X (fun i => map ta (X i)) (length xs)); auto; apply (RL_length _ _ _ HX)].
    intros s2 r (Hs2 & Hr). wbind. eapply wpM_mono; [|apply w_verify_ok, Hs2]. intros s3 ? Hs3. apply wpM_ret. split; [exact Hs3|].
    intros i. rewrite Hr. apply C3.
  Qed.
  Lemma w_open_bit_many_ok X bs s : winv s -> RL (bin3 1) X (map Z.b2z bs) ->
    wpM (fun i => w_open_bit_many G H i (X i)) s (fun s' v => winv s' /\ forall i, v i = bs).
  Proof using.
    intros Hs HX. unfold w_open_bit_many. wbind. eapply wpM_mono; [|apply w_verify_ok, Hs]. intros s1 ? Hs1. wbind.
    destruct (bin3_cols X bs HX) as (C1 & C2 & C3).
    eapply wpM_mono; [|apply (open_exchange_many_ok 1 X (fun i => map ta (X i)) (length (map Z.b2z bs))); auto; [exact in1|apply (RL_length _ _ _ HX)]].
    intros s2 r (Hs2 & Hr). wbind. eapply wpM_mono; [|apply w_verify_ok, Hs2]. intros s3 ? Hs3. apply wpM_ret. split; [exact Hs3|].
    intros i. rewrite Hr. apply C3.
  Qed.
End Open.
