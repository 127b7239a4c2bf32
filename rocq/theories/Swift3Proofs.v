(** Honest runs of the Swift3 engine. *)
From Verif Require Import Base Ring RingProofs Poly Dzkp GaloisSpec Prog Sched Conc Rng Rel Net BitArith Iris IrisSpec Protocol MpcSpec BinTrait BinProofs AddProofs SlicedProofs OrProofs
  Aby3 ShareSpec Aby3Proofs Jmp JmpProofs Swift3 Swift3Spec.
From Coq Require Import ZifyBool ZifyNat Btauto.

(** ** Shares: the pair of the mask and the masked value *)
Definition arith3' (K : Z) (X : pid -> share3) (p : Z * Z) : Prop :=
  arith_shared K (fun i => t_ab (X i)) (fst p) /\ inr K (snd p) /\ forall i, tc (X i) = snd p.
Definition bin3' (K : Z) (X : pid -> share3) (p : Z * Z) : Prop :=
  bin_shared K (fun i => t_ab (X i)) (fst p) /\ inr K (snd p) /\ forall i, tc (X i) = snd p.
Definition val_a (K : Z) (p : Z * Z) : Z := (snd p - fst p) mod 2 ^ K.
Definition val_b (p : Z * Z) : Z := Z.lxor (snd p) (fst p).

Lemma arith3_split K X x : arith3 K X x -> exists p, arith3' K X p /\ val_a K p = x.
Proof.
  intros (H1 & H2 & ->). exists ((ta (X P0) + ta (X P1) + ta (X P2)) mod 2 ^ K, tc (X P0)). split.
  - split; [|split].
    + split; [|split]; cbn.
      * intros i. apply H1.
      * intros i. apply H2.
      * reflexivity.
    + apply H1.
    + cbn. pose proof (fun i => proj2 (H2 i)) as E. intros [| |]; [reflexivity|apply (E P1)|rewrite (E P2); apply (E P1)].
  - unfold val_a. cbn [fst snd]. modring.
Qed.
Lemma arith3_join K X p x : arith3' K X p -> val_a K p = x -> arith3 K X x.
Proof.
  intros ((H1 & H2 & H3) & H4 & H5) <-. split; [|split].
  - intros i. split; [apply H1|]. rewrite H5. exact H4.
  - intros i. split; [apply H2|]. rewrite !H5. reflexivity.
  - unfold val_a. rewrite H3, H5. cbn. modring.
Qed.
Lemma bin3_split K X x : bin3 K X x -> exists p, bin3' K X p /\ val_b p = x.
Proof.
  intros (H1 & H2 & ->). exists (Z.lxor (Z.lxor (ta (X P0)) (ta (X P1))) (ta (X P2)), tc (X P0)). split.
  - split; [|split].
    + split; [|split]; cbn.
      * intros i. apply H1.
      * intros i. apply H2.
      * reflexivity.
    + apply H1.
    + cbn. pose proof (fun i => proj2 (H2 i)) as E. intros [| |]; [reflexivity|apply (E P1)|rewrite (E P2); apply (E P1)].
  - reflexivity.
Qed.
Lemma bin3_join K X p x : bin3' K X p -> val_b p = x -> bin3 K X x.
Proof.
  intros ((H1 & H2 & H3) & H4 & H5) <-. split; [|split].
  - intros i. split; [apply H1|]. rewrite H5. exact H4.
  - intros i. split; [apply H2|]. rewrite !H5. reflexivity.
  - unfold val_b. rewrite H3, H5. reflexivity.
Qed.
Lemma bin3_ext K X X' x : (forall i, X i = X' i) -> bin3 K X x -> bin3 K X' x.
Proof. intros E (H1 & H2 & H3). split; [|split]; intros; rewrite <- ?E; auto. Qed.
Lemma arith3_ext K X X' x : (forall i, X i = X' i) -> arith3 K X x -> arith3 K X' x.
Proof. intros E (H1 & H2 & H3). split; [|split]; intros; rewrite <- ?E; auto. Qed.
Lemma bin3'_ext K X X' x : (forall i, X i = X' i) -> bin3' K X x -> bin3' K X' x.
Proof. intros E (H1 & H2 & H3). split; [|split]; [eapply brel_ext; [|exact H1]; intros; cbn; rewrite E; reflexivity|exact H2|intros; rewrite <- E; auto]. Qed.
Lemma arith3'_ext K X X' x : (forall i, X i = X' i) -> arith3' K X x -> arith3' K X' x.
Proof. intros E (H1 & H2 & H3). split; [|split]; [eapply arel_ext; [|exact H1]; intros; cbn; rewrite E; reflexivity|exact H2|intros; rewrite <- E; auto]. Qed.
Lemma RL_split {A B C} (R : (pid -> A) -> B -> Prop) (R' : (pid -> A) -> C -> Prop) (v : C -> B) X xs :
  (forall Y y, R Y y -> exists p, R' Y p /\ v p = y) -> RL R X xs -> exists ps, RL R' X ps /\ xs = map v ps.
Proof.
  intros E. induction 1 as [X HX|X Y X0 y ys HX HY H (ps & IH1 & IH2)].
  - exists []. split; [apply RL_nil, HX|reflexivity].
  - destruct (E _ _ HY) as (p & Hp & <-). exists (p :: ps). split; [eapply RL_cons; eassumption|]. cbn. congruence.
Qed.
Lemma RL_join {A B C} (R : (pid -> A) -> B -> Prop) (R' : (pid -> A) -> C -> Prop) (v : C -> B) X ps :
  (forall Y p, R' Y p -> R Y (v p)) -> RL R' X ps -> RL R X (map v ps).
Proof.
  intros E H. eapply RL_ext; [|apply (RL_map R' R (fun _ y => y) v); [|exact H]].
  - intros i. cbn. apply map_id.
  - intros Y y HY. apply E, HY.
Qed.
Lemma arith3_val K X p : arith3' K X p -> arith3 K X (val_a K p).
Proof. intros HX. eapply arith3_join; eauto. Qed.
Lemma bin3_val K X p : bin3' K X p -> bin3 K X (val_b p).
Proof. intros HX. eapply bin3_join; eauto. Qed.

(** ** Registered gates *)
Definition and_item (E : pid -> entry (pinput bool)) (_ : unit) : Prop :=
  forall i, e_proof (E i) = pin_map2 xorb (e_prev (E (next i))) (e_next (E (prev i))) /\ and_c (e_proof (E i)) = false.
Definition mul_item (K : Z) (E : pid -> entry (pinput Z)) (_ : unit) : Prop :=
  forall i, e_proof (E i) = pin_map2 (radd K) (e_prev (E (next i))) (e_next (E (prev i))) /\ mul_c (e_proof (E i)) mod 2 ^ K = 0 /\
    mul_wf K (e_prev (E i)) /\ mul_wf K (e_next (E i)).

Definition and_shared (L : pid -> list (entry (pinput bool))) : Prop := exists us, RL and_item L us.
Definition mul_shared (K : Z) (L : pid -> list (entry (pinput Z))) : Prop := exists us, RL (mul_item K) L us.

Definition dot_c (p : dinput) : Z := dotp (d_a0 p) (d_b0 p) + dotp (d_a0 p) (d_b1 p) + dotp (d_a1 p) (d_b0 p) + d_r p - d_s p.
Definition din_add (K : Z) (p q : dinput) : dinput :=
  DIn (map2 (radd K) (d_a0 p) (d_a0 q)) (map2 (radd K) (d_a1 p) (d_a1 q)) (map2 (radd K) (d_b0 p) (d_b0 q)) (map2 (radd K) (d_b1 p) (d_b1 q))
      (radd K (d_r p) (d_r q)) (radd K (d_s p) (d_s q)).
Definition din_len (n : nat) (p : dinput) : Prop :=
  length (d_a0 p) = n /\ length (d_a1 p) = n /\ length (d_b0 p) = n /\ length (d_b1 p) = n.
Definition dot_item (K : Z) (E : pid -> entry dinput) (n : nat) : Prop :=
  forall i, din_len n (e_proof (E i)) /\ dot_wf K n (e_prev (E i)) /\ dot_wf K n (e_next (E i)) /\
    e_proof (E i) = din_add K (e_prev (E (next i))) (e_next (E (prev i))) /\ dot_c (e_proof (E i)) mod 2 ^ K = 0.
Definition dot_shared (K : Z) (D : pid -> dotreg) : Prop :=
  exists size mx ns, (forall i, dr_size (D i) = size /\ dr_max (D i) = mx) /\
    RL (dot_item K) (fun i => dr_entries (D i)) ns /\
    (mx <= length ns)%nat /\ Forall (fun n => n <= size)%nat ns /\ Forall (fun n => n = size) (skipn mx ns).

Lemma bindM_eq {S A B} (p : M S A) (f : A -> M S B) (s : S) : bindM p f s = bind (p s) (fun sa => f (snd sa) (fst sa)).
Proof. reflexivity. Qed.

Section Proofs.
  Variable G : rng.
  Variable H : hasher.
  Variable KU : Z. (** the width of the arithmetic shares *)
  Notation ST := (sst G).

  (** In an honest run: generators in lock step, transcripts and registered gates match. *)
  Definition winv (s : pid -> ST) : Prop :=
    prf_synced (fun i => w_prf G (s i)) /\
    (forall i, w_p G (s i) = w_p G (s P0)) /\
    (forall i, w_sn G (s (prev i)) = w_rp G (s i)) /\
    (forall i, w_sp G (s (next i)) = w_rn G (s i)) /\
    and_shared (fun i => w_and G (s i)) /\ mul_shared KU (fun i => w_mul G (s i)) /\ dot_shared KU (fun i => w_dot G (s i)).

  Lemma and_shared_ext L L' : (forall i, L i = L' i) -> and_shared L -> and_shared L'.
  Proof. intros E (us & HL). exists us. eapply RL_ext; eassumption. Qed.
  Lemma mul_shared_ext K L L' : (forall i, L i = L' i) -> mul_shared K L -> mul_shared K L'.
  Proof. intros E (us & HL). exists us. eapply RL_ext; eassumption. Qed.
  Lemma dot_shared_ext K L L' : (forall i, L i = L' i) -> dot_shared K L -> dot_shared K L'.
  Proof. intros E (z & m & ns & H1 & H2 & H3). exists z, m, ns. split; [intros i; rewrite <- E; apply H1|].
    split; [|exact H3]. eapply RL_ext; [|exact H2]. intros; cbn; rewrite E; reflexivity. Qed.

  Lemma gen_12_ok K (s : pid -> ST) : 0 <= K -> winv s ->
    wpM (fun _ => gen_12 G K) s
      (fun s' W => winv s' /\ exists d, (forall i, inr K (d i)) /\ forall i, W i = (d i, d (prev i))).
  Proof.
    intros HK (Hs & Hp & Hq1 & Hq2 & HR). unfold wpM.
    pose (D := fun i => draw G K (my_prf G (w_prf G (s i)))).
    apply (wp_ext (fun i => Ret (w_set_prf G (s i) (Prf G (fst (D i)) (fst (D (prev i)))), (snd (D i), snd (D (prev i)))))).
    { intros i. unfold gen_12, bindM, gen_1, gen_2, D, retM. pose proof (Hs i) as E. cbn beta in E. rewrite <- E.
      destruct (draw G K (my_prf G (w_prf G (s i)))) as [r1 v1]. cbn.
      destruct (draw G K (next_prf G (w_prf G (s i)))) as [r2 v2]. reflexivity. }
    apply wp_ret. split.
    - split; [intros i; reflexivity|]. do 3 (split; [assumption|]). exact HR.
    - exists (fun i => snd (D i)). split; [intros i; apply draw_range, HK|reflexivity].
  Qed.

  Ltac wred := cbn [bind bindM retM getM putM liftM failM of_res send_value receive_value send_vec receive_vec
     w_send w_queue w_queue_many w_receive w_receive_many w_received w_send_many pid_eqb next prev fst snd fold_left].

  Lemma winv_intro (s s' : pid -> ST) : prf_synced (fun i => w_prf G (s' i)) ->
    (forall i, w_p G (s' i) = w_p G (s' P0)) ->
    (forall i, w_sn G (s' (prev i)) = w_rp G (s' i)) ->
    (forall i, w_sp G (s' (next i)) = w_rn G (s' i)) ->
    (forall i, w_and G (s i) = w_and G (s' i)) -> (forall i, w_mul G (s i) = w_mul G (s' i)) -> (forall i, w_dot G (s i) = w_dot G (s' i)) ->
    and_shared (fun i => w_and G (s i)) /\ mul_shared KU (fun i => w_mul G (s i)) /\ dot_shared KU (fun i => w_dot G (s i)) -> winv s'.
  Proof using.
    intros H1 H2 H3 H4 H5 H6 H7 (R1 & R2 & R3). do 4 (split; [assumption|]). split; [|split].
    - eapply and_shared_ext; [|exact R1]. exact H5.
    - eapply mul_shared_ext; [|exact R2]. exact H6.
    - eapply dot_shared_ext; [|exact R3]. exact H7.
  Qed.
  Ltac winv_tac :=
    match goal with HR : and_shared (fun i => w_and G (?s i)) /\ _ , Hs : prf_synced _, Hp : (forall i, w_p _ _ = _),
       Hq1 : (forall i, w_sn _ _ = _), Hq2 : (forall i, w_sp _ _ = _) |- winv _ =>
      apply (winv_intro s); [..|exact HR];
      [ intros [| |]; cbn; try reflexivity; apply (Hs P0) || apply (Hs P1) || apply (Hs P2)
      | intros [| |]; cbn; try reflexivity; apply Hp
      | intros [| |]; cbn; (rewrite <- (Hq1 P0) || rewrite <- (Hq1 P1) || rewrite <- (Hq1 P2)); reflexivity
      | intros [| |]; cbn; (rewrite <- (Hq2 P0) || rewrite <- (Hq2 P1) || rewrite <- (Hq2 P2)); reflexivity
      | intros [| |]; reflexivity | intros [| |]; reflexivity | intros [| |]; reflexivity ] end.

  (** ** Exchanging the summands *)
  Lemma post_exchange_ok K (y : pid -> Z) s : In K widths -> (forall i, inr K (y i)) -> winv s ->
    wpM (fun i => post_exchange G i K (y i) (y (prev i))) s
      (fun s' v => winv s' /\ v P1 = y P2 /\ v P2 = y P0).
  Proof.
    intros HK Hy (Hs & Hp & Hq1 & Hq2 & HR). apply wp_cwp.
    unfold post_exchange, w_send, w_receive, w_queue, w_queue_many, w_received, liftM, bindM, getM, putM, retM, send_value, receive_value.
    cbn [bind pid_eqb next prev]. 
    do 4 (cstep; qnorm; cbv beta; rewrite ?from_to_bytes by auto; cbn [of_res bind]).
    eapply (cwp_ret _ _ _ _ (fun i => match i with P0 => _ | P1 => _ | P2 => _ end)); [reflexivity..|].
    cbn. split; [|auto]. winv_tac.
  Qed.

  (** ** Joint sharing *)
  Definition jsh (beta : Z -> Z -> Z -> Z) (K : Z) (Y : pid -> share3) (v : Z) : Prop :=
    exists a1 ap, inr K a1 /\ inr K ap /\ Y P0 = Share3 ap ap (beta a1 ap v) /\ Y P1 = Share3 a1 ap (beta a1 ap v) /\ Y P2 = Share3 ap a1 (beta a1 ap v).
  Definition good_beta (beta : Z -> Z -> Z -> Z) (K : Z) : Prop := forall a1 ap v, inr K a1 -> inr K ap -> inr K v -> inr K (beta a1 ap v).
  Lemma jshare_ok beta K V v s : In K widths -> good_beta beta K -> inr K v ->
    V P0 = None -> V P1 = Some v -> V P2 = Some v -> winv s ->
    wpM (fun i => jshare_gen G i beta K (V i) P1 P2 P0) s (fun s' Y => winv s' /\ jsh beta K Y v).
  Proof.
    intros HK Hb Hv V0 V1 V2 (Hs & Hp & Hq1 & Hq2 & HR). assert (HK0 : 0 <= K) by (apply in_widths_pos in HK; lia).
    apply wp_cwp. rewrite V0, V1, V2.
    unfold jshare_gen, gen_p, gen_1, gen_2, bindM. cbn [pid_eqb next andb orb]. rewrite (Hp P1), (Hp P2).
    pose proof (draw_range G K (w_p G (s P0)) HK0) as Rp.
    destruct (draw G K (w_p G (s P0))) as [rp ap]. cbn [bind w_prf w_set_p my_prf next_prf fst snd]. cbn in Rp.
    pose proof (Hs P2) as E2. cbn in E2. rewrite E2.
    pose proof (draw_range G K (my_prf G (w_prf G (s P1))) HK0) as R1.
    destruct (draw G K (my_prf G (w_prf G (s P1)))) as [r1 a1]. cbn in R1.
    assert (Rb := Hb _ _ _ R1 Rp Hv).
    unfold w_send, w_receive, w_queue, w_queue_many, w_received, liftM, bindM, getM, putM, retM, send_value, receive_value.
    cbn [bind pid_eqb next prev].
    do 2 (cstep; qnorm; cbv beta; rewrite ?from_to_bytes by auto; cbn [of_res bind]).
    eapply (cwp_ret _ _ _ _ (fun i => match i with P0 => _ | P1 => _ | P2 => _ end)); [reflexivity..|].
    cbn. split; [winv_tac|]. exists a1, ap. auto.
  Qed.

  Lemma jmany_run (beta : Z -> Z -> Z -> Z) K xs : 0 <= K -> forall s1 s2 : ST,
    w_p G s2 = w_p G s1 -> next_prf G (w_prf G s2) = my_prf G (w_prf G s1) ->
    exists al rp r1, length al = length xs /\ Forall (fun p => inr K (fst p) /\ inr K (snd p)) al /\
      mapM (fun x => bindM (gen_p G K) (fun ap => bindM (gen_1 G K) (fun a1 => retM (Share3 a1 ap (beta a1 ap x))))) xs s1 =
        Ret (w_set_p G (w_set_prf G s1 (Prf G r1 (next_prf G (w_prf G s1)))) rp, map2 (fun p x => Share3 (fst p) (snd p) (beta (fst p) (snd p) x)) al xs) /\
      mapM (fun x => bindM (gen_p G K) (fun ap => bindM (gen_2 G K) (fun a1 => retM (Share3 ap a1 (beta a1 ap x))))) xs s2 =
        Ret (w_set_p G (w_set_prf G s2 (Prf G (my_prf G (w_prf G s2)) r1)) rp, map2 (fun p x => Share3 (snd p) (fst p) (beta (fst p) (snd p) x)) al xs) /\
      forall bs (s0 : ST), length bs = length xs -> w_p G s0 = w_p G s1 ->
        mapM (fun b => bindM (gen_p G K) (fun ap => retM (Share3 ap ap b))) bs s0 =
        Ret (w_set_p G s0 rp, map2 (fun p b => Share3 (snd p) (snd p) b) al bs).
  Proof.
    intros HK0. induction xs as [|x xs IH]; intros s1 s2 E2 E3.
    - exists [], (w_p G s1), (my_prf G (w_prf G s1)). split; [reflexivity|]. split; [constructor|].
      split; [destruct s1 as [[? ?] ? ? ? ? ? ? ? ? ?]; cbn in *; subst; reflexivity|].
      split; [destruct s2 as [[? ?] ? ? ? ? ? ? ? ? ?]; cbn in *; subst; reflexivity|].
      intros [|b bs] s0 Hl E0; [|discriminate]. rewrite <- E0. destruct s0; reflexivity.
    - destruct (draw G K (w_p G s1)) as [rp ap] eqn:Dp. destruct (draw G K (my_prf G (w_prf G s1))) as [r1 a1] eqn:D1.
      pose proof (draw_range G K (w_p G s1) HK0) as Rp. rewrite Dp in Rp.
      pose proof (draw_range G K (my_prf G (w_prf G s1)) HK0) as R1. rewrite D1 in R1. cbn in Rp, R1.
      destruct (IH (w_set_p G (w_set_prf G s1 (Prf G r1 (next_prf G (w_prf G s1)))) rp)
                  (w_set_p G (w_set_prf G s2 (Prf G (my_prf G (w_prf G s2)) r1)) rp)) as (al & rp' & r1' & L1 & L2 & M1 & M2 & M0); [reflexivity..|].
      exists ((a1, ap) :: al), rp', r1'. split; [cbn; congruence|]. split; [constructor; auto|]. split; [|split].
      + cbn [mapM].
        match goal with |- bindM ?a ?f s1 = _ => change (bindM a f s1) with (bind (a s1) (fun sa => f (snd sa) (fst sa))) end.
        match goal with |- bind ?a _ = _ => replace a with (Ret (w_set_p G (w_set_prf G s1 (Prf G r1 (next_prf G (w_prf G s1)))) rp, Share3 a1 ap (beta a1 ap x))) end.
        2:{ unfold bindM, gen_p, gen_1, retM. rewrite Dp. cbn. rewrite D1. reflexivity. }
        cbn [bind fst snd]. unfold bindM at 1. rewrite M1. reflexivity.
      + cbn [mapM].
        match goal with |- bindM ?a ?f s2 = _ => change (bindM a f s2) with (bind (a s2) (fun sa => f (snd sa) (fst sa))) end.
        match goal with |- bind ?a _ = _ => replace a with (Ret (w_set_p G (w_set_prf G s2 (Prf G (my_prf G (w_prf G s2)) r1)) rp, Share3 ap a1 (beta a1 ap x))) end.
        2:{ unfold bindM, gen_p, gen_2, retM. rewrite E2, Dp. cbn. rewrite E3, D1. reflexivity. }
        cbn [bind fst snd]. unfold bindM at 1. rewrite M2. reflexivity.
      + intros [|b bs] s0 Hl E0; [discriminate|]. injection Hl as Hl. cbn [mapM].
        match goal with |- bindM ?a ?f s0 = _ => change (bindM a f s0) with (bind (a s0) (fun sa => f (snd sa) (fst sa))) end.
        match goal with |- bind ?a _ = _ => replace a with (Ret (w_set_p G s0 rp, Share3 ap ap b)) end.
        2:{ unfold bindM, gen_p, retM. rewrite E0, Dp. reflexivity. }
        cbn [bind fst snd]. unfold bindM at 1. rewrite (M0 bs _ Hl); reflexivity.
  Qed.

  Lemma jsh_RL beta K al vs X : length al = length vs -> Forall (fun p => inr K (fst p) /\ inr K (snd p)) al ->
    X P0 = map2 (fun p b => Share3 (snd p) (snd p) b) al (map2 (fun p x => beta (fst p) (snd p) x) al vs) ->
    X P1 = map2 (fun p x => Share3 (fst p) (snd p) (beta (fst p) (snd p) x)) al vs ->
    X P2 = map2 (fun p x => Share3 (snd p) (fst p) (beta (fst p) (snd p) x)) al vs ->
    RL (jsh beta K) X vs.
  Proof using.
    revert vs X. induction al as [|[a1 ap] al IH]; intros [|v vs] X Hl HF H0 H1 H2; try discriminate.
    - apply RL_nil. intros [| |]; assumption.
    - inversion HF as [|? ? [F1 F2] F3]; subst. cbn in H0, H1, H2.
      eapply (RL_cons _ _ (fun i => match i with P0 => _ | P1 => _ | P2 => _ end) (fun i => match i with P0 => _ | P1 => _ | P2 => _ end)).
      + intros [| |]; eassumption.
      + exists a1, ap. auto.
      + apply IH; auto.
  Qed.
  Lemma tc_map2_1 (beta : Z -> Z -> Z -> Z) al vs : map tc (map2 (fun p x => Share3 (fst p) (snd p) (beta (fst p) (snd p) x)) al vs) = map2 (fun p x => beta (fst p) (snd p) x) al vs.
  Proof using. revert vs; induction al; intros [|v vs]; cbn; try reflexivity. rewrite IHal. reflexivity. Qed.
  Lemma tc_map2_2 (beta : Z -> Z -> Z -> Z) al vs : map tc (map2 (fun p x => Share3 (snd p) (fst p) (beta (fst p) (snd p) x)) al vs) = map2 (fun p x => beta (fst p) (snd p) x) al vs.
  Proof using. revert vs; induction al; intros [|v vs]; cbn; try reflexivity. rewrite IHal. reflexivity. Qed.
  Lemma beta_Forall beta K al vs : good_beta beta K -> Forall (fun p => inr K (fst p) /\ inr K (snd p)) al -> Forall (inr K) vs ->
    Forall (inr K) (map2 (fun p x => beta (fst p) (snd p) x) al vs).
  Proof using. intros Hb F. revert vs. induction F as [|p al [F1 F2] F IH]; intros vs V; [constructor|]. destruct V; constructor; auto. Qed.

  Lemma jshare_many_ok beta K V vs s : In K widths -> good_beta beta K -> Forall (inr K) vs ->
    V P0 = None -> V P1 = Some vs -> V P2 = Some vs -> winv s ->
    wpM (fun i => jshare_many_gen G i beta K (V i) P1 P2 P0 (length vs)) s (fun s' Y => winv s' /\ RL (jsh beta K) Y vs).
  Proof.
    intros HK Hb Hv V0 V1 V2 (Hs & Hp & Hq1 & Hq2 & HR). assert (HK0 : 0 <= K) by (apply in_widths_pos in HK; lia).
    apply wp_cwp. rewrite V0, V1, V2.
    unfold jshare_many_gen. cbn [pid_eqb next andb orb]. rewrite Nat.eqb_refl. cbn [negb].
    assert (E21 : w_p G (s P2) = w_p G (s P1)) by (rewrite (Hp P2), (Hp P1); reflexivity).
    destruct (jmany_run beta K vs HK0 (s P1) (s P2) E21 (Hs P2)) as (al & rp & r1 & L1 & L2 & M1 & M2 & M0).
    assert (Fb := beta_Forall beta K al vs Hb L2 Hv).
    assert (Lb : length (map2 (fun p x => beta (fst p) (snd p) x) al vs) = length vs) by (rewrite map2_length_eq; auto).
    repeat match goal with |- context [bindM (mapM ?g vs) ?f ?st] => rewrite (bindM_eq (mapM g vs) f st) end.
    rewrite M1, M2. cbn [bind fst snd]. rewrite tc_map2_1, tc_map2_2.
    unfold w_send_many, w_receive_many, w_queue_many, w_received, liftM, send_vec, receive_vec.
    rewrite !bindM_eq. cbn [bind fst snd pid_eqb next prev getM putM retM].
    do 2 (cstep; qnorm; cbv beta). rewrite <- Lb at 1. rewrite vec_roundtrip by auto. cbn [of_res bind fst snd].
    rewrite !bindM_eq. cbn [bind fst snd getM putM retM].
    rewrite M0; [|exact Lb|cbn; symmetry; apply Hp].
    eapply (cwp_ret _ _ _ _ (fun i => match i with P0 => _ | P1 => _ | P2 => _ end)); [reflexivity..|].
    cbn. split; [winv_tac|]. apply (jsh_RL beta K al); auto.
  Qed.

  Lemma post_exchange_many_ok K (rows : pid -> list (Z * Z * Z)) n s : In K widths ->
    (forall i, length (rows i) = n) -> (forall i, Forall (inr K) (map (fun r => fst (fst r)) (rows i))) ->
    (forall i, map (fun r => snd (fst r)) (rows i) = map (fun r => fst (fst r)) (rows (prev i))) -> winv s ->
    wpM (fun i => post_exchange_many G i K (rows i) n) s
      (fun s' v => winv s' /\ v P1 = map (fun r => fst (fst r)) (rows P2) /\ v P2 = map (fun r => fst (fst r)) (rows P0)).
  Proof.
    intros HK Hn Hy Hyb (Hs & Hp & Hq1 & Hq2 & HR). apply wp_cwp.
    unfold post_exchange_many. rewrite !Hyb. cbn [prev].
    assert (Ln : forall i, length (map (fun r => fst (fst r)) (rows i)) = n) by (intros i; rewrite map_length; apply Hn).
    set (y := fun i => map (fun r => fst (fst r)) (rows i)) in *. 
    change (map (fun r => fst (fst r)) (rows P0)) with (y P0). change (map (fun r => fst (fst r)) (rows P1)) with (y P1).
    change (map (fun r => fst (fst r)) (rows P2)) with (y P2).
    unfold w_send_many, w_receive_many, w_queue_many, w_received, liftM, bindM, getM, putM, retM, send_vec, receive_vec.
    cbn [bind pid_eqb next prev].
    do 2 (cstep; qnorm; cbv beta).
    cstep; qnorm; cbv beta. rewrite <- (Ln P2) at 1. rewrite vec_roundtrip by (exact HK || apply Hy). cbn [of_res bind fst snd].
    cstep; qnorm; cbv beta. rewrite <- (Ln P0). rewrite vec_roundtrip by (exact HK || apply Hy). cbn [of_res bind fst snd].
    eapply (cwp_ret _ _ _ _ (fun i => match i with P0 => _ | P1 => _ | P2 => _ end)); [reflexivity..|].
    cbn. split; [winv_tac|auto].
  Qed.

  Definition rowrel (op : Z -> Z -> Z) (K : Z) (Y : pid -> Z * Z * Z) (v : Z) : Prop :=
    exists y z, (forall i, inr K (y i)) /\ (forall i, Y i = (y i, y (prev i), z)) /\ v = op (op (op (y P0) (y P1)) (y P2)) z /\ inr K v.
  Definition ac (op : Z -> Z -> Z) : Prop := (forall a b, op a b = op b a) /\ (forall a b c, op (op a b) c = op a (op b c)).

  Lemma post_gen_ok op beta K Y v s : In K widths -> good_beta beta K -> rowrel op K Y v -> winv s ->
    wpM (fun i => post_gen G i op (jshare_gen G i beta K) K (fst (fst (Y i))) (snd (fst (Y i))) (snd (Y i))) s
      (fun s' W => winv s' /\ jsh beta K W v).
  Proof.
    intros HK Hb (y & z & Hy & HY & Ev & Hv) Hs. unfold post_gen. wbind.
    apply (wpM_ext (fun i => post_exchange G i K (y i) (y (prev i)))).
    { intros i. rewrite HY. reflexivity. }
    eapply wpM_mono; [|apply (post_exchange_ok K y); auto]. cbn beta. intros s1 w (Hs1 & W1 & W2).
    apply jshare_ok; auto; unfold post_value; rewrite HY; cbn [fst snd prev]; rewrite ?W1, ?W2, Ev; reflexivity.
  Qed.
  Lemma rowrel_cols op K R vs : ac op -> RL (rowrel op K) R vs ->
    (forall i, Forall (inr K) (map (fun r => fst (fst r)) (R i))) /\
    (forall i, map (fun r => snd (fst r)) (R i) = map (fun r => fst (fst r)) (R (prev i))) /\
    Forall (inr K) vs /\
    map2 op (map (fun r => op (op (fst (fst r)) (snd r)) (snd (fst r))) (R P1)) (map (fun r => fst (fst r)) (R P2)) = vs /\
    map2 op (map (fun r => op (op (snd (fst r)) (snd r)) (fst (fst r))) (R P2)) (map (fun r => fst (fst r)) (R P0)) = vs.
  Proof using.
    intros [Cm As]. assert (RC : forall x a b, op (op x a) b = op (op x b) a) by (intros; rewrite !As; f_equal; apply Cm). induction 1 as [X HX|X Y X0 v vs HX (y & z & Hy & HY & Ev & Hv) HR (I1 & I2 & I3 & I4 & I5)].
    - do 2 (split; [intros i; rewrite ?HX; try constructor; reflexivity|]). split; [constructor|]. rewrite !HX. auto.
    - split; [|split; [|split; [|split]]].
      + intros i. rewrite HX, HY. constructor; [apply Hy|apply I1].
      + intros i. rewrite !HX, !HY. cbn. f_equal. apply I2.
      + constructor; assumption.
      + rewrite !HX, !HY. cbn. f_equal; [|exact I4]. rewrite Ev.
        rewrite (RC (y P1) z), (RC (op (y P1) (y P0)) z), (Cm (y P1)). reflexivity.
      + rewrite !HX, !HY. cbn. f_equal; [|exact I5]. rewrite Ev.
        rewrite (RC (y P1) z), (RC (op (y P1) (y P2)) z), (RC (y P1) (y P2)), (Cm (y P1)). reflexivity.
  Qed.
  Lemma post_many_gen_ok op beta K R vs s : ac op -> In K widths -> good_beta beta K -> RL (rowrel op K) R vs -> winv s ->
    wpM (fun i => post_many_gen G i op (jshare_many_gen G i beta K) K (R i) (length vs)) s
      (fun s' W => winv s' /\ RL (jsh beta K) W vs).
  Proof.
    intros Hop HK Hb HR Hs. unfold post_many_gen. wbind.
    destruct (rowrel_cols op K R vs Hop HR) as (C1 & C2 & C3 & C4 & C5).
    eapply wpM_mono; [|apply post_exchange_many_ok; auto; apply (RL_length _ _ _ HR)]. intros s1 w (Hs1 & W1 & W2).
    apply jshare_many_ok; auto; unfold post_value_many; rewrite ?W1, ?W2, ?C4, ?C5; reflexivity.
  Qed.
  Lemma ac_radd K : ac (radd K).
  Proof using. split; intros; unfold radd; [f_equal; lia|]. modring. Qed.
  Lemma ac_rxor : ac rxor.
  Proof using. split; intros; unfold rxor; bitsolve. Qed.
  Lemma good_beta_a K : 0 <= K -> good_beta (beta_a K) K.
  Proof using. intros HK a b c _ _ _. apply inr_mod, HK. Qed.
  Lemma good_beta_b K : 0 <= K -> good_beta beta_b K.
  Proof using. intros HK a b c Ha Hb Hc. apply inr_lxor; assumption. Qed.

  (** ** The ABY3 products of the masks, and their registration *)
  Lemma prev_next i : prev (next i) = i. Proof using. destruct i; reflexivity. Qed.
  Lemma next_prev i : next (prev i) = i. Proof using. destruct i; reflexivity. Qed.

  Lemma register_and_ok K A B (d : pid -> Z) (c : pid -> Z) :
    (forall i, sb (A i) = sa (A (prev i))) -> (forall i, sb (B i) = sa (B (prev i))) ->
    (forall i, c i = rxor (local_and (A i) (B i)) (rxor (d i) (d (prev i)))) ->
    and_shared (fun i => register_and K (A i) (B i) (d i, d (prev i)) (Share (c i) (c (prev i)))).
  Proof using.
    intros HA HB Hc. exists (map (fun _ => tt) (seq 0 (Z.to_nat K))).
    apply (RL_join and_item (fun E (_ : nat) => and_item E tt) (fun _ => tt)); [intros Y p HY; exact HY|].
    unfold register_and. apply RL_map_seq. intros n Hn. intros i. cbn [e_proof e_prev e_next and_entry sa sb fst snd].
    rewrite !HA, !HB, !prev_next. split.
    - unfold pin_map2, and_entry. cbn [p_a0 p_a1 p_b0 p_b1 p_r p_s]. rewrite !xorb_false_r, !xorb_false_l. reflexivity.
    - unfold and_c. cbn. rewrite Hc. unfold rxor, local_and, rand_, rxor. rewrite HA, HB, !Z.lxor_spec, !Z.land_spec.
      repeat match goal with |- context [Z.testbit ?a ?n] => generalize (Z.testbit a n); intro end. btauto.
  Qed.
  Lemma register_mul_ok K A B (d : pid -> Z) (c : pid -> Z) : 0 <= K -> arith_shared K A (norm K (sa (A P0) + sa (A P1) + sa (A P2))) ->
    arith_shared K B (norm K (sa (B P0) + sa (B P1) + sa (B P2))) -> (forall i, inr K (d i)) -> (forall i, inr K (c i)) ->
    (forall i, c i = radd K (local_mul K (A i) (B i)) (rsub K (d i) (d (prev i)))) ->
    mul_item K (fun i => register_mul K (A i) (B i) (d i, d (prev i)) (Share (c i) (c (prev i)))) tt.
  Proof using.
    intros HK (A1 & HA & _) (B1 & HB & _) Hd Hcr Hc i. unfold register_mul. cbn [e_proof e_prev e_next sa sb fst snd].
    rewrite !HA, !HB, !prev_next. assert (Z0 : inr K 0) by (split; [lia|apply Z.pow_pos_nonneg; lia]). split; [|split; [|split; repeat (apply Forall_cons; [first [exact Z0 | apply Hd | apply Hcr | apply A1 | apply B1 | apply norm_range; exact HK]|]); constructor]].
    - unfold pin_map2. cbn [p_a0 p_a1 p_b0 p_b1 p_r p_s]. unfold radd. rewrite !Z.add_0_r, !Z.add_0_l.
      f_equal; try (symmetry; apply norm_inr; auto). modring.
    - unfold mul_c. cbn. rewrite Hc. rewrite <- (Zmod_0_l (2 ^ K)). unfold local_mul. rewrite HA, HB. modring.
  Qed.

  Lemma push_and_ok L s : and_shared L -> winv s -> wpM (fun i => push_and G (L i)) s (fun s' _ => winv s').
  Proof.
    intros (us & HL) (Hs & Hp & Hq1 & Hq2 & (us' & R1) & R2 & R3). unfold push_and. wbind. apply wpM_get.
    apply (wpM_put s (fun i => w_set_and G (s i) (w_and G (s i) ++ L i))).
    do 4 (split; [assumption|]). split; [|split; assumption]. exists (us' ++ us). apply RL_app; assumption.
  Qed.
  Lemma push_mul_ok E s : mul_item KU E tt -> winv s -> wpM (fun i => push_mul G (E i)) s (fun s' _ => winv s').
  Proof.
    intros HL (Hs & Hp & Hq1 & Hq2 & R1 & (us' & R2) & R3). unfold push_mul. wbind. apply wpM_get.
    apply (wpM_put s (fun i => w_set_mul G (s i) (w_mul G (s i) ++ [E i]))).
    do 4 (split; [assumption|]). split; [exact R1|]. split; [|exact R3]. exists (us' ++ [tt]). apply RL_app; [exact R2|].
    apply RL_cons'; [exact HL|apply RL_nil'].
  Qed.

  Lemma zero_bsum K d : 0 <= K -> (forall i, inr K (d i)) -> bsum K (fun i => rxor (d i) (d (prev i))) 0.
  Proof using.
    intros HK Hd. split; [intros i; apply inr_lxor; auto|]. cbn [prev]. unfold rxor.
    apply Z.bits_inj'; intros n Hn. rewrite Z.bits_0, !Z.lxor_spec.
    destruct (Z.testbit (d P0) n), (Z.testbit (d P1) n), (Z.testbit (d P2) n); reflexivity.
  Qed.
  Lemma zero_asum K d : 0 <= K -> asum K (fun i => rsub K (d i) (d (prev i))) 0.
  Proof using.
    intros HK. split; [intros i; apply (inr_mod K _ HK)|]. cbn [prev].
    rewrite <- (Zmod_0_l (2 ^ K)) at 1. modring.
  Qed.
  Lemma brel_self K A a : bin_shared K A a -> forall i, sb (A i) = sa (A (prev i)).
  Proof using. intros (_ & E & _). exact E. Qed.
  Lemma arel_self K A a : arith_shared K A a -> arith_shared K A (norm K (sa (A P0) + sa (A P1) + sa (A P2))).
  Proof using. intros (E1 & E2 & E3). split; [exact E1|split; [exact E2|reflexivity]]. Qed.
  Lemma bsum_rep K c z : bsum K c z -> bin_shared K (fun i => Share (c i) (c (prev i))) z.
  Proof using. intros [H1 H2]. split; [exact H1|]. split; [reflexivity|exact H2]. Qed.
  Lemma asum_rep K c z : asum K c z -> arith_shared K (fun i => Share (c i) (c (prev i))) z.
  Proof using. intros [H1 H2]. split; [exact H1|]. split; [reflexivity|exact H2]. Qed.

  Lemma aby_and_ok K A a B b s : In K widths -> winv s -> bin_shared K A a -> bin_shared K B b ->
    wpM (fun i => aby_and G i K (A i) (B i)) s (fun s' W => winv s' /\ bin_shared K W (Z.land a b)).
  Proof.
    intros HK Hs HA HB. assert (HK0 : 0 <= K) by (apply in_widths_pos in HK; lia). unfold aby_and. wbind.
    eapply wpM_mono; [|apply gen_12_ok; eassumption]. intros s1 r (Hs1 & d & Hd & Hr).
    pose (c := fun i => rxor (local_and (A i) (B i)) (rxor (d i) (d (prev i)))).
    assert (Hc : bsum K c (Z.land a b)).
    { rewrite <- (Z.lxor_0_r (Z.land a b)). apply bsum_xor; [exact HK0|apply local_and_ok; auto|apply zero_bsum; auto]. }
    apply (wpM_ext (fun i => bindM (liftM (send_and_receive_value i K (c i))) (fun cb => 
       bindM (push_and G (register_and K (A i) (B i) (d i, d (prev i)) (Share (c i) cb))) (fun _ => retM (Share (c i) cb))))).
    { intros i. rewrite Hr. reflexivity. }
    wbind. apply wpM_lift. apply wp_sar_value; [exact HK|apply Hc|]. wbind.
    eapply wpM_mono; [|apply push_and_ok; [|exact Hs1]].
    2:{ apply register_and_ok; [eapply brel_self, HA|eapply brel_self, HB|reflexivity]. }
    intros s2 ? Hs2. apply wpM_ret. split; [exact Hs2|]. apply bsum_rep, Hc.
  Qed.
  Lemma aby_mul_ok A a B b s : In KU widths -> winv s -> arith_shared KU A a -> arith_shared KU B b ->
    wpM (fun i => aby_mul G i KU (A i) (B i)) s (fun s' W => winv s' /\ arith_shared KU W ((a * b) mod 2 ^ KU)).
  Proof.
    intros HK Hs HA HB. assert (HK0 : 0 <= KU) by (apply in_widths_pos in HK; lia). unfold aby_mul. wbind.
    eapply wpM_mono; [|apply gen_12_ok; eassumption]. intros s1 r (Hs1 & d & Hd & Hr).
    pose (c := fun i => radd KU (local_mul KU (A i) (B i)) (rsub KU (d i) (d (prev i)))).
    assert (Hc : asum KU c ((a * b) mod 2 ^ KU)).
    { rewrite <- (Zmod_mod (a * b)), <- (Z.add_0_r ((a * b) mod _)).
      apply asum_add; [exact HK0|apply local_mul_ok; auto|apply zero_asum; auto]. }
    apply (wpM_ext (fun i => bindM (liftM (send_and_receive_value i KU (c i))) (fun cb => 
       bindM (push_mul G (register_mul KU (A i) (B i) (d i, d (prev i)) (Share (c i) cb))) (fun _ => retM (Share (c i) cb))))).
    { intros i. rewrite Hr. reflexivity. }
    wbind. apply wpM_lift. apply wp_sar_value; [exact HK|apply Hc|]. wbind.
    eapply wpM_mono; [|apply push_mul_ok; [|exact Hs1]].
    2:{ apply register_mul_ok; [exact HK0|eapply arel_self, HA|eapply arel_self, HB|exact Hd|apply Hc|reflexivity]. }
    intros s2 ? Hs2. apply wpM_ret. split; [exact Hs2|]. apply asum_rep, Hc.
  Qed.

  (** Vectors of AND gates. *)
  Definition andl (K : Z) (Y : pid -> share * share * (Z * Z) * Z) (z : Z) : Prop :=
    exists A a B b d c, bin_shared K A a /\ bin_shared K B b /\ (forall i, inr K (d i)) /\ bsum K c z /\
      (forall i, c i = rxor (local_and (A i) (B i)) (rxor (d i) (d (prev i)))) /\
      (forall i, Y i = (A i, B i, (d i, d (prev i)), c i)) /\ z = Z.land a b.
  Lemma andl_cols K L zs : RL (andl K) L zs -> RL (bsum K) (fun i => map snd (L i)) zs.
  Proof using.
    intros HL. rewrite <- (map_id zs). apply (RL_map (andl K) (bsum K) (fun _ => snd) (fun z => z)); [|exact HL].
    intros Y z (A & a & B & b & d & c & HA & HB & Hd & Hc & Ec & EY & _). destruct Hc as [H1 H2].
    split; [intros i; rewrite EY; apply H1|]. rewrite !EY. exact H2.
  Qed.
  Lemma andl_reg K L zs : RL (andl K) L zs ->
    and_shared (fun i => concat (map2 (fun t cb => let '(x, y, r, ca) := t in register_and K x y r (Share ca cb)) (L i) (map snd (L (prev i))))).
  Proof using.
    induction 1 as [X HX|X Y X0 z zs HX (A & a & B & b & d & c & HA & HB & Hd & Hc & Ec & EY & _) HR (us & IH)].
    - exists []. apply RL_nil. intros i. rewrite HX. reflexivity.
    - destruct (register_and_ok K A B d c (brel_self _ _ _ HA) (brel_self _ _ _ HB) Ec) as (us' & Hu).
      exists (us' ++ us). eapply RL_ext; [|apply (RL_app _ _ _ _ _ Hu IH)].
      intros i. cbn beta. rewrite !HX, !EY. reflexivity.
  Qed.
  Lemma andl_out K L zs : RL (andl K) L zs ->
    RL (bin_shared K) (fun i => map2 (fun t cb => Share (snd t) cb) (L i) (map snd (L (prev i)))) zs.
  Proof using.
    intros HL. pose proof (RL_rep_b _ _ _ (andl_cols _ _ _ HL)) as E. eapply RL_ext; [|exact E].
    intros i. cbn beta. generalize (map snd (L (prev i))). induction (L i) as [|t l IH]; intros [|b l']; cbn; try reflexivity. rewrite IH. reflexivity.
  Qed.
  Lemma aby_and_many_ok K A aa B bb s : In K widths -> winv s -> RL (bin_shared K) A aa -> RL (bin_shared K) B bb ->
    wpM (fun i => aby_and_many G i K (A i) (B i)) s (fun s' W => winv s' /\ RL (bin_shared K) W (map2 Z.land aa bb)).
  Proof.
    intros HK Hs HA HB. assert (HK0 : 0 <= K) by (apply in_widths_pos in HK; lia). unfold aby_and_many. wbind.
    eapply wpM_mono; [|apply (wpM_mapM2 winv (bin_shared K) (bin_shared K) (andl K)
       (fun _ x y => bindM (gen_12 G K) (fun r => retM (x, y, r, rxor (local_and x y) (rxor (fst r) (snd r))))) Z.land); [|exact Hs|exact HA|exact HB]].
    - cbn beta. intros s1 L (Hs1 & HL). wbind. apply wpM_lift.
      pose proof (andl_cols _ _ _ HL) as HC.
      apply (wp_sar_vec K _ (length (map2 Z.land aa bb))); [exact HK|exact (RL_bsum_Forall _ _ _ HC)|exact (RL_length _ _ _ HC)|].
      wbind. eapply wpM_mono; [|apply push_and_ok; [exact (andl_reg _ _ _ HL)|exact Hs1]].
      intros s2 ? Hs2. apply wpM_ret. split; [exact Hs2|]. exact (andl_out _ _ _ HL).
    - clear s Hs A aa B bb HA HB. intros s A a B b Hs HA HB. wbind.
      eapply wpM_mono; [|apply gen_12_ok; eassumption]. intros s1 r (Hs1 & d & Hd & Hr). apply wpM_ret. split; [exact Hs1|].
      exists A, a, B, b, d, (fun i => rxor (local_and (A i) (B i)) (rxor (d i) (d (prev i)))).
      split; [exact HA|]. split; [exact HB|]. split; [exact Hd|]. split.
      { rewrite <- (Z.lxor_0_r (Z.land a b)). apply bsum_xor; [exact HK0|apply local_and_ok; auto|apply zero_bsum; auto]. }
      split; [reflexivity|]. split; [intros i; rewrite Hr; reflexivity|reflexivity].
  Qed.

  (** ** Dot products *)
  Lemma map2_radd_0r K l n : Forall (inr K) l -> length l = n -> map2 (radd K) l (repeat 0 n) = l.
  Proof using. intros F <-. induction F as [|x l Hx F IH]; [reflexivity|]. cbn. rewrite IH. f_equal. unfold radd. rewrite Z.add_0_r. apply norm_inr, Hx. Qed.
  Lemma map2_radd_0l K l n : Forall (inr K) l -> length l = n -> map2 (radd K) (repeat 0 n) l = l.
  Proof using. intros F <-. induction F as [|x l Hx F IH]; [reflexivity|]. cbn. rewrite IH. f_equal. unfold radd. rewrite Z.add_0_l. apply norm_inr, Hx. Qed.
  Lemma dotp_app a b a' b' : length a = length b -> dotp (a ++ a') (b ++ b') = dotp a b + dotp a' b'.
  Proof using. revert b. induction a as [|x a IH]; intros [|y b] Hl; try discriminate; [reflexivity|]. injection Hl as Hl. unfold dotp in *. cbn. rewrite (IH _ Hl). lia. Qed.
  Lemma dotp_zero n m : dotp (repeat 0 n) (repeat 0 m) = 0.
  Proof using. revert m. induction n as [|n IH]; intros [|m]; try reflexivity. unfold dotp in *. cbn. apply IH. Qed.
  Definition padz (size : nat) (l : list Z) : list Z := if Nat.ltb (length l) size then resize size 0 l else l.
  Lemma padz_eq size l : padz size l = l ++ repeat 0 (size - length l).
  Proof using.
    unfold padz, resize. destruct (Nat.ltb_spec (length l) size).
    - rewrite firstn_all2 by lia. reflexivity.
    - replace (size - length l)%nat with O by lia. cbn. rewrite app_nil_r. reflexivity.
  Qed.
  Lemma padz_len size l : length (padz size l) = Nat.max size (length l).
  Proof using. rewrite padz_eq, app_length, repeat_length. lia. Qed.
  Lemma padz_range K size l : 0 <= K -> Forall (inr K) l -> Forall (inr K) (padz size l).
  Proof using. intros HK F. rewrite padz_eq. apply Forall_app. split; [exact F|]. apply Forall_forall. intros x Hx. apply repeat_spec in Hx. subst.
    unfold inr. split; [lia|]. apply Z.pow_pos_nonneg; lia. Qed.
  Lemma padz_dot size a b : length a = length b -> dotp (padz size a) (padz size b) = dotp a b.
  Proof using. intros E. rewrite !padz_eq, dotp_app, dotp_zero by exact E. lia. Qed.

  Lemma dot_fold K x : forall y w, length x = length y ->
    fold_left (fun c xy => radd K c (local_mul K (fst xy) (snd xy))) (combine x y) w mod 2 ^ K =
    (dotp (map sa x) (map sa y) + dotp (map sa x) (map sb y) + dotp (map sb x) (map sa y) + w) mod 2 ^ K.
  Proof using.
    induction x as [|a x IH]; intros [|b y] w Hl; try discriminate; [reflexivity|]. injection Hl as Hl.
    cbn [combine fold_left fst snd]. rewrite IH by exact Hl. unfold dotp. cbn [map map2 fold_right]. unfold local_mul. modring.
  Qed.
  Lemma dot_sum_eq K x y r : length x = length y -> dot_sum K x y r mod 2 ^ K =
    (dotp (map sa x) (map sa y) + dotp (map sa x) (map sb y) + dotp (map sb x) (map sa y) + (fst r - snd r)) mod 2 ^ K.
  Proof using. intros Hl. unfold dot_sum. rewrite dot_fold by exact Hl. modring. Qed.

  Lemma map_sb_sa_a K X bs : RL (arith_shared K) X bs -> forall i, map sb (X i) = map sa (X (prev i)).
  Proof using. induction 1 as [X HX|X Y X0 y ys HX HY HR IH]; intros i; rewrite !HX; [reflexivity|]. cbn. rewrite IH. f_equal. apply HY. Qed.
  Lemma RL_arel_Forall K X bs : RL (arith_shared K) X bs -> forall i, Forall (inr K) (map sa (X i)).
  Proof using. induction 1 as [X HX|X Y X0 y ys HX HY HR IH]; intros i; rewrite !HX; constructor; [apply HY|apply IH]. Qed.

  Lemma register_dot_ok K D A aa B bb (d c : pid -> Z) : 0 <= K -> dot_shared K D ->
    RL (arith_shared K) A aa -> RL (arith_shared K) B bb -> length aa = length bb ->
    (forall i, inr K (d i)) -> (forall i, inr K (c i)) -> (forall i, c i = dot_sum K (A i) (B i) (d i, d (prev i))) ->
    dot_shared K (fun i => register_dot K (D i) (A i) (B i) (d i, d (prev i)) (Share (c i) (c (prev i)))).
  Proof using.
    intros HK (size & mx & ns & Hd & HE & Hmx & HF1 & HF2) HA HB Hl Hdr Hcr Hc.
    assert (LA : forall i, length (A i) = length aa) by apply (RL_length _ _ _ HA).
    assert (LB : forall i, length (B i) = length aa) by (intros i; rewrite Hl; apply (RL_length _ _ _ HB)).
    assert (PA : forall i, map sb (A i) = map sa (A (prev i))) by apply (map_sb_sa_a _ _ _ HA).
    assert (PB : forall i, map sb (B i) = map sa (B (prev i))) by apply (map_sb_sa_a _ _ _ HB).
    assert (RA : forall i, Forall (inr K) (map sa (A i))) by apply (RL_arel_Forall _ _ _ HA).
    assert (RB : forall i, Forall (inr K) (map sa (B i))) by apply (RL_arel_Forall _ _ _ HB).
    pose (sz := if Nat.ltb size (length aa) then length aa else size).
    assert (Esz : sz = Nat.max size (length aa)) by (unfold sz; destruct (Nat.ltb_spec size (length aa)); lia).
    pose (pd := fun (l : list Z) => padz size l).
    pose (E := fun i => Entry (DIn (pd (map sa (A i))) (pd (map sb (A i))) (pd (map sa (B i))) (pd (map sb (B i))) (rsub K (d i) (d (prev i))) (c i))
              (DIn (pd (map sb (A i))) (repeat 0 sz) (pd (map sb (B i))) (repeat 0 sz) (d (prev i)) (c (prev i)))
              (DIn (repeat 0 sz) (pd (map sa (A i))) (repeat 0 sz) (pd (map sa (B i))) (rneg K (d i)) 0)).
    assert (LP : forall i, length (pd (map sa (A i))) = sz /\ length (pd (map sa (B i))) = sz).
    { intros i. unfold pd. rewrite !padz_len, !map_length, LA, LB, Esz. auto. }
    assert (HI : dot_item K E sz).
    { intros i. unfold E. cbn [e_proof e_prev e_next]. unfold din_len. cbn. rewrite !PA, !PB, ?repeat_length, !prev_next.
      pose proof (LP i). pose proof (LP (prev i)). split; [tauto|]. assert (Z0 : inr K 0) by (split; [lia|apply Z.pow_pos_nonneg; lia]).
      assert (R0 : Forall (inr K) (repeat 0 sz)) by (apply Forall_forall; intros z Hz; apply repeat_spec in Hz; subst z; exact Z0).
      assert (RP : forall j, Forall (inr K) (pd (map sa (A j))) /\ Forall (inr K) (pd (map sa (B j)))) by (intros j; split; apply padz_range; auto).
      do 2 (split; [split; [repeat (apply Forall_cons; [split; [cbn; rewrite ?repeat_length; first [apply LP | reflexivity]|first [exact R0 | apply RP]]|]); constructor|split; first [exact Z0 | apply Hdr | apply Hcr | apply norm_range; exact HK]]|]).
      split.
      - unfold din_add. cbn [d_a0 d_a1 d_b0 d_b1 d_r d_s].
        rewrite !map2_radd_0r, !map2_radd_0l by (try (apply padz_range; auto); tauto). f_equal; [modring|].
        unfold radd. rewrite Z.add_0_r. symmetry. apply norm_inr, Hcr.
      - unfold dot_c. cbn [d_a0 d_a1 d_b0 d_b1 d_r d_s]. unfold pd. rewrite !padz_dot by (rewrite !map_length, ?LA, ?LB; reflexivity).
        assert (Ec : c i = c i mod 2 ^ K) by (symmetry; apply norm_inr, Hcr). rewrite Ec, Hc, dot_sum_eq by (rewrite LA, LB; reflexivity).
        rewrite PA, PB. cbn [fst snd]. rewrite <- (Zmod_0_l (2 ^ K)). modring. }
    exists sz, (if Nat.ltb size (length aa) then length ns else mx), (ns ++ [sz]).
    split; [|split; [|split; [|split]]].
    - intros i. unfold register_dot. cbn. rewrite LA. destruct (Hd i) as [-> ->]. rewrite (RL_length _ _ _ HE). auto.
    - eapply RL_ext; [|apply (RL_app _ _ (fun i => [E i]) ns [sz] HE)].
      + intros i. unfold register_dot. cbn [dr_entries]. f_equal. f_equal. unfold E, pd, sz, padz. rewrite !map_length, LA, LB.
        rewrite (proj1 (Hd i)). reflexivity.
      + apply RL_cons'; [exact HI|apply RL_nil'].
    - rewrite app_length. cbn [length]. clear -Hmx. destruct (Nat.ltb size (length aa)); lia.
    - apply Forall_app. split; [|constructor; auto]. eapply Forall_impl; [|exact HF1]. intros n Hn. rewrite Esz. clear -Hn. cbn beta in *. lia.
    - unfold sz. destruct (Nat.ltb_spec size (length aa)).
      + rewrite skipn_length_app. constructor; auto.
      + rewrite skipn_app. apply Forall_app. split; [exact HF2|]. replace (mx - length ns)%nat with O by lia. constructor; auto.
  Qed.
  Lemma push_dot_ok A aa B bb (d c : pid -> Z) s : 0 <= KU -> winv s ->
    RL (arith_shared KU) A aa -> RL (arith_shared KU) B bb -> length aa = length bb ->
    (forall i, inr KU (d i)) -> (forall i, inr KU (c i)) -> (forall i, c i = dot_sum KU (A i) (B i) (d i, d (prev i))) ->
    wpM (fun i => push_dot G KU (A i) (B i) (d i, d (prev i)) (Share (c i) (c (prev i)))) s (fun s' _ => winv s').
  Proof.
    intros HK (Hs & Hp & Hq1 & Hq2 & R1 & R2 & R3) HA HB Hl Hd Hc Ec. unfold push_dot. wbind. apply wpM_get.
    apply (wpM_put s (fun i => w_set_dot G (s i) (register_dot KU (w_dot G (s i)) (A i) (B i) (d i, d (prev i)) (Share (c i) (c (prev i)))))).
    do 4 (split; [assumption|]). split; [exact R1|]. split; [exact R2|]. cbn. apply (register_dot_ok KU _ A aa B bb); auto.
  Qed.
  Lemma dot_sum_ok K A aa B bb d : 0 <= K -> RL (arith_shared K) A aa -> RL (arith_shared K) B bb ->
    asum K (fun i => dot_sum K (A i) (B i) (d i, d (prev i))) (dotp aa bb mod 2 ^ K).
  Proof using.
    intros HK HA HB. unfold dot_sum. cbn [fst snd].
    exact (fold_dot_ok K A aa HK HA B bb (fun i => rsub K (d i) (d (prev i))) 0 HB (zero_asum K d HK)).
  Qed.
  Lemma fst_combine {A B} (a : list A) (b : list B) : length a = length b -> map fst (combine a b) = a.
  Proof using. revert b. induction a as [|x a IH]; intros [|y b] Hl; try discriminate; [reflexivity|]. injection Hl as Hl. cbn. rewrite IH; auto. Qed.
  Lemma snd_combine {A B} (a : list A) (b : list B) : length a = length b -> map snd (combine a b) = b.
  Proof using. revert b. induction a as [|x a IH]; intros [|y b] Hl; try discriminate; [reflexivity|]. injection Hl as Hl. cbn. rewrite IH; auto. Qed.

  Lemma aby_dot_ok A aa B bb s : In KU widths -> winv s -> RL (arith_shared KU) A aa -> RL (arith_shared KU) B bb -> length aa = length bb ->
    wpM (fun i => aby_dot G i KU (A i) (B i)) s (fun s' W => winv s' /\ arith_shared KU W (dotp aa bb mod 2 ^ KU)).
  Proof.
    intros HK Hs HA HB Hl. assert (HK0 : 0 <= KU) by (apply in_widths_pos in HK; lia). unfold aby_dot. wbind.
    eapply wpM_mono; [|apply gen_12_ok; eassumption]. intros s1 r (Hs1 & d & Hd & Hr).
    pose (c := fun i => dot_sum KU (A i) (B i) (d i, d (prev i))).
    assert (Hc : asum KU c (dotp aa bb mod 2 ^ KU)) by (apply dot_sum_ok; auto).
    apply (wpM_ext (fun i => bindM (liftM (send_and_receive_value i KU (c i))) (fun cb => 
       bindM (push_dot G KU (A i) (B i) (d i, d (prev i)) (Share (c i) cb)) (fun _ => retM (Share (c i) cb))))).
    { intros i. rewrite Hr, fst_combine, snd_combine by (rewrite (RL_length _ _ _ HA), (RL_length _ _ _ HB); exact Hl). reflexivity. }
    wbind. apply wpM_lift. apply wp_sar_value; [exact HK|apply Hc|]. wbind.
    eapply wpM_mono; [|apply (push_dot_ok A aa B bb d c s1); auto; apply Hc].
    intros s2 ? Hs2. apply wpM_ret. split; [exact Hs2|]. apply asum_rep, Hc.
  Qed.

  Definition dotl (K : Z) (Y : pid -> list share * list share * (Z * Z) * Z) (z : Z) : Prop :=
    exists A aa B bb d c, RL (arith_shared K) A aa /\ RL (arith_shared K) B bb /\ length aa = length bb /\ (forall i, inr K (d i)) /\ asum K c z /\
      (forall i, c i = dot_sum K (A i) (B i) (d i, d (prev i))) /\
      (forall i, Y i = (A i, B i, (d i, d (prev i)), c i)).
  Lemma dotl_cols K L zs : RL (dotl K) L zs -> RL (asum K) (fun i => map snd (L i)) zs.
  Proof using.
    intros HL. rewrite <- (map_id zs). apply (RL_map (dotl K) (asum K) (fun _ => snd) (fun z => z)); [|exact HL].
    intros Y z (A & a & B & b & d & c & HA & HB & Hl & Hd & Hc & Ec & EY). destruct Hc as [H1 H2].
    split; [intros i; rewrite EY; apply H1|]. rewrite !EY. exact H2.
  Qed.
  Lemma dotl_out K L zs : RL (dotl K) L zs ->
    RL (arith_shared K) (fun i => map2 (fun t cb => Share (snd t) cb) (L i) (map snd (L (prev i)))) zs.
  Proof using.
    intros HL. pose proof (RL_rep_a _ _ _ (dotl_cols _ _ _ HL)) as E. eapply RL_ext; [|exact E].
    intros i. cbn beta. generalize (map snd (L (prev i))). induction (L i) as [|t l IH]; intros [|b l']; cbn; try reflexivity. rewrite IH. reflexivity.
  Qed.
  Lemma dotl_reg L zs : 0 <= KU -> RL (dotl KU) L zs -> forall s, winv s ->
    wpM (fun i => mapM2 (fun t cb => let '(x, y, r, ca) := t in push_dot G KU x y r (Share ca cb)) (L i) (map snd (L (prev i)))) s
      (fun s' _ => winv s').
  Proof.
    intros HK. induction 1 as [X HX|X Y X0 z zs HX (A & a & B & b & d & c & HA & HB & Hl & Hd & Hc & Ec & EY) HR IH]; intros s Hs.
    - apply (wpM_ext (fun _ => retM [])). { intros i. rewrite HX. reflexivity. } apply wpM_ret. exact Hs.
    - apply (wpM_ext (fun i => bindM (push_dot G KU (A i) (B i) (d i, d (prev i)) (Share (c i) (c (prev i)))) (fun b =>
         bindM (mapM2 (fun t cb => let '(x, y, r, ca) := t in push_dot G KU x y r (Share ca cb)) (X0 i) (map snd (X0 (prev i)))) (fun bs => retM (b :: bs))))).
      { intros i. rewrite !HX, !EY. reflexivity. }
      wbind. eapply wpM_mono; [|apply (push_dot_ok A a B b d c s); auto; apply Hc]. intros s1 ? Hs1.
      wbind. eapply wpM_mono; [|apply IH, Hs1]. intros s2 ? Hs2. apply wpM_ret. exact Hs2.
  Qed.
  Definition samelen {A B} (R : (pid -> A) -> B -> Prop) (X : pid -> list A * list A) (p : list B * list B) : Prop :=
    RL R (fun i => fst (X i)) (fst p) /\ RL R (fun i => snd (X i)) (snd p) /\ length (fst p) = length (snd p).
  Lemma aby_dot_many_ok A aas B bbs s : In KU widths -> winv s ->
    RL (RL (arith_shared KU)) A aas -> RL (RL (arith_shared KU)) B bbs -> Forall2 (fun a b => length a = length b) aas bbs ->
    wpM (fun i => aby_dot_many G i KU (A i) (B i)) s
      (fun s' W => winv s' /\ RL (arith_shared KU) W (map2 (fun a b => dotp a b mod 2 ^ KU) aas bbs)).
  Proof.
    intros HK Hs HA HB Hl. assert (HK0 : 0 <= KU) by (apply in_widths_pos in HK; lia). unfold aby_dot_many. wbind.
    assert (HM : wpM (fun i => mapM2 (fun x y => bindM (gen_12 G KU) (fun r => retM (map fst (combine x y), map snd (combine x y), r, dot_sum KU x y r))) (A i) (B i)) s
      (fun s' L => winv s' /\ RL (dotl KU) L (map2 (fun a b => dotp a b mod 2 ^ KU) aas bbs))).
    { clear -HA HB Hl HK0 Hs. revert A B s Hs HA HB. induction Hl as [|a b aas bbs Hl Hls IH]; intros A B s Hs HA HB.
      - apply (wpM_ext (fun _ => retM [])). { intros i. rewrite (RL_inv_nil _ _ HA i). reflexivity. }
        apply wpM_ret. split; [exact Hs|apply RL_nil'].
      - apply RL_inv_cons in HA. destruct HA as (A1 & A0 & EA & HA1 & HA0).
        apply RL_inv_cons in HB. destruct HB as (B1 & B0 & EB & HB1 & HB0).
        pose (f := fun x y => bindM (gen_12 G KU) (fun r => retM (map fst (combine x y), map snd (combine x y), r, dot_sum KU x y r))).
        apply (wpM_ext (fun i => bindM (f (A1 i) (B1 i)) (fun b => bindM (mapM2 f (A0 i) (B0 i)) (fun bs => retM (b :: bs))))).
        { intros i. rewrite EA, EB. reflexivity. }
        wbind. unfold f at 1. wbind. eapply wpM_mono; [|apply gen_12_ok; eassumption]. intros s1 r (Hs1 & d & Hd & Hr).
        apply wpM_ret. wbind. eapply wpM_mono; [|apply (IH A0 B0 s1 Hs1 HA0 HB0)]. intros s2 L (Hs2 & HL).
        apply wpM_ret. split; [exact Hs2|]. cbn [map2]. apply RL_cons'; [|exact HL].
        exists A1, a, B1, b, d, (fun i => dot_sum KU (A1 i) (B1 i) (d i, d (prev i))).
        split; [exact HA1|]. split; [exact HB1|]. split; [exact Hl|]. split; [exact Hd|]. split; [apply dot_sum_ok; auto|]. split; [reflexivity|].
        intros i. rewrite Hr, fst_combine, snd_combine by (rewrite (RL_length _ _ _ HA1), (RL_length _ _ _ HB1); exact Hl). reflexivity. }
    eapply wpM_mono; [|exact HM]. intros s1 L (Hs1 & HL). wbind. apply wpM_lift.
    pose proof (dotl_cols _ _ _ HL) as HC.
    apply (wp_sar_vec KU _ (length (map2 (fun a b => dotp a b mod 2 ^ KU) aas bbs))); [exact HK|exact (RL_asum_Forall _ _ _ HC)|exact (RL_length _ _ _ HC)|].
    wbind. eapply wpM_mono; [|apply (dotl_reg L _ HK0 HL s1 Hs1)].
    intros s2 ? Hs2. apply wpM_ret. split; [exact Hs2|]. exact (dotl_out _ _ _ HL).
  Qed.

  (** ** Gates *)
  Lemma jsh_b K W v d z : 0 <= K -> jsh beta_b K W v -> inr K v -> (forall i, inr K (d i)) ->
    z = Z.lxor v (Z.lxor (Z.lxor (d P0) (d P1)) (d P2)) ->
    bin3 K (fun i => t_xor (W i) (Share3 (d i) (d (prev i)) 0)) z.
  Proof using.
    intros HK (a1 & ap & R1 & R2 & W0 & W1 & W2) Hv Hd ->. split; [|split].
    - assert (inr K 0) by (unfold inr; split; [lia|apply Z.pow_pos_nonneg; lia]).
      assert (inr K (beta_b a1 ap v)) by (apply inr_lxor; auto).
      intros [| |]; rewrite ?W0, ?W1, ?W2; cbn; unfold rxor; split; apply inr_lxor; auto.
    - intros [| |]; cbn [prev]; rewrite ?W0, ?W1, ?W2; split; reflexivity.
    - rewrite W0, W1, W2. cbn. unfold beta_b, rxor. rewrite Z.lxor_0_r. bitsolve.
  Qed.
  Lemma jsh_a K W v d z : 0 <= K -> jsh (beta_a K) K W v ->
    z = (v + (d P0 + d P1 + d P2)) mod 2 ^ K ->
    arith3 K (fun i => t_sub K (W i) (Share3 (d i) (d (prev i)) 0)) z.
  Proof using.
    intros HK (a1 & ap & R1 & R2 & W0 & W1 & W2) ->. split; [|split].
    - intros i. split; apply (inr_mod K _ HK).
    - intros [| |]; cbn [prev]; rewrite ?W0, ?W1, ?W2; split; reflexivity.
    - rewrite W0, W1, W2. cbn. unfold beta_a. modring.
  Qed.

  Definition and_rowv (delta : Z) (p q : Z * Z) : Z :=
    Z.lxor (Z.lxor (Z.lxor (Z.land (fst p) (snd q)) (Z.land (fst q) (snd p))) delta) (Z.land (snd p) (snd q)).
  Lemma and_rowv_val p q : and_rowv (Z.land (fst p) (fst q)) p q = Z.land (val_b p) (val_b q).
  Proof using. unfold and_rowv, val_b. bitsolve. Qed.
  Lemma and_row_ok K A p B q D delta d : 0 <= K -> bin3' K A p -> bin3' K B q -> bin_shared K D delta -> (forall i, inr K (d i)) ->
    exists v, rowrel rxor K (fun i => and_row (A i) (B i) (D i) (d i, d (prev i))) v /\ inr K v /\
      and_rowv delta p q = Z.lxor v (Z.lxor (Z.lxor (d P0) (d P1)) (d P2)).
  Proof using.
    intros HK ((A1 & A2 & A3) & Ar & A4) ((B1 & B2 & B3) & Br & B4) (D1 & D2 & D3) Hd.
    cbn [t_ab sa sb] in *.
    pose (y := fun i => rxor (rxor (rxor (rand_ (ta (A i)) (snd q)) (rand_ (ta (B i)) (snd p))) (sa (D i))) (d i)).
    assert (Hy : forall i, inr K (y i)).
    { intros i. unfold y, rxor, rand_. repeat apply inr_lxor; try apply inr_land; auto. }
    assert (Hv : inr K (rxor (rxor (rxor (y P0) (y P1)) (y P2)) (Z.land (snd p) (snd q)))).
    { unfold rxor. repeat apply inr_lxor; try apply inr_land; auto. }
    eexists. split; [|split; [exact Hv|]].
    - exists y, (Z.land (snd p) (snd q)). split; [exact Hy|]. split; [|split; [reflexivity|exact Hv]].
      intros i. unfold and_row, y. rewrite A2, B2, D2, !A4, !B4. reflexivity.
    - unfold y, rxor, rand_, and_rowv. rewrite A3, B3, D3. bitsolve.
  Qed.

  Lemma and_post_ok K A p B q D s : In K widths -> winv s -> bin3' K A p -> bin3' K B q -> bin_shared K D (Z.land (fst p) (fst q)) ->
    wpM (fun i => and_post G i K (A i) (B i) (D i)) s (fun s' W => winv s' /\ bin3 K W (Z.land (val_b p) (val_b q))).
  Proof.
    intros HK Hs HA HB HD. assert (HK0 : 0 <= K) by (apply in_widths_pos in HK; lia). unfold and_post. wbind.
    eapply wpM_mono; [|apply gen_12_ok; eassumption]. intros s1 r (Hs1 & d & Hd & Hr).
    destruct (and_row_ok K A p B q D _ d HK0 HA HB HD Hd) as (v & Rv & Hv & Ev).
    pose (Y := fun i => and_row (A i) (B i) (D i) (d i, d (prev i))).
    apply (wpM_ext (fun i => bindM (post_gen G i rxor (jshare_gen G i beta_b K) K (fst (fst (Y i))) (snd (fst (Y i))) (snd (Y i)))
       (fun sh => retM (t_xor sh (Share3 (d i) (d (prev i)) 0))))).
    { intros i. rewrite Hr. reflexivity. }
    wbind. eapply wpM_mono; [|apply (post_gen_ok rxor beta_b K Y v s1 HK (good_beta_b K HK0) Rv Hs1)].
    intros s2 W (Hs2 & HW). apply wpM_ret. split; [exact Hs2|]. eapply jsh_b; eauto. rewrite <- and_rowv_val. exact Ev.
  Qed.
  Lemma w_andg_ok K A a B b s : In K widths -> winv s -> bin3 K A a -> bin3 K B b ->
    wpM (fun i => w_andg G i K (A i) (B i)) s (fun s' W => winv s' /\ bin3 K W (Z.land a b)).
  Proof.
    intros HK Hs HA HB. apply bin3_split in HA. destruct HA as (p & HA & <-). apply bin3_split in HB. destruct HB as (q & HB & <-).
    unfold w_andg. wbind. eapply wpM_mono; [|apply (aby_and_ok K (fun i => t_ab (A i)) (fst p) (fun i => t_ab (B i)) (fst q)); auto; [apply HA|apply HB]].
    intros s1 D (Hs1 & HD). apply and_post_ok; auto.
  Qed.

  (** Vectors: a row with its randomness; the relation carries the shared value and the final value. *)
  Definition rowb (K : Z) (Y : pid -> Z * Z * Z * (Z * Z)) (vz : Z * Z) : Prop :=
    exists d, (forall i, inr K (d i)) /\ (forall i, snd (Y i) = (d i, d (prev i))) /\ rowrel rxor K (fun i => fst (Y i)) (fst vz) /\
      inr K (fst vz) /\ snd vz = Z.lxor (fst vz) (Z.lxor (Z.lxor (d P0) (d P1)) (d P2)).
  Definition rowa (K : Z) (Y : pid -> Z * Z * Z * (Z * Z)) (vz : Z * Z) : Prop :=
    exists d, (forall i, snd (Y i) = (d i, d (prev i))) /\ rowrel (radd K) K (fun i => fst (Y i)) (fst vz) /\
      snd vz = (fst vz + (d P0 + d P1 + d P2)) mod 2 ^ K.
  Lemma rows_out_b K L vzs W : 0 <= K -> RL (rowb K) L vzs -> RL (jsh beta_b K) W (map fst vzs) ->
    RL (bin3 K) (fun i => map2 (fun sh r => t_xor sh (Share3 (fst r) (snd r) 0)) (W i) (map snd (L i))) (map snd vzs).
  Proof using.
    intros HK HL. revert W. induction HL as [L HX|L Y L0 vz vzs HX (d & Hd & EY & Hr & Hv & Ez) HL IH]; intros W HW.
    - apply RL_nil. intros i. rewrite HX, (RL_inv_nil _ _ HW i). reflexivity.
    - cbn [map] in HW. apply RL_inv_cons in HW. destruct HW as (W1 & W0 & EW & HW1 & HW0).
      eapply (RL_cons _ _ (fun i => t_xor (W1 i) (Share3 (d i) (d (prev i)) 0))); [| |apply (IH W0 HW0)].
      + intros i. rewrite HX, EW. cbn. rewrite EY. reflexivity.
      + eapply jsh_b; eauto.
  Qed.
  Lemma rows_out_a K L vzs W : 0 <= K -> RL (rowa K) L vzs -> RL (jsh (beta_a K) K) W (map fst vzs) ->
    RL (arith3 K) (fun i => map2 (fun sh r => t_sub K sh (Share3 (fst r) (snd r) 0)) (W i) (map snd (L i))) (map snd vzs).
  Proof using.
    intros HK HL. revert W. induction HL as [L HX|L Y L0 vz vzs HX (d & EY & Hr & Ez) HL IH]; intros W HW.
    - apply RL_nil. intros i. rewrite HX, (RL_inv_nil _ _ HW i). reflexivity.
    - cbn [map] in HW. apply RL_inv_cons in HW. destruct HW as (W1 & W0 & EW & HW1 & HW0).
      eapply (RL_cons _ _ (fun i => t_sub K (W1 i) (Share3 (d i) (d (prev i)) 0))); [| |apply (IH W0 HW0)].
      + intros i. rewrite HX, EW. cbn. rewrite EY. reflexivity.
      + eapply jsh_a; eauto.
  Qed.
  Lemma RL_combine {A A' B B'} (R : (pid -> A) -> B -> Prop) (R' : (pid -> A') -> B' -> Prop) X xs Y ys :
    RL R X xs -> RL R' Y ys ->
    RL (fun Z z => R (fun i => fst (Z i)) (fst z) /\ R' (fun i => snd (Z i)) (snd z)) (fun i => combine (X i) (Y i)) (combine xs ys).
  Proof using.
    intros HX. revert Y ys. induction HX as [X HX|X Y0 X0 y ys0 HX HY HR IH]; intros Y ys HYs.
    - apply RL_nil. intros i. rewrite HX. reflexivity.
    - destruct HYs as [Y HY'|Y Z0 Z1 z zs HY' HZ HZs].
      + apply RL_nil. intros i. rewrite HX, HY'. reflexivity.
      + cbn [combine]. eapply (RL_cons _ _ (fun i => (Y0 i, Z0 i))); [|split; [exact HY|exact HZ]|apply IH, HZs].
        intros i. rewrite HX, HY'. reflexivity.
  Qed.

  Lemma and_post_many_ok K A ps B qs D s : In K widths -> winv s -> RL (bin3' K) A ps -> RL (bin3' K) B qs -> length ps = length qs ->
    RL (bin_shared K) D (map2 (fun p q => Z.land (fst p) (fst q)) ps qs) ->
    wpM (fun i => and_post_many G i K (A i) (B i) (D i)) s
      (fun s' W => winv s' /\ RL (bin3 K) W (map2 (fun p q => Z.land (val_b p) (val_b q)) ps qs)).
  Proof.
    intros HK Hs HA HB Hl HD. assert (HK0 : 0 <= K) by (apply in_widths_pos in HK; lia). unfold and_post_many. wbind.
    assert (HE : forall zs, zs = map2 (fun de pq => and_rowv de (fst pq) (snd pq)) (map2 (fun p q => Z.land (fst p) (fst q)) ps qs) (combine ps qs) ->
      zs = map2 (fun p q => Z.land (val_b p) (val_b q)) ps qs /\ length zs = length ps).
    { intros zs ->. clear -Hl. revert qs Hl. induction ps as [|p ps IH]; intros [|q qs] Hl; try discriminate; [split; reflexivity|].
      injection Hl as Hl. cbn. destruct (IH qs Hl) as [E1 E2]. rewrite E1, and_rowv_val. rewrite E1 in E2. rewrite E2. auto. }
    eapply wpM_mono; [|apply (wpM_mapM2 winv (bin_shared K) (fun Z z => bin3' K (fun i => fst (Z i)) (fst z) /\ bin3' K (fun i => snd (Z i)) (snd z))
       (fun Y z => exists vz, rowb K Y vz /\ snd vz = z)
       (fun _ d ab => bindM (gen_12 G K) (fun r => retM (and_row (fst ab) (snd ab) d r, r))) (fun de pq => and_rowv de (fst pq) (snd pq)));
       [|exact Hs|exact HD|exact (RL_combine _ _ _ _ _ _ HA HB)]].
    - cbn beta. intros s1 L (Hs1 & HL). destruct (HE _ eq_refl) as [EE EL]. rewrite EE in HL.
      destruct (RL_split _ (rowb K) snd _ _ (fun Y y h => h) HL) as (vzs & HV & Ev).
      assert (HR : RL (rowrel rxor K) (fun i => map fst (L i)) (map fst vzs)).
      { apply (RL_map (rowb K) (rowrel rxor K) (fun _ => fst) fst); [|exact HV]. intros Y y (d & _ & _ & Hr & _). exact Hr. }
      assert (LL : forall i, length (A i) = length (map fst vzs)).
      { intros i. rewrite (RL_length _ _ _ HA), map_length, <- EL, EE, Ev, map_length. reflexivity. }
      apply (wpM_ext (fun i => bindM (post_many_gen G i rxor (jshare_many_gen G i beta_b K) K (map fst (L i)) (length (map fst vzs)))
         (fun shs => retM (map2 (fun sh r => t_xor sh (Share3 (fst r) (snd r) 0)) shs (map snd (L i)))))).
      { intros i. rewrite LL. reflexivity. }
      wbind. eapply wpM_mono; [|apply (post_many_gen_ok rxor beta_b K _ _ s1 ac_rxor HK (good_beta_b K HK0) HR Hs1)].
      intros s2 W (Hs2 & HW). apply wpM_ret. split; [exact Hs2|]. rewrite Ev. apply rows_out_b; auto.
    - cbn beta. intros s0 D0 de Z0 [p q] Hs0 HD0 [HZ1 HZ2]. wbind. cbn [fst snd] in *.
      eapply wpM_mono; [|apply gen_12_ok; eassumption]. intros s1 r (Hs1 & d & Hd & Hr). apply wpM_ret. split; [exact Hs1|].
      destruct (and_row_ok K _ p _ q D0 _ d HK0 HZ1 HZ2 HD0 Hd) as (v & Rv & Hv & Ev).
      exists (v, and_rowv de p q). split; [|reflexivity]. exists d. split; [exact Hd|]. split; [intros i; cbn; apply Hr|].
      split; [|split; [exact Hv|exact Ev]]. cbn [fst snd]. destruct Rv as (y & z & Y1 & Y2 & Y3). exists y, z. split; [exact Y1|]. split; [|exact Y3].
      intros i. rewrite Hr, <- Y2. reflexivity.
  Qed.
  Lemma map2_map_both {A B C D E} (f : C -> D -> E) (g : A -> C) (h : B -> D) l l' : map2 f (map g l) (map h l') = map2 (fun a b => f (g a) (h b)) l l'.
  Proof using. revert l'. induction l as [|x l IH]; intros [|y l']; cbn; try reflexivity. rewrite IH. reflexivity. Qed.
  Lemma RL_tab_b K A ps : RL (bin3' K) A ps -> RL (bin_shared K) (fun i => map t_ab (A i)) (map fst ps).
  Proof using. apply (RL_map (bin3' K) (bin_shared K) (fun _ => t_ab) fst). intros Y y HY. apply HY. Qed.
  Lemma RL_tab_a K A ps : RL (arith3' K) A ps -> RL (arith_shared K) (fun i => map t_ab (A i)) (map fst ps).
  Proof using. apply (RL_map (arith3' K) (arith_shared K) (fun _ => t_ab) fst). intros Y y HY. apply HY. Qed.
  Lemma w_and_many_ok K A aa B bb s : In K widths -> winv s -> RL (bin3 K) A aa -> RL (bin3 K) B bb -> length aa = length bb ->
    wpM (fun i => w_and_many G i K (A i) (B i)) s (fun s' W => winv s' /\ RL (bin3 K) W (map2 Z.land aa bb)).
  Proof.
    intros HK Hs HA HB Hl.
    destruct (RL_split _ (bin3' K) val_b _ _ (bin3_split K) HA) as (ps & HA' & ->).
    destruct (RL_split _ (bin3' K) val_b _ _ (bin3_split K) HB) as (qs & HB' & ->). rewrite !map_length in Hl.
    unfold w_and_many.
    apply (wpM_ext (fun i => bindM (aby_and_many G i K (map t_ab (A i)) (map t_ab (B i))) (fun de => and_post_many G i K (A i) (B i) de))).
    { intros i. rewrite (RL_length _ _ _ HA'), (RL_length _ _ _ HB'), Hl, Nat.eqb_refl. reflexivity. }
    wbind. eapply wpM_mono; [|apply (aby_and_many_ok K (fun i => map t_ab (A i)) (map fst ps) (fun i => map t_ab (B i)) (map fst qs)); auto; apply RL_tab_b; assumption].
    intros s1 D (Hs1 & HD). rewrite map2_map_both in HD |- *. apply and_post_many_ok; auto.
  Qed.
End Proofs.
