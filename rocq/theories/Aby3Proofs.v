(** Correctness of the semi-honest ABY3 operations. *)
From Verif Require Import Base Ring RingProofs Prog Sched Rng Rel Net BinTrait BitArith BinProofs AddProofs Iris IrisSpec IrisProofs Protocol MpcSpec Aby3 ShareSpec.
From Coq Require Import ZifyBool ZifyNat Btauto.

(** Solve equations modulo m between polynomial expressions with nested reductions. *)
Definition eqm (m a b : Z) : Prop := a mod m = b mod m.
Lemma eqm_refl m a : eqm m a a. Proof. reflexivity. Qed.
Lemma eqm_add m a a' b b' : eqm m a a' -> eqm m b b' -> eqm m (a + b) (a' + b').
Proof. unfold eqm. intros Ha Hb. rewrite (Zplus_mod a b), Ha, Hb, <- Zplus_mod. reflexivity. Qed.
Lemma eqm_sub m a a' b b' : eqm m a a' -> eqm m b b' -> eqm m (a - b) (a' - b').
Proof. unfold eqm. intros Ha Hb. rewrite (Zminus_mod a b), Ha, Hb, <- Zminus_mod. reflexivity. Qed.
Lemma eqm_mul m a a' b b' : eqm m a a' -> eqm m b b' -> eqm m (a * b) (a' * b').
Proof. unfold eqm. intros Ha Hb. rewrite (Zmult_mod a b), Ha, Hb, <- Zmult_mod. reflexivity. Qed.
Lemma eqm_opp m a a' : eqm m a a' -> eqm m (- a) (- a').
Proof. intros H. rewrite <- (Z.sub_0_l a), <- (Z.sub_0_l a'). apply eqm_sub; [apply eqm_refl|exact H]. Qed.
Lemma eqm_mod m a a' : eqm m a a' -> eqm m (a mod m) a'.
Proof. unfold eqm. intros H. rewrite Zmod_mod. exact H. Qed.
Ltac strip m t :=
  lazymatch t with
  | ?a + ?b => let p := strip m a in let q := strip m b in constr:(eqm_add m _ _ _ _ p q)
  | ?a - ?b => let p := strip m a in let q := strip m b in constr:(eqm_sub m _ _ _ _ p q)
  | ?a * ?b => let p := strip m a in let q := strip m b in constr:(eqm_mul m _ _ _ _ p q)
  | - ?a => let p := strip m a in constr:(eqm_opp m _ _ p)
  | ?a mod ?m' =>
      let t := match constr:(Set) with
               | _ => let _ := match constr:(Set) with _ => constr_eq m m' end in
                      let p := strip m a in constr:(eqm_mod m _ _ p)
               | _ => constr:(eqm_refl m t) end in t
  | _ => constr:(eqm_refl m t)
  end.
Ltac modring :=
  unfold radd, rsub, rmul, rneg, norm;
  lazymatch goal with
  | |- ?a mod ?m = ?b mod ?m =>
      let p := strip m a in let q := strip m b in
      etransitivity; [exact p|symmetry; etransitivity; [exact q|symmetry]];
      apply (f_equal (fun v => v mod m)); ring
  end.
Ltac bitsolve := apply Z.bits_inj'; intros ? ?; repeat (rewrite Z.lxor_spec || rewrite Z.land_spec || rewrite Z.lor_spec);
                 repeat match goal with |- context [Z.testbit ?a ?n] => generalize (Z.testbit a n); intro end; btauto.

Lemma norm_norm K x : norm K (norm K x) = norm K x.
Proof. unfold norm. apply Zmod_mod. Qed.
Lemma inr_mod K x : 0 <= K -> inr K (x mod 2 ^ K).
Proof. apply inr_norm. Qed.

(** Additive / xor sums held by the three parties, before resharing. *)
Definition asum (K : Z) (W : pid -> Z) (z : Z) : Prop :=
  (forall i, inr K (W i)) /\ z = (W P0 + W P1 + W P2) mod 2 ^ K.
Definition bsum (K : Z) (W : pid -> Z) (z : Z) : Prop :=
  (forall i, inr K (W i)) /\ z = Z.lxor (Z.lxor (W P0) (W P1)) (W P2).

Lemma arel_range K X x : 0 <= K -> arith_shared K X x -> inr K x.
Proof. intros HK (_ & _ & ->). apply inr_mod, HK. Qed.
Lemma brel_range K X x : 0 <= K -> bin_shared K X x -> inr K x.
Proof. intros HK (H & _ & ->). repeat apply inr_lxor; auto. Qed.
Lemma arel_ext K X X' x : (forall i, X i = X' i) -> arith_shared K X x -> arith_shared K X' x.
Proof. intros E (H1 & H2 & H3). repeat split; intros; rewrite <- ?E; auto; apply H1. Qed.
Lemma brel_ext K X X' x : (forall i, X i = X' i) -> bin_shared K X x -> bin_shared K X' x.
Proof. intros E (H1 & H2 & H3). repeat split; intros; rewrite <- ?E; auto; apply H1. Qed.

(** ** Linear operations *)
Section Linear.
  Variable K : Z.
  Hypothesis HK : 0 <= K.

  Lemma sh_add_ok X x Y y : arith_shared K X x -> arith_shared K Y y ->
    arith_shared K (fun i => sh_add K (X i) (Y i)) ((x + y) mod 2 ^ K).
  Proof.
    intros (A1 & A2 & A3) (B1 & B2 & B3). split; [|split]; intros; cbn [sa sb sh_add].
    1: apply (inr_mod K _ HK). { rewrite A2, B2. reflexivity. } subst x y. modring.
  Qed.
  Lemma sh_sub_ok X x Y y : arith_shared K X x -> arith_shared K Y y ->
    arith_shared K (fun i => sh_sub K (X i) (Y i)) ((x - y) mod 2 ^ K).
  Proof.
    intros (A1 & A2 & A3) (B1 & B2 & B3). split; [|split]; intros; cbn [sa sb sh_sub].
    1: apply (inr_mod K _ HK). { rewrite A2, B2. reflexivity. } subst x y. modring.
  Qed.
  Lemma sh_neg_ok X x : arith_shared K X x -> arith_shared K (fun i => sh_neg K (X i)) ((- x) mod 2 ^ K).
  Proof.
    intros (A1 & A2 & A3). split; [|split]; intros; cbn [sa sb sh_neg].
    1: apply (inr_mod K _ HK). { rewrite A2. reflexivity. } subst x.
    modring.
  Qed.
  Lemma sh_mulc_ok X x c : arith_shared K X x -> arith_shared K (fun i => sh_mulc K (X i) c) ((x * c) mod 2 ^ K).
  Proof.
    intros (A1 & A2 & A3). split; [|split]; intros; cbn [sa sb sh_mulc].
    1: apply (inr_mod K _ HK). { rewrite A2. reflexivity. } subst x. modring.
  Qed.
  Lemma sh_add_const_ok X x c : arith_shared K X x -> arith_shared K (fun i => sh_add_const i K (X i) c) ((x + c) mod 2 ^ K).
  Proof.
    intros (A1 & A2 & A3). split; [|split].
    1: intros i; destruct i; cbn [sa sb sh_add_const]; try apply A1; apply (inr_mod K _ HK).
    - intros i; destruct i; cbn [sa sb sh_add_const prev]; rewrite A2; reflexivity.
    - cbn [sa sb sh_add_const]. subst x. modring.
  Qed.
  Lemma sh_sub_const_ok X x c : arith_shared K X x -> arith_shared K (fun i => sh_sub_const i K (X i) c) ((x - c) mod 2 ^ K).
  Proof.
    intros (A1 & A2 & A3). split; [|split].
    1: intros i; destruct i; cbn [sa sb sh_sub_const]; try apply A1; apply (inr_mod K _ HK).
    - intros i; destruct i; cbn [sa sb sh_sub_const prev]; rewrite A2; reflexivity.
    - cbn [sa sb sh_sub_const]. subst x. modring.
  Qed.
  Lemma szero_arel : arith_shared K (fun _ => szero) 0.
  Proof. assert (0 < 2 ^ K) by (apply Z.pow_pos_nonneg; lia). repeat split; intros; cbn; lia. Qed.
  Lemma szero_brel : bin_shared K (fun _ => szero) 0.
  Proof. assert (0 < 2 ^ K) by (apply Z.pow_pos_nonneg; lia). repeat split; intros; cbn; lia. Qed.

  Lemma sh_xor_ok X x Y y : bin_shared K X x -> bin_shared K Y y ->
    bin_shared K (fun i => sh_xor (X i) (Y i)) (Z.lxor x y).
  Proof.
    intros (A1 & A2 & A3) (B1 & B2 & B3). split; [|split]; intros; cbn [sa sb sh_xor].
    1: unfold rxor; apply inr_lxor; auto. { rewrite A2, B2. reflexivity. } subst x y. unfold rxor. bitsolve.
  Qed.
  Lemma sh_andc_ok X x c : inr K c -> bin_shared K X x -> bin_shared K (fun i => sh_andc (X i) c) (Z.land x c).
  Proof.
    intros Hc (A1 & A2 & A3). split; [|split]; intros; cbn [sa sb sh_andc].
    1: unfold rand_; apply inr_land; auto. { rewrite A2. reflexivity. } subst x. unfold rand_. bitsolve.
  Qed.
  Lemma sh_xor_const_ok X x c : inr K c -> bin_shared K X x -> bin_shared K (fun i => sh_xor_const i (X i) c) (Z.lxor x c).
  Proof.
    intros Hc (A1 & A2 & A3). split; [|split].
    1: intros i; destruct i; cbn [sa sb sh_xor_const]; try apply A1; unfold rxor; apply inr_lxor; auto.
    - intros i; destruct i; cbn [sa sb sh_xor_const prev]; rewrite A2; reflexivity.
    - cbn [sa sb sh_xor_const]. subst x. unfold rxor. bitsolve.
  Qed.
  Lemma rnot_spec a n : inr K a -> 0 <= n < K -> Z.testbit (rnot K a) n = negb (Z.testbit a n).
  Proof.
    intros Ha Hn. unfold rnot. replace (2 ^ K - 1 - a) with (Z.lnot a mod 2 ^ K).
    - rewrite Z.mod_pow2_bits_low by lia. apply Z.lnot_spec. lia.
    - unfold inr in Ha. unfold Z.lnot. symmetry. apply (Zmod_unique _ _ (-1)); lia.
  Qed.
  Lemma rnot_range a : inr K a -> inr K (rnot K a).
  Proof. unfold inr, rnot. lia. Qed.
  Lemma sh_not_ok X x : bin_shared K X x -> bin_shared K (fun i => sh_not K (X i)) (rnot K x).
  Proof.
    intros (A1 & A2 & A3). split; [|split]; intros; cbn [sa sb sh_not].
    1: apply rnot_range; auto. { rewrite A2. reflexivity. }
    assert (Hx : inr K x) by (subst x; repeat apply inr_lxor; auto).
    apply (inr_bits_eq K); auto using rnot_range.
    { repeat apply inr_lxor; auto using rnot_range. }
    intros n Hn. rewrite !Z.lxor_spec, !rnot_spec by auto. subst x. rewrite !Z.lxor_spec.
    destruct (Z.testbit (sa (X P0)) n), (Z.testbit (sa (X P1)) n), (Z.testbit (sa (X P2)) n); reflexivity.
  Qed.
End Linear.

Lemma rshl_lxor K a b n : 0 < K -> rshl K (Z.lxor a b) n = Z.lxor (rshl K a n) (rshl K b n).
Proof.
  intros HK. unfold rshl. destruct (K =? 1).
  - destruct (n =? 0); reflexivity.
  - rewrite Z.shiftl_lxor. apply Z.bits_inj'; intros m Hm. rewrite Z.lxor_spec.
    destruct (Z.lt_ge_cases m K).
    + rewrite !Z.mod_pow2_bits_low by lia. apply Z.lxor_spec.
    + rewrite !Z.mod_pow2_bits_high by lia. reflexivity.
Qed.
Lemma sh_shl_ok K X x n : 0 < K -> bin_shared K X x -> bin_shared K (fun i => sh_shl K (X i) n) (rshl K x n).
Proof.
  intros HK (A1 & A2 & A3). split; [|split]; intros; cbn [sa sb sh_shl].
  1: apply inr_rshl; auto. { rewrite A2. reflexivity. } subst x. rewrite !rshl_lxor by lia. reflexivity.
Qed.

(** Local products. *)
Lemma local_mul_ok K X x Y y : 0 <= K -> arith_shared K X x -> arith_shared K Y y ->
  asum K (fun i => local_mul K (X i) (Y i)) ((x * y) mod 2 ^ K).
Proof.
  intros HK (A1 & A2 & A3) (B1 & B2 & B3). split.
  - intros i. apply (inr_mod K _ HK).
  - unfold local_mul. rewrite !A2, !B2. cbn [prev]. subst x y. modring.
Qed.
Lemma local_and_ok K X x Y y : 0 <= K -> bin_shared K X x -> bin_shared K Y y ->
  bsum K (fun i => local_and (X i) (Y i)) (Z.land x y).
Proof.
  intros HK (A1 & A2 & A3) (B1 & B2 & B3). split.
  - intros i. unfold local_and. rewrite A2, B2. repeat apply inr_lxor; try apply inr_land; auto.
  - unfold local_and. rewrite !A2, !B2. cbn [prev]. subst x y. unfold rxor, rand_. bitsolve.
Qed.

(** ** Communication helpers *)
Lemma wp_sar_value K (v : pid -> Z) (Q : (pid -> Z) -> Prop) : In K widths -> (forall i, inr K (v i)) ->
  Q (fun i => v (prev i)) -> wp (fun i => send_and_receive_value i K (v i)) Q.
Proof.
  intros HK Hv HQ. unfold send_and_receive_value. apply wp_bind. apply wp_send_and_receive.
  apply (wp_ext (fun i => Ret (v (prev i)))).
  - intros i. rewrite from_to_bytes by auto. reflexivity.
  - apply wp_ret. exact HQ.
Qed.
Lemma wp_sar_iter K (l : pid -> list Z) n (Q : (pid -> list Z) -> Prop) : In K widths ->
  (forall i, Forall (inr K) (l i)) -> (forall i, length (l i) = n) ->
  Q (fun i => l (prev i)) -> wp (fun i => send_slice_and_receive_iter i K (l i)) Q.
Proof.
  intros HK Hv Hn HQ. unfold send_slice_and_receive_iter. apply wp_bind. apply wp_send_and_receive.
  apply (wp_ext (fun i => Ret (l (prev i)))).
  - intros i. rewrite (Hn i), <- (Hn (prev i)). rewrite iter_roundtrip by auto. reflexivity.
  - apply wp_ret. exact HQ.
Qed.
Lemma wp_sar_vec K (l : pid -> list Z) n (Q : (pid -> list Z) -> Prop) : In K widths ->
  (forall i, Forall (inr K) (l i)) -> (forall i, length (l i) = n) ->
  Q (fun i => l (prev i)) -> wp (fun i => send_slice_and_receive_vec i K (l i)) Q.
Proof.
  intros HK Hv Hn HQ. unfold send_slice_and_receive_vec. apply wp_bind. apply wp_send_and_receive.
  apply (wp_ext (fun i => Ret (l (prev i)))).
  - intros i. rewrite (Hn i), <- (Hn (prev i)). rewrite vec_roundtrip by auto. reflexivity.
  - apply wp_ret. exact HQ.
Qed.

Lemma RL_asum_Forall K L zs : RL (asum K) L zs -> forall i, Forall (inr K) (L i).
Proof. induction 1 as [X HX|X Y X0 y ys HX HY HR IH]; intros i; rewrite HX; constructor; [apply HY|apply IH]. Qed.
Lemma RL_bsum_Forall K L zs : RL (bsum K) L zs -> forall i, Forall (inr K) (L i).
Proof. induction 1 as [X HX|X Y X0 y ys HX HY HR IH]; intros i; rewrite HX; constructor; [apply HY|apply IH]. Qed.
Lemma RL_rep_a K L zs : RL (asum K) L zs -> RL (arith_shared K) (fun i => map2 Share (L i) (L (prev i))) zs.
Proof.
  induction 1 as [X HX|X Y X0 y ys HX HY HR IH].
  - apply RL_nil. intros i. rewrite HX. reflexivity.
  - eapply (RL_cons _ _ (fun i => Share (Y i) (Y (prev i)))); [| |exact IH].
    + intros i. rewrite !HX. reflexivity.
    + destruct HY as [H1 H2]. split; [|split]; intros; cbn [sa sb]; auto; apply H1.
Qed.
Lemma RL_rep_b K L zs : RL (bsum K) L zs -> RL (bin_shared K) (fun i => map2 Share (L i) (L (prev i))) zs.
Proof.
  induction 1 as [X HX|X Y X0 y ys HX HY HR IH].
  - apply RL_nil. intros i. rewrite HX. reflexivity.
  - eapply (RL_cons _ _ (fun i => Share (Y i) (Y (prev i)))); [| |exact IH].
    + intros i. rewrite !HX. reflexivity.
    + destruct HY as [H1 H2]. split; [|split]; intros; cbn [sa sb]; auto; apply H1.
Qed.

Section Engine.
  Variable G : rng.
  Notation prfs := (pid -> prf G).

  Lemma draw_range K s : 0 <= K -> inr K (snd (draw G K s)).
  Proof. intros HK. unfold draw. destruct (rdraw G s K). cbn. apply inr_norm, HK. Qed.

  Lemma gen_rands_ok K (s : prfs) : 0 <= K -> prf_synced s ->
    wpM (fun _ => gen_rands G K) s
      (fun s' W => prf_synced s' /\ exists d, (forall i, inr K (d i)) /\ forall i, W i = (d i, d (prev i))).
  Proof.
    intros HK Hs. unfold wpM.
    pose (D := fun i => draw G K (my_prf G (s i))).
    apply (wp_ext (fun i => Ret (Prf G (fst (D i)) (fst (D (prev i))), (snd (D i), snd (D (prev i)))))).
    { intros i. unfold gen_rands, D. rewrite (Hs i).
      destruct (draw G K (my_prf G (s i))), (draw G K (my_prf G (s (prev i)))). reflexivity. }
    apply wp_ret. split.
    - intros i. reflexivity.
    - exists (fun i => snd (D i)). split; [intros i; apply draw_range, HK|reflexivity].
  Qed.

  Lemma gen_rand_ok K (s : prfs) : 0 <= K -> prf_synced s ->
    wpM (fun _ => gen_rand G K) s (fun s' W => prf_synced s' /\ exists r, arith_shared K W r).
  Proof.
    intros HK Hs. unfold gen_rand. apply (wpM_bind (fun _ => gen_rands G K) (fun _ ab => retM (Share (fst ab) (snd ab)))).
    eapply wpM_mono; [|apply gen_rands_ok; eassumption]. intros s' W (Hs' & d & Hd & HW).
    apply wpM_ret. split; [exact Hs'|]. eexists. repeat split; intros; rewrite ?HW; cbn; try apply Hd; reflexivity.
  Qed.
  Lemma gen_rand_bin_ok K (s : prfs) : 0 <= K -> prf_synced s ->
    wpM (fun _ => gen_rand G K) s (fun s' W => prf_synced s' /\ exists r, bin_shared K W r).
  Proof.
    intros HK Hs. unfold gen_rand. apply (wpM_bind (fun _ => gen_rands G K) (fun _ ab => retM (Share (fst ab) (snd ab)))).
    eapply wpM_mono; [|apply gen_rands_ok; eassumption]. intros s' W (Hs' & d & Hd & HW).
    apply wpM_ret. split; [exact Hs'|]. eexists. repeat split; intros; rewrite ?HW; cbn; try apply Hd; reflexivity.
  Qed.
  Lemma gen_zero_share_ok K (s : prfs) : 0 <= K -> prf_synced s ->
    wpM (fun _ => gen_zero_share G K) s (fun s' W => prf_synced s' /\ asum K W 0).
  Proof.
    intros HK Hs. unfold gen_zero_share.
    apply (wpM_bind (fun _ => gen_rands G K) (fun _ ab => retM (rsub K (fst ab) (snd ab)))).
    eapply wpM_mono; [|apply gen_rands_ok; eassumption]. intros s' W (Hs' & d & Hd & HW).
    apply wpM_ret. split; [exact Hs'|]. split.
    - intros i. apply (inr_mod K _ HK).
    - rewrite !HW. cbn [fst snd prev]. rewrite <- (Zmod_0_l (2 ^ K)) at 1. modring.
  Qed.
  Lemma gen_binary_zero_share_ok K (s : prfs) : 0 <= K -> prf_synced s ->
    wpM (fun _ => gen_binary_zero_share G K) s (fun s' W => prf_synced s' /\ bsum K W 0).
  Proof.
    intros HK Hs. unfold gen_binary_zero_share.
    apply (wpM_bind (fun _ => gen_rands G K) (fun _ ab => retM (rxor (fst ab) (snd ab)))).
    eapply wpM_mono; [|apply gen_rands_ok; eassumption]. intros s' W (Hs' & d & Hd & HW).
    apply wpM_ret. split; [exact Hs'|]. split.
    - intros i. rewrite HW. unfold rxor. apply inr_lxor; cbn; auto.
    - rewrite !HW. cbn [fst snd prev]. unfold rxor. apply Z.bits_inj'; intros n Hn. rewrite Z.bits_0, !Z.lxor_spec.
      destruct (Z.testbit (d P0) n), (Z.testbit (d P1) n), (Z.testbit (d P2) n); reflexivity.
  Qed.

  Lemma reshare_ok_a K s W z : In K widths -> asum K W z ->
    wpM (fun i => reshare G i K (W i)) s (fun s' X => s' = s /\ arith_shared K X z).
  Proof.
    intros HK [H1 H2]. unfold reshare.
    apply (wpM_bind (fun i => liftM (send_and_receive_value i K (W i))) (fun i b => retM (Share (W i) b))).
    apply wpM_lift. apply wp_sar_value; auto. apply wpM_ret. split; [reflexivity|].
    split; [|split]; intros; cbn [sa sb]; auto; apply H1.
  Qed.
  Lemma reshare_ok_b K s W z : In K widths -> bsum K W z ->
    wpM (fun i => reshare G i K (W i)) s (fun s' X => s' = s /\ bin_shared K X z).
  Proof.
    intros HK [H1 H2]. unfold reshare.
    apply (wpM_bind (fun i => liftM (send_and_receive_value i K (W i))) (fun i b => retM (Share (W i) b))).
    apply wpM_lift. apply wp_sar_value; auto. apply wpM_ret. split; [reflexivity|].
    split; [|split]; intros; cbn [sa sb]; auto; apply H1.
  Qed.
  Lemma reshare_many_ok_a K s L zs : In K widths -> RL (asum K) L zs ->
    wpM (fun i => reshare_many G i K (L i)) s (fun s' X => s' = s /\ RL (arith_shared K) X zs).
  Proof.
    intros HK H. unfold reshare_many.
    apply (wpM_bind (fun i => liftM (send_slice_and_receive_iter i K (L i))) (fun i bs => retM (map2 Share (L i) bs))).
    apply wpM_lift. apply (wp_sar_iter K L (length zs)); auto.
    { exact (RL_asum_Forall _ _ _ H). } { exact (RL_length _ _ _ H). }
    apply wpM_ret. split; [reflexivity|]. apply RL_rep_a, H.
  Qed.
  Lemma reshare_many_ok_b K s L zs : In K widths -> RL (bsum K) L zs ->
    wpM (fun i => reshare_many G i K (L i)) s (fun s' X => s' = s /\ RL (bin_shared K) X zs).
  Proof.
    intros HK H. unfold reshare_many.
    apply (wpM_bind (fun i => liftM (send_slice_and_receive_iter i K (L i))) (fun i bs => retM (map2 Share (L i) bs))).
    apply wpM_lift. apply (wp_sar_iter K L (length zs)); auto.
    { exact (RL_bsum_Forall _ _ _ H). } { exact (RL_length _ _ _ H). }
    apply wpM_ret. split; [reflexivity|]. apply RL_rep_b, H.
  Qed.

  (** ** Setup *)
  Lemma setup_ok (seeds : pid -> list Z) (s : prfs) : (forall i, length (seeds i) = 32%nat) ->
    wpM (fun i => setup_prf_from_seed G i (seeds i)) s
      (fun s' _ => prf_synced s' /\ forall i, s' i = prf_new G (seeds i) (seeds (prev i))).
  Proof.
    intros Hl. unfold setup_prf_from_seed.
    apply (wpM_bind (fun i => liftM (send_and_receive i (seeds i)))).
    apply wpM_lift. apply wp_send_and_receive.
    apply (wpM_bind (fun i => resM (bytes_to_seed (seeds (prev i))))).
    apply (wpM_res _ (fun i => seeds (prev i))).
    { intros i. unfold bytes_to_seed. rewrite Hl. reflexivity. }
    apply (wpM_put s (fun i => prf_new G (seeds i) (seeds (prev i)))). split; intros i; reflexivity.
  Qed.

  (** ** Input and opening *)
  Lemma asum_add K W z W' z' : 0 <= K -> asum K W z -> asum K W' z' -> asum K (fun i => radd K (W i) (W' i)) ((z + z') mod 2 ^ K).
  Proof. intros HK [A1 A2] [B1 B2]. split; [intros; apply (inr_mod K _ HK)|]. subst. modring. Qed.
  Lemma bsum_xor K W z W' z' : 0 <= K -> bsum K W z -> bsum K W' z' -> bsum K (fun i => rxor (W i) (W' i)) (Z.lxor z z').
  Proof. intros HK [A1 A2] [B1 B2]. split; [intros; apply inr_lxor; auto|]. subst. unfold rxor. bitsolve. Qed.
  Lemma asum_single K p x : 0 <= K -> inr K x -> asum K (fun i => if pid_eqb i p then x else 0) x.
  Proof.
    intros HK Hx. assert (0 < 2 ^ K) by (apply Z.pow_pos_nonneg; lia).
    split; [intros i; destruct (pid_eqb i p); auto; unfold inr; lia|].
    unfold inr in Hx. destruct p; cbn; rewrite ?Z.add_0_r; rewrite Z.mod_small; lia.
  Qed.

  (** The party [id] inputs [x]; the other parties pass nothing (or anything). *)
  Lemma input_ok K (v : pid -> option Z) p x (s : prfs) : In K widths -> inr K x -> v p = Some x -> prf_synced s ->
    wpM (fun i => input G i K (v i) (pid_num p)) s (fun s' X => prf_synced s' /\ arith_shared K X x).
  Proof.
    intros HK Hx Hv Hs. assert (HK0 : 0 <= K) by (apply in_widths_pos in HK; lia).
    unfold input. apply (wpM_ext (fun i => bindM (gen_zero_share G K) (fun r =>
      bindM (if pid_num p =? pid_num i then match v i with Some x => retM (radd K r x) | None => failM EValue end else retM r)
        (fun a => reshare G i K a)))).
    { intros i. replace (3 <=? pid_num p) with false by (destruct p; reflexivity). reflexivity. }
    apply (wpM_bind (fun _ => gen_zero_share G K)).
    eapply wpM_mono; [|apply gen_zero_share_ok; eassumption]. intros s' W [Hs' HW].
    apply (wpM_bind (fun i => if pid_num p =? pid_num i then match v i with Some x => retM (radd K (W i) x) | None => failM EValue end else retM (W i))
            (fun i a => reshare G i K a)).
    apply (wpM_ext (fun i => retM (if pid_eqb i p then radd K (W i) x else W i))).
    { intros i. destruct (pid_eqb_spec i p) as [->|Hn].
      - rewrite Z.eqb_refl, Hv. reflexivity.
      - replace (pid_num p =? pid_num i) with false; [reflexivity|]. destruct i, p; try reflexivity; congruence. }
    apply wpM_ret.
    eapply wpM_mono; [|apply (reshare_ok_a K s' _ x); [exact HK|]].
    { cbn beta. intros s1 X [-> HX]. split; [exact Hs'|exact HX]. }
    destruct HW as [W1 W2]. split.
    - intros i. destruct (pid_eqb i p); [apply (inr_mod K _ HK0)|apply W1].
    - assert (E : x = x mod 2 ^ K) by (symmetry; apply norm_inr, Hx). rewrite E at 1.
      replace x with (0 + x) at 1 by lia. rewrite W2. destruct p; cbn [pid_eqb]; modring.
  Qed.

  Lemma open_ok K X x (s : prfs) : In K widths -> arith_shared K X x ->
    wpM (fun i => open G i K (X i)) s (fun s' v => s' = s /\ forall i, v i = x).
  Proof.
    intros HK (A1 & A2 & A3). unfold open.
    apply (wpM_bind (fun i => liftM (send_and_receive_value i K (sb (X i)))) (fun i c => retM (radd K (radd K (sa (X i)) (sb (X i))) c))).
    apply wpM_lift. apply wp_sar_value; [exact HK|intros i; rewrite A2; apply A1|].
    apply wpM_ret. split; [reflexivity|]. intros i. rewrite !A2. subst x. destruct i; cbn [prev]; modring.
  Qed.
  Lemma RL_sb (R : (pid -> share) -> Z -> Prop) X xs : RL R X xs ->
    (forall Y y, R Y y -> forall i, sb (Y i) = sa (Y (prev i))) -> forall i, map sb (X i) = map sa (X (prev i)).
  Proof.
    intros H HR. induction H as [X HX|X Y X0 y ys HX HY H IH]; intros i; rewrite !HX; [reflexivity|].
    cbn [map]. rewrite IH, (HR _ _ HY). reflexivity.
  Qed.
  Lemma open_many_ok K X xs (s : prfs) : In K widths -> RL (arith_shared K) X xs ->
    wpM (fun i => open_many G i K (X i)) s (fun s' v => s' = s /\ forall i, v i = xs).
  Proof.
    intros HK H. unfold open_many.
    apply (wpM_bind (fun i => liftM (send_slice_and_receive_iter i K (map sb (X i))))
       (fun i cs => retM (map2 (fun s c => radd K (radd K c (sa s)) (sb s)) (X i) cs))).
    apply wpM_lift. apply (wp_sar_iter K (fun i => map sb (X i)) (length xs)); [exact HK| | |].
    - intros i. induction H as [X HX|X Y X0 y ys HX HY H IH]; rewrite HX; constructor; [|exact IH].
      destruct HY as (A1 & A2 & _). rewrite A2. apply A1.
    - intros i. rewrite map_length. exact (RL_length _ _ _ H i).
    - apply wpM_ret. split; [reflexivity|]. intros i.
      induction H as [X HX|X Y X0 y ys HX HY H IH]; rewrite !HX; [reflexivity|].
      cbn [map map2]. f_equal; [|exact IH]. destruct HY as (A1 & A2 & A3).
      rewrite !A2. subst y. destruct i; cbn [prev]; modring.
  Qed.
  Lemma open_bit_ok X x (s : prfs) : bin_shared 1 X x ->
    wpM (fun i => open_bit G i (X i)) s (fun s' v => s' = s /\ forall i, v i = (x =? 1)).
  Proof.
    intros (A1 & A2 & A3). unfold open_bit.
    apply (wpM_bind (fun i => liftM (send_and_receive_value i 1 (sb (X i)))) (fun i c => retM (rxor (rxor (sa (X i)) (sb (X i))) c =? 1))).
    apply wpM_lift. apply wp_sar_value; [left; reflexivity|intros i; rewrite A2; apply A1|].
    apply wpM_ret. split; [reflexivity|]. intros i. rewrite !A2. subst x.
    apply (f_equal (fun v => v =? 1)). unfold rxor. destruct i; cbn [prev]; bitsolve.
  Qed.
  Lemma open_bit_many_ok X xs (s : prfs) : RL (bin_shared 1) X xs ->
    wpM (fun i => open_bit_many G i (X i)) s (fun s' v => s' = s /\ forall i, v i = map (fun x => x =? 1) xs).
  Proof.
    intros H. unfold open_bit_many.
    apply (wpM_bind (fun i => liftM (send_slice_and_receive_iter i 1 (map sb (X i))))
       (fun i cs => retM (map2 (fun s c => rxor (rxor c (sa s)) (sb s) =? 1) (X i) cs))).
    apply wpM_lift. apply (wp_sar_iter 1 (fun i => map sb (X i)) (length xs)); [left; reflexivity| | |].
    - intros i. induction H as [X HX|X Y X0 y ys HX HY H IH]; rewrite HX; constructor; [|exact IH].
      destruct HY as (A1 & A2 & _). rewrite A2. apply A1.
    - intros i. rewrite map_length. exact (RL_length _ _ _ H i).
    - apply wpM_ret. split; [reflexivity|]. intros i.
      induction H as [X HX|X Y X0 y ys HX HY H IH]; rewrite !HX; [reflexivity|].
      cbn [map map2]. f_equal; [|exact IH]. destruct HY as (A1 & A2 & A3).
      rewrite !A2. subst y. apply (f_equal (fun v => v =? 1)). unfold rxor. destruct i; cbn [prev]; bitsolve.
  Qed.

  (** input_all: party i contributes [x i]; every party gets the shares of the three inputs. *)
  Lemma input_all_ok K (x : pid -> Z) (s : prfs) : In K widths -> (forall i, inr K (x i)) -> prf_synced s ->
    wpM (fun i => input_all G i K (x i)) s
      (fun s' X => prf_synced s' /\ RL (arith_shared K) X [x P0; x P1; x P2]).
  Proof.
    intros HK Hx Hs. assert (HK0 : 0 <= K) by (apply in_widths_pos in HK; lia). unfold input_all.
    apply (wpM_bind (fun i => mapM (fun id => bindM (gen_zero_share G K) (fun r =>
                         retM (if id =? pid_num i then radd K r (x i) else r))) [0; 1; 2])).
    eapply wpM_mono; [|apply (wpM_mapM prf_synced (fun Y y => forall i, Y i = pid_num y) (asum K)
        (fun i id => bindM (gen_zero_share G K) (fun r => retM (if id =? pid_num i then radd K r (x i) else r)))
        x) with (X := fun _ => [0;1;2]) (ys := [P0; P1; P2]); [|exact Hs|]].
    - intros s1 L [Hs1 HL]. cbn [map] in HL.
      eapply wpM_mono; [|apply reshare_many_ok_a; eassumption].
      cbn beta. intros s2 X [-> HX]. split; assumption.
    - intros s1 Y y Hs1 HY.
      apply (wpM_ext (fun i => bindM (gen_zero_share G K) (fun r => retM (if pid_eqb y i then radd K r (x i) else r)))).
      { intros i. rewrite HY. destruct i, y; reflexivity. }
      apply (wpM_bind (fun _ => gen_zero_share G K) (fun i r => retM (if pid_eqb y i then radd K r (x i) else r))).
      eapply wpM_mono; [|apply gen_zero_share_ok; eassumption]. intros s' W [Hs' [W1 W2]].
      apply wpM_ret. split; [exact Hs'|]. split.
      + intros i. destruct (pid_eqb y i); [apply (inr_mod K _ HK0)|apply W1].
      + assert (E : x y = x y mod 2 ^ K) by (symmetry; apply norm_inr, Hx). rewrite E at 1.
        replace (x y) with (0 + x y) at 1 by lia. rewrite W2. destruct y; cbn [pid_eqb]; modring.
    - repeat (apply (RL_cons' (fun Y y => forall i, Y i = pid_num y)); [reflexivity|]). apply RL_nil'.
  Qed.

  (** ** Multiplication *)
  Lemma mul_ok K X x Y y (s : prfs) : In K widths -> prf_synced s -> arith_shared K X x -> arith_shared K Y y ->
    wpM (fun i => mul G i K (X i) (Y i)) s (fun s' W => prf_synced s' /\ arith_shared K W ((x * y) mod 2 ^ K)).
  Proof.
    intros HK Hs HX HY. assert (HK0 : 0 <= K) by (apply in_widths_pos in HK; lia). unfold mul.
    apply (wpM_bind (fun _ => gen_zero_share G K) (fun i r => reshare G i K (radd K (local_mul K (X i) (Y i)) r))).
    eapply wpM_mono; [|apply gen_zero_share_ok; eassumption]. intros s' W [Hs' HW].
    eapply wpM_mono; [|apply (reshare_ok_a K s' _ ((x * y) mod 2 ^ K)); [exact HK|]].
    { cbn beta. intros s1 Z1 [-> HZ1]. split; assumption. }
    rewrite <- (Zmod_mod (x * y)). rewrite <- (Z.add_0_r ((x * y) mod _)).
    apply asum_add; auto. apply local_mul_ok; auto.
  Qed.
  Lemma mul_many_ok K X xs Y ys (s : prfs) : In K widths -> prf_synced s ->
    RL (arith_shared K) X xs -> RL (arith_shared K) Y ys ->
    wpM (fun i => mul_many G i K (X i) (Y i)) s
      (fun s' W => prf_synced s' /\ RL (arith_shared K) W (map2 (fun x y => (x * y) mod 2 ^ K) xs ys)).
  Proof.
    intros HK Hs HX HY. assert (HK0 : 0 <= K) by (apply in_widths_pos in HK; lia). unfold mul_many.
    apply (wpM_bind (fun i => mapM2 (fun x y => bindM (gen_zero_share G K) (fun r => retM (radd K (local_mul K x y) r))) (X i) (Y i))).
    eapply wpM_mono; [|apply (wpM_mapM2 prf_synced (arith_shared K) (arith_shared K) (asum K)
        (fun i x y => bindM (gen_zero_share G K) (fun r => retM (radd K (local_mul K x y) r)))
        (fun x y => (x * y) mod 2 ^ K)); [|exact Hs|exact HX|exact HY]].
    - intros s1 L [Hs1 HL]. eapply wpM_mono; [|apply reshare_many_ok_a; eassumption].
      cbn beta. intros s2 W [-> HW]. split; assumption.
    - clear s Hs X xs Y ys HX HY. intros s Y y Y1 y1 Hs HY HY1.
      apply (wpM_bind (fun _ => gen_zero_share G K) (fun i r => retM (radd K (local_mul K (Y i) (Y1 i)) r))).
      eapply wpM_mono; [|apply gen_zero_share_ok; eassumption]. intros s' W [Hs' HW].
      apply wpM_ret. split; [exact Hs'|].
      rewrite <- (Zmod_mod (y * y1)). rewrite <- (Z.add_0_r ((y * y1) mod _)).
      apply asum_add; auto. apply local_mul_ok; auto.
  Qed.


  Lemma asum_ext K W W' z z' : (forall i, W i = W' i) -> z = z' -> asum K W z -> asum K W' z'.
  Proof. intros E <- [H1 H2]. split; [intros i; rewrite <- E; apply H1|rewrite <- !E; exact H2]. Qed.
  Lemma fold_dot_ok K X xs : 0 <= K -> RL (arith_shared K) X xs -> forall Y ys W z, RL (arith_shared K) Y ys ->
    asum K W z ->
    asum K (fun i => fold_left (fun c xy => radd K c (local_mul K (fst xy) (snd xy))) (combine (X i) (Y i)) (W i))
      ((z + dotp xs ys) mod 2 ^ K).
  Proof.
    intros HK H. induction H as [X HX|X A X0 a xs HX HA H IH]; intros Y ys W z HY HW.
    - eapply asum_ext; [| |exact HW].
      + intros i. rewrite HX. reflexivity.
      + unfold dotp. cbn. destruct HW as [_ ->]. rewrite Z.add_0_r, Zmod_mod. reflexivity.
    - destruct HY as [Y HY|Y B Y0 b ys HY HB HR].
      + eapply asum_ext; [| |exact HW].
        * intros i. rewrite HX, HY. reflexivity.
        * unfold dotp. cbn. destruct HW as [_ ->]. rewrite Z.add_0_r, Zmod_mod. reflexivity.
      + eapply asum_ext; [| |apply (IH Y0 ys (fun i => radd K (W i) (local_mul K (A i) (B i))) _ HR (asum_add K _ _ _ _ HK HW (local_mul_ok K _ _ _ _ HK HA HB)))].
        * intros i. rewrite HX, HY. reflexivity.
        * unfold dotp. cbn [map2 fold_right]. modring.
  Qed.
  Lemma dot_ok K X xs Y ys (s : prfs) : In K widths -> prf_synced s ->
    RL (arith_shared K) X xs -> RL (arith_shared K) Y ys -> length xs = length ys ->
    wpM (fun i => dot G i K (X i) (Y i)) s (fun s' W => prf_synced s' /\ arith_shared K W (dotp xs ys mod 2 ^ K)).
  Proof.
    intros HK Hs HX HY Hl. assert (HK0 : 0 <= K) by (apply in_widths_pos in HK; lia). unfold dot.
    apply (wpM_ext (fun i => bindM (gen_zero_share G K) (fun r => reshare G i K
       (fold_left (fun c xy => radd K c (local_mul K (fst xy) (snd xy))) (combine (X i) (Y i)) r)))).
    { intros i. rewrite (RL_length _ _ _ HX), (RL_length _ _ _ HY), Hl, Nat.eqb_refl. reflexivity. }
    apply (wpM_bind (fun _ => gen_zero_share G K) (fun i r => reshare G i K
       (fold_left (fun c xy => radd K c (local_mul K (fst xy) (snd xy))) (combine (X i) (Y i)) r))).
    eapply wpM_mono; [|apply gen_zero_share_ok; eassumption]. intros s' W [Hs' HW].
    eapply wpM_mono; [|apply (reshare_ok_a K s' _ (dotp xs ys mod 2 ^ K)); [exact HK|]].
    { cbn beta. intros s1 Z1 [-> HZ1]. split; assumption. }
    apply (fold_dot_ok K X xs HK0 HX Y ys W 0 HY HW).
  Qed.
  Definition dot_row (K : Z) (x y : list share) : M (prf G) Z :=
    bindM (gen_zero_share G K) (fun r =>
      if negb (Nat.eqb (length x) (length y)) then failM EInvalidSize
      else retM (fold_left (fun c xy => radd K c (local_mul K (fst xy) (snd xy))) (combine x y) r)).
  Lemma dot_rows_ok K X xss Y yss (s : prfs) : 0 <= K -> prf_synced s ->
    RL (RL (arith_shared K)) X xss -> RL (RL (arith_shared K)) Y yss ->
    Forall2 (fun xs ys => length xs = length ys) xss yss ->
    wpM (fun i => mapM2 (dot_row K) (X i) (Y i)) s
      (fun s' L => prf_synced s' /\ RL (asum K) L (map2 (fun xs ys => dotp xs ys mod 2 ^ K) xss yss)).
  Proof.
    intros HK0 Hs HX HY Hl.
    revert X Y s Hs HX HY. induction Hl as [|xs ys xss yss Hl Hls IH]; intros X Y s Hs HX HY.
    - apply (wpM_ext (fun _ => retM [])). { intros i. rewrite (RL_inv_nil _ _ HX i). reflexivity. }
      apply wpM_ret. split; [exact Hs|apply RL_nil'].
    - apply RL_inv_cons in HX. destruct HX as (A & X0 & HX & HA & HX0).
      apply RL_inv_cons in HY. destruct HY as (B & Y0 & HY & HB & HY0).
      apply (wpM_ext (fun i => bindM (dot_row K (A i) (B i)) (fun b => bindM (mapM2 (dot_row K) (X0 i) (Y0 i)) (fun bs => retM (b :: bs))))).
      { intros i. rewrite HX, HY. reflexivity. }
      apply (wpM_bind (fun i => dot_row K (A i) (B i)) (fun i b => bindM (mapM2 (dot_row K) (X0 i) (Y0 i)) (fun bs => retM (b :: bs)))).
      unfold dot_row at 1.
      apply (wpM_ext (fun i => bindM (gen_zero_share G K) (fun r => retM (fold_left (fun c xy => radd K c (local_mul K (fst xy) (snd xy))) (combine (A i) (B i)) r)))).
      { intros i. rewrite (RL_length _ _ _ HA), (RL_length _ _ _ HB), Hl, Nat.eqb_refl. reflexivity. }
      apply (wpM_bind (fun _ => gen_zero_share G K) (fun i r => retM (fold_left (fun c xy => radd K c (local_mul K (fst xy) (snd xy))) (combine (A i) (B i)) r))).
      eapply wpM_mono; [|apply gen_zero_share_ok; eassumption]. intros s' W [Hs' HW].
      apply wpM_ret.
      apply (wpM_bind (fun i => mapM2 (dot_row K) (X0 i) (Y0 i)) (fun i bs => retM (_ :: bs))).
      eapply wpM_mono; [|apply (IH X0 Y0 s' Hs' HX0 HY0)]. intros s2 L [Hs2 HL].
      apply wpM_ret. split; [exact Hs2|]. cbn [map2]. apply RL_cons'; [|exact HL].
      apply (fold_dot_ok K A xs HK0 HA B ys W 0 HB HW).
  Qed.
  Lemma dot_many_ok K X xss Y yss (s : prfs) : In K widths -> prf_synced s ->
    RL (RL (arith_shared K)) X xss -> RL (RL (arith_shared K)) Y yss ->
    Forall2 (fun xs ys => length xs = length ys) xss yss ->
    wpM (fun i => dot_many G i K (X i) (Y i)) s
      (fun s' W => prf_synced s' /\ RL (arith_shared K) W (map2 (fun xs ys => dotp xs ys mod 2 ^ K) xss yss)).
  Proof.
    intros HK Hs HX HY Hl. assert (HK0 : 0 <= K) by (apply in_widths_pos in HK; lia). unfold dot_many.
    apply (wpM_ext (fun i => bindM (mapM2 (dot_row K) (X i) (Y i)) (fun l => reshare_many G i K l))).
    { intros i. rewrite (RL_length _ _ _ HX), (RL_length _ _ _ HY).
      replace (length xss) with (length yss) by (clear -Hl; induction Hl; cbn; congruence).
      rewrite Nat.eqb_refl. reflexivity. }
    apply (wpM_bind (fun i => mapM2 (dot_row K) (X i) (Y i)) (fun i l => reshare_many G i K l)).
    eapply wpM_mono; [|apply (dot_rows_ok K X xss Y yss s HK0 Hs HX HY Hl)].
    intros s1 L [Hs1 HL]. eapply wpM_mono; [|apply reshare_many_ok_a; eassumption].
    cbn beta. intros s2 W [-> HW]. split; assumption.
  Qed.

  Lemma fold_mdot_ok K X xs m : 0 <= K -> RL (arith_shared K) X xs -> forall Y ys W z, RL (arith_shared K) Y ys ->
    length xs = length ys -> length xs = length m ->
    asum K W z ->
    asum K (fun i => fold_left (fun (c : Z) (xyb : share * share * bool) => if snd xyb then radd K c (local_mul K (fst (fst xyb)) (snd (fst xyb))) else c)
                       (combine (combine (X i) (Y i)) m) (W i))
      ((z + mdotp xs ys m) mod 2 ^ K).
  Proof.
    intros HK H. revert m. induction H as [X HX|X A X0 a xs HX HA H IH]; intros m Y ys W z HY Hl Hm HW.
    - eapply asum_ext; [| |exact HW].
      + intros i. rewrite HX. reflexivity.
      + unfold mdotp, msum. cbn. destruct HW as [_ ->]. rewrite Z.add_0_r, Zmod_mod. reflexivity.
    - destruct HY as [Y HY|Y B Y0 b ys HY HB HR]; [discriminate|]. destruct m as [|b0 m]; [discriminate|].
      injection Hl as Hl. injection Hm as Hm.
      eapply asum_ext; [| |apply (IH m Y0 ys (fun i => if b0 then radd K (W i) (local_mul K (A i) (B i)) else W i)
         (if b0 then (z + (a * b) mod 2 ^ K) mod 2 ^ K else z) HR Hl Hm)].
      + intros i. rewrite HX, HY. reflexivity.
      + unfold mdotp, msum. cbn [map2 fold_right]. destruct b0; [modring|]. rewrite Z.add_0_l. reflexivity.
      + destruct b0; [|exact HW]. exact (asum_add K _ _ _ _ HK HW (local_mul_ok K _ _ _ _ HK HA HB)).
  Qed.
End Engine.
