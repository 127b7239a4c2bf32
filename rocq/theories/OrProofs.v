(** OR reduction (generic in the engine). *)
From Verif Require Import Base Ring RingProofs Prog Sched Rng Rel Net BinTrait BitArith BinProofs AddProofs Iris IrisSpec IrisProofs Protocol MpcSpec Aby3 ShareSpec Aby3Proofs Aby3Proofs2 SlicedProofs.
From Coq Require Import ZifyBool ZifyNat.

Definition nz (x : Z) : Z := if x =? 0 then 0 else 1.
(** The OR of a list of bits. *)
Definition or_bits (bs : list Z) : Z := Z.b2z (existsb (fun b => b =? 1) bs).

Lemma orl_zero l : orl l = 0 <-> Forall (fun x => x = 0) l.
Proof.
  induction l as [|x l IH]; cbn [orl fold_right]; [split; [constructor|reflexivity]|].
  change (fold_right Z.lor 0 l) with (orl l). rewrite Z.lor_eq_0_iff, IH. split.
  - intros []. constructor; assumption.
  - inversion 1; auto.
Qed.
Lemma pkf_zero W zs : 1 < W -> Z.of_nat (length zs) <= W -> Forall (inr 1) zs -> pkf W zs = 0 <-> Forall (fun x => x = 0) zs.
Proof.
  intros HW Hl HF. destruct (pkf_spec W zs HW Hl HF) as [H1 H2]. rewrite Forall_forall in HF. split; intros H.
  - apply Forall_forall. intros x Hx. destruct (In_nth _ _ 0 Hx) as (n & Hn & <-).
    specialize (H2 n ltac:(lia)). rewrite H, Z.bits_0 in H2. specialize (HF _ (nth_In zs 0 Hn)). unfold inr in HF.
    change (2 ^ 1) with 2 in HF. assert (E : nth n zs 0 = 0 \/ nth n zs 0 = 1) by lia. destruct E as [E|E]; rewrite E in *; [reflexivity|discriminate].
  - rewrite Forall_forall in H. apply Z.bits_inj'. intros n Hn. rewrite Z.bits_0.
    destruct (Z.lt_ge_cases n W).
    + rewrite <- (Z2Nat.id n) by lia. rewrite H2 by lia.
      destruct (Nat.lt_ge_cases (Z.to_nat n) (length zs)) as [Hc|Hc].
      * rewrite (H _ (nth_In zs 0 Hc)). reflexivity.
      * rewrite nth_overflow by lia. reflexivity.
    + apply (bits_range _ W); [exact H1|lia|lia].
Qed.
Lemma or_bits_zero bs : Forall (inr 1) bs -> or_bits bs = nz (if forallb (fun b => b =? 0) bs then 0 else 1).
Proof.
  intros H. unfold or_bits. induction H as [|b bs Hb H IH]; [reflexivity|]. cbn [existsb forallb].
  unfold inr in Hb. change (2 ^ 1) with 2 in Hb. assert (E : b = 0 \/ b = 1) by lia.
  destruct E as [-> | ->]; cbn [Z.eqb Pos.eqb orb andb]; [exact IH|reflexivity].
Qed.
Lemma nz_orl_vpack bs : Forall (inr 1) bs -> nz (orl (vpack 128 bs)) = or_bits bs.
Proof.
  intros H. rewrite or_bits_zero by exact H. unfold nz at 1.
  assert (Hiff : orl (vpack 128 bs) = 0 <-> Forall (fun x => x = 0) bs).
  { rewrite orl_zero. unfold vpack. rewrite <- (chunks_concat 128 bs) at 2 by lia. rewrite Forall_concat.
    change (Z.to_nat 128) with 128%nat. rewrite Forall_map. pose proof (chunks_Forall_len 128 bs) as HL.
    assert (HB : Forall (Forall (inr 1)) (chunks 128 bs)).
    { apply Forall_concat. rewrite chunks_concat by lia. exact H. }
    clear H. revert HB. induction HL as [|c cs Hc HL IH]; intros HB; [split; constructor|].
    inversion HB; subst. rewrite !Forall_cons_iff, IH by assumption. rewrite pkf_zero; [tauto|lia|lia|assumption]. }
  destruct (Z.eqb_spec (orl (vpack 128 bs)) 0) as [E|E].
  - apply Hiff in E. replace (forallb (fun b => b =? 0) bs) with true; [reflexivity|].
    symmetry. apply forallb_forall. rewrite Forall_forall in E. intros x Hx. apply Z.eqb_eq, E, Hx.
  - replace (forallb (fun b => b =? 0) bs) with false; [reflexivity|].
    symmetry. apply Bool.not_true_iff_false. intros HT. apply E, Hiff. apply Forall_forall. intros x Hx.
    rewrite forallb_forall in HT. apply Z.eqb_eq, HT, Hx.
Qed.

Section Or.
  Context {Gh S : Type} (E : pid -> Z -> bineng S share) (Inv : Gh -> (pid -> S) -> Prop) (g_and : Z -> nat -> Gh -> Gh).
  Hypothesis OK : bin_ok E brel Inv g_and.

  Lemma split_ok H X x : In H widths -> In (2 * H) widths -> brel (2 * H) X x ->
    brel H (fun i => fst (split_share H (X i))) (x mod 2 ^ H) /\
    brel H (fun i => snd (split_share H (X i))) (Z.shiftr x H mod 2 ^ H).
  Proof using Type.
    intros HH H2 (_ & A1 & A2 & A3). assert (H0 : 0 < H) by (apply in_widths_pos; assumption).
    assert (HX : forall a b, Z.lxor a b mod 2 ^ H = Z.lxor (a mod 2 ^ H) (b mod 2 ^ H)).
    { intros a b. apply Z.bits_inj'. intros n Hn. rewrite Z.lxor_spec. destruct (Z.lt_ge_cases n H).
      - rewrite !Z.mod_pow2_bits_low by lia. apply Z.lxor_spec.
      - rewrite !Z.mod_pow2_bits_high by lia. reflexivity. }
    split; (split; [exact HH|]); (split; [|split]); unfold split_share; cbn [fst snd sa sb].
    1, 4: intros i; apply (inr_mod H); lia.
    1, 3: intros i; rewrite A2; reflexivity.
    - rewrite <- !HX. subst x. reflexivity.
    - rewrite <- !HX, <- !Z.shiftr_lxor. subst x. reflexivity.
  Qed.
  Lemma split_lor H x : 0 < H -> inr (2 * H) x -> nz (Z.lor (x mod 2 ^ H) (Z.shiftr x H mod 2 ^ H)) = nz x.
  Proof using Type.
    intros HH Hx. unfold nz. assert (Hs : Z.shiftr x H mod 2 ^ H = x / 2 ^ H).
    { rewrite Z.shiftr_div_pow2 by lia. apply Z.mod_small. unfold inr in Hx.
      assert (0 < 2 ^ H) by (apply Z.pow_pos_nonneg; lia). split; [apply Z.div_pos; lia|].
      apply Z.div_lt_upper_bound; [lia|]. rewrite <- Z.pow_add_r by lia. replace (H + H) with (2 * H) by lia. lia. }
    rewrite Hs. assert (Hi : Z.lor (x mod 2 ^ H) (x / 2 ^ H) = 0 <-> x = 0).
    { rewrite Z.lor_eq_0_iff. assert (0 < 2 ^ H) by (apply Z.pow_pos_nonneg; lia).
      rewrite (Z.div_mod x (2 ^ H)) at 3 by lia. split; [intros [-> ->]; lia|]. intros Hd.
      rewrite <- (Z.div_mod x (2 ^ H)) in Hd by lia. subst x. rewrite Zmod_0_l, Zdiv_0_l. auto. }
    destruct (Z.eqb_spec x 0), (Z.eqb_spec (Z.lor (x mod 2 ^ H) (x / 2 ^ H)) 0); tauto.
  Qed.

  Definition g_or8 (g : Gh) : Gh := g_and 1 1%nat (g_and 1 2%nat (g_and 1 4%nat g)).
  Lemma bits8 x : inr 8 x -> orl (map (fun n => zbit n x) (seq 0 8)) = nz x.
  Proof using Type.
    clear. intros Hx.
    assert (HF : forallb (fun n => orl (map (fun k => zbit k (Z.of_nat n)) (seq 0 8)) =? nz (Z.of_nat n)) (seq 0 256) = true) by (vm_compute; reflexivity).
    rewrite forallb_forall in HF. unfold inr in Hx. change (2 ^ 8) with 256 in Hx.
    specialize (HF (Z.to_nat x)). rewrite Z2Nat.id in HF by lia. apply Z.eqb_eq, HF. apply in_seq. lia.
  Qed.
  Lemma reduce_or_u8_ok X x g s : Inv g s -> brel 8 X x ->
    wpM (fun i => reduce_or_u8 (E i 1) (X i)) s (fun s' W => Inv (g_or8 g) s' /\ brel 1 W (nz x)).
  Proof using OK.
    intros Hs HX. unfold reduce_or_u8.
    pose (D := fun i => map (fun n => sbit n (X i)) (seq 0 8)).
    assert (HD : RL (brel 1) D (map (fun n => zbit n x) (seq 0 8))).
    { unfold D. generalize (seq 0 8). intros l. induction l as [|r l IH]; [apply RL_nil'|]. cbn [map].
      apply (RL_cons' (brel 1) (fun i => sbit r (X i))); [apply (sbit_ok 8), HX|exact IH]. }
    apply (wpM_ext (fun i => (d4 <- or_many (E i 1) (firstn 4 (D i)) (skipn 4 (D i)) ;;
      d2 <- or_many (E i 1) (firstn 2 d4) (skipn 2 d4) ;;
      d1 <- or_many (E i 1) (firstn 1 d2) (skipn 1 d2) ;;
      resM (index d1 0))%M)).
    { intros i. reflexivity. }
    cbn [seq map] in HD. rewrite <- (bits8 x) by (apply HX || (destruct HX as (_ & HX); eapply brel_range; [|exact HX]; lia)).
    cbn [seq map]. generalize dependent (zbit 0 x). intros b0. generalize dependent (zbit 1 x). intros b1.
    generalize dependent (zbit 2 x). intros b2. generalize dependent (zbit 3 x). intros b3.
    generalize dependent (zbit 4 x). intros b4. generalize dependent (zbit 5 x). intros b5.
    generalize dependent (zbit 6 x). intros b6. generalize dependent (zbit 7 x). intros b7 HD. clearbody D.
    apply (wpM_bind (fun i => or_many (E i 1) (firstn 4 (D i)) (skipn 4 (D i)))).
    eapply wpM_mono; [|apply (or_many_ok E brel Inv g_and OK 1 in1 g s _ _ _ _ Hs (RL_firstn _ _ _ 4 HD) (RL_skipn _ _ _ 4 HD) eq_refl)].
    intros s1 D4 [Hs1 H4]. cbn [firstn skipn map2 length] in Hs1, H4.
    apply (wpM_bind (fun i => or_many (E i 1) (firstn 2 (D4 i)) (skipn 2 (D4 i)))).
    eapply wpM_mono; [|apply (or_many_ok E brel Inv g_and OK 1 in1 _ s1 _ _ _ _ Hs1 (RL_firstn _ _ _ 2 H4) (RL_skipn _ _ _ 2 H4) eq_refl)].
    intros s2 D2 [Hs2 H2]. cbn [firstn skipn map2 length] in Hs2, H2.
    apply (wpM_bind (fun i => or_many (E i 1) (firstn 1 (D2 i)) (skipn 1 (D2 i)))).
    eapply wpM_mono; [|apply (or_many_ok E brel Inv g_and OK 1 in1 _ s2 _ _ _ _ Hs2 (RL_firstn _ _ _ 1 H2) (RL_skipn _ _ _ 1 H2) eq_refl)].
    intros s3 D1 [Hs3 H1]. cbn [firstn skipn map2 length] in Hs3, H1.
    destruct (RL_inv_cons _ _ _ _ H1) as (Y & D0 & EY & HY & _).
    apply (wpM_res _ Y); [intros i; rewrite EY; reflexivity|]. split; [exact Hs3|].
    match goal with HY : brel 1 Y ?a |- brel 1 Y ?b => replace b with a; [exact HY|] end.
    cbn [orl fold_right]. rewrite Z.lor_0_r. clear. bitsolve.
  Qed.

  Lemma reduce_split_ok H (f : pid -> share -> M S share) (gf : Gh -> Gh) X x g s :
    In H widths -> In (2 * H) widths ->
    (forall Y y g s, Inv g s -> brel H Y y -> wpM (fun i => f i (Y i)) s (fun s' W => Inv (gf g) s' /\ brel 1 W (nz y))) ->
    Inv g s -> brel (2 * H) X x ->
    wpM (fun i => let '(l, h) := split_share H (X i) in bindM (b_or (E i H) l h) (f i)) s
      (fun s' W => Inv (gf (g_and H 1%nat g)) s' /\ brel 1 W (nz x)).
  Proof using OK.
    intros HH H2 Hf Hs HX. destruct (split_ok H X x HH H2 HX) as [HL HU].
    apply (wpM_ext (fun i => bindM (b_or (E i H) (fst (split_share H (X i))) (snd (split_share H (X i)))) (f i))).
    { intros i. reflexivity. }
    apply (wpM_bind (fun i => b_or (E i H) (fst (split_share H (X i))) (snd (split_share H (X i))))).
    eapply wpM_mono; [|apply (or_ok E brel Inv g_and OK H HH g s _ _ _ _ Hs HL HU)].
    intros s' W [Hs' HW]. eapply wpM_mono; [|apply (Hf W _ _ s' Hs' HW)].
    intros s2 V [H3 H4]. split; [exact H3|]. rewrite split_lor in H4; [exact H4|apply in_widths_pos, HH|].
    destruct HX as (_ & HX). eapply brel_range; [|exact HX]. apply in_widths_pos in H2; lia.
  Qed.
  Definition g_or128 (g : Gh) : Gh := g_or8 (g_and 8 1%nat (g_and 16 1%nat (g_and 32 1%nat (g_and 64 1%nat g)))).
  Lemma reduce_or_u128_ok X x g s : Inv g s -> brel 128 X x ->
    wpM (fun i => reduce_or_u128 (E i 1) (E i 8) (E i 16) (E i 32) (E i 64) (X i)) s
      (fun s' W => Inv (g_or128 g) s' /\ brel 1 W (nz x)).
  Proof using OK.
    intros Hs HX. unfold reduce_or_u128, g_or128.
    apply (reduce_split_ok 64 _ (fun g => g_or8 (g_and 8 1%nat (g_and 16 1%nat (g_and 32 1%nat g))))); [cbn; tauto|cbn; tauto| |exact Hs|exact HX].
    intros X1 x1 g1 s1 Hs1 HX1. unfold reduce_or_u64.
    apply (reduce_split_ok 32 _ (fun g => g_or8 (g_and 8 1%nat (g_and 16 1%nat g)))); [cbn; tauto|cbn; tauto| |exact Hs1|exact HX1].
    intros X2 x2 g2 s2 Hs2 HX2. unfold reduce_or_u32.
    apply (reduce_split_ok 16 _ (fun g => g_or8 (g_and 8 1%nat g))); [cbn; tauto|cbn; tauto| |exact Hs2|exact HX2].
    intros X3 x3 g3 s3 Hs3 HX3. unfold reduce_or_u16.
    apply (reduce_split_ok 8 _ g_or8); [cbn; tauto|cbn; tauto| |exact Hs3|exact HX3].
    intros. apply reduce_or_u8_ok; assumption.
  Qed.
  Definition g_reduce_or (n chunk : nat) (g : Gh) : Gh :=
    let nw := nchunks 128 n in g_or128 (g_or_tree g_and 128 nw chunk nw g).
  Lemma reduce_binary_or_ok X bs chunk g s : (0 < chunk)%nat -> (0 < length bs)%nat -> Inv g s -> RL (brel 1) X bs ->
    wpM (fun i => reduce_binary_or (E i 1) (E i 8) (E i 16) (E i 32) (E i 64) (E i 128) (X i) chunk) s
      (fun s' W => Inv (g_reduce_or (length bs) chunk g) s' /\ brel 1 W (or_bits bs)).
  Proof using OK.
    intros Hc Hn Hs HX. unfold reduce_binary_or, g_reduce_or. pose proof (brel_Forall 1 X bs HX) as HF.
    pose proof (vpack_rowis bs HF) as (HL & _).
    destruct (nchunks_bound 128 (length bs) ltac:(lia)) as [_ Pn]. specialize (Pn Hn).
    apply (wpM_bind (fun i => or_tree (E i 128) (pack 128 (X i)) chunk)).
    eapply wpM_mono; [|apply (or_tree_ok E brel Inv g_and OK 128 in128 chunk _ (vpack 128 bs) g s Hc ltac:(lia) Hs)].
    - intros s1 W [Hs1 HW]. rewrite HL in Hs1.
      eapply wpM_mono; [|apply (reduce_or_u128_ok W _ _ s1 Hs1 HW)].
      intros s2 V [H1 H2]. split; [exact H1|]. rewrite nz_orl_vpack in H2 by exact HF. exact H2.
    - apply pack_ok; [exact in128|lia|exact HX].
  Qed.
End Or.
