(** Lemmas about the ring and codec model. *)
From Verif Require Import Base Ring.
From Coq Require Import Znumtheory Zpow_facts ZifyBool.
Ltac Zify.zify_post_hook ::= Z.div_mod_to_equations.

Lemma pow2_pos K : 0 <= K -> 0 < 2 ^ K.
Proof. intros; apply Z.pow_pos_nonneg; lia. Qed.

Lemma norm_range K x : 0 <= K -> inr K (norm K x).
Proof. intros; unfold inr, norm; apply Z.mod_pos_bound, pow2_pos; lia. Qed.

Lemma norm_small K x : inr K x -> norm K x = x.
Proof. unfold inr, norm; intros; apply Z.mod_small; lia. Qed.

Lemma pow256 n : 256 ^ Z.of_nat n = 2 ^ (8 * Z.of_nat n).
Proof. rewrite Z.pow_mul_r by lia. reflexivity. Qed.

(** *** bytes *)
Lemma to_be_length n x : length (to_be n x) = n.
Proof. revert x; induction n as [|n IH]; intros x; simpl; [reflexivity|].
  rewrite app_length, IH; simpl; lia. Qed.

Lemma to_be_bytes n x : Forall (fun b => 0 <= b < 256) (to_be n x).
Proof. revert x; induction n as [|n IH]; intros x; simpl; [constructor|].
  apply Forall_app; split; [apply IH|]. constructor; [|constructor].
  apply Z.mod_pos_bound; lia. Qed.

Lemma of_be_app l b : of_be (l ++ [b]) = of_be l * 256 + b.
Proof. unfold of_be. rewrite fold_left_app. reflexivity. Qed.

Lemma of_be_to_be n x : of_be (to_be n x) = x mod 256 ^ Z.of_nat n.
Proof.
  revert x; induction n as [|n IH]; intros x.
  - simpl. rewrite Z.mod_1_r. reflexivity.
  - cbn [to_be]. rewrite of_be_app, IH.
    rewrite Nat2Z.inj_succ, Z.pow_succ_r by lia.
    rewrite Z.rem_mul_r by (try lia; apply Z.pow_pos_nonneg; lia). lia.
Qed.

Lemma of_be_range l : Forall (fun b => 0 <= b < 256) l ->
  0 <= of_be l < 256 ^ Z.of_nat (length l).
Proof.
  induction l as [|b l IH] using rev_ind; intros H.
  - cbn. lia.
  - apply Forall_app in H as [Hl Hb]. inversion Hb as [|? ? Hb0 _]; subst.
    rewrite of_be_app, app_length, Nat2Z.inj_add, Z.pow_add_r by lia.
    specialize (IH Hl). change (256 ^ Z.of_nat (length [b])) with 256. nia.
Qed.

Lemma to_be_of_be l : Forall (fun b => 0 <= b < 256) l -> to_be (length l) (of_be l) = l.
Proof.
  induction l as [|b l IH] using rev_ind; intros H; [reflexivity|].
  apply Forall_app in H as [Hl Hb]. inversion Hb as [|? ? Hb0 _]; subst.
  rewrite app_length, Nat.add_comm. cbn [length Nat.add to_be].
  rewrite of_be_app.
  replace ((of_be l * 256 + b) / 256) with (of_be l) by lia.
  replace ((of_be l * 256 + b) mod 256) with b by lia.
  rewrite IH by exact Hl. reflexivity.
Qed.

Lemma to_be_inj n x y : 0 <= x < 256 ^ Z.of_nat n -> 0 <= y < 256 ^ Z.of_nat n ->
  to_be n x = to_be n y -> x = y.
Proof.
  intros Hx Hy H. apply (f_equal of_be) in H.
  rewrite !of_be_to_be, !Z.mod_small in H by lia. exact H.
Qed.

Lemma width_cases K : In K widths -> K = 1 \/ K = 8 \/ K = 16 \/ K = 32 \/ K = 64 \/ K = 128.
Proof. unfold widths; simpl; intuition. Qed.

Lemma width_fits K x : In K widths -> inr K x -> 0 <= x < 256 ^ Z.of_nat (nbytes K).
Proof.
  intros HK [H0 H1]. split; [exact H0|]. eapply Z.lt_le_trans; [exact H1|].
  apply width_cases in HK. destruct HK as [->|[->|[->|[->|[->| ->]]]]]; vm_compute; discriminate.
Qed.

Lemma width_pos K : In K widths -> 0 < K.
Proof. intros H; apply width_cases in H; lia. Qed.

Lemma nbytes_pos K : In K widths -> (0 < nbytes K)%nat.
Proof. intros H; apply width_cases in H.
  destruct H as [->|[->|[->|[->|[->| ->]]]]]; cbn; lia. Qed.

(** For the byte-sized widths the encoding is onto. *)
Lemma width_exact K : In K widths -> K <> 1 -> 256 ^ Z.of_nat (nbytes K) = 2 ^ K.
Proof. intros H H1; apply width_cases in H.
  destruct H as [->|[->|[->|[->|[->| ->]]]]]; try lia; reflexivity. Qed.

Lemma bit_guard K x : In K widths -> inr K x -> (K =? 1) && negb ((x =? 0) || (x =? 1)) = false.
Proof.
  intros HK [H0 H1]. destruct (Z.eqb_spec K 1) as [->|Hne]; [|reflexivity].
  change (2 ^ 1) with 2 in H1. simpl. lia.
Qed.

Lemma to_bytes_eq K x : to_bytes K x = to_be (nbytes K) x.
Proof. reflexivity. Qed.

Lemma take_to_bytes K x rest : In K widths -> inr K x ->
  take_from_bytes K (to_bytes K x ++ rest) = Ok (x, rest).
Proof.
  intros HK Hx. unfold take_from_bytes.
  rewrite to_bytes_eq, app_length, to_be_length.
  replace (Nat.ltb (nbytes K + length rest) (nbytes K)) with false
    by (symmetry; apply Nat.ltb_ge; lia).
  rewrite firstn_app, to_be_length, Nat.sub_diag, firstn_O, app_nil_r.
  rewrite firstn_all2 by (rewrite to_be_length; lia).
  rewrite skipn_app, to_be_length, Nat.sub_diag, skipn_all2 by (rewrite to_be_length; lia).
  rewrite of_be_to_be, Z.mod_small by (apply width_fits; assumption).
  rewrite bit_guard by assumption. reflexivity.
Qed.

Lemma from_to_bytes K x : In K widths -> inr K x -> from_bytes K (to_bytes K x) = Ok x.
Proof.
  intros HK Hx. unfold from_bytes. rewrite to_bytes_eq, to_be_length, Nat.eqb_refl.
  rewrite of_be_to_be, Z.mod_small by (apply width_fits; assumption).
  rewrite bit_guard by assumption. reflexivity.
Qed.

Lemma from_bytes_range K bs x : In K widths -> Forall (fun b => 0 <= b < 256) bs ->
  from_bytes K bs = Ok x -> inr K x.
Proof.
  intros HK Hb H. unfold from_bytes in H.
  destruct (Nat.eqb_spec (length bs) (nbytes K)) as [Hl|]; [|discriminate].
  pose proof (of_be_range bs Hb) as Hr. rewrite Hl in Hr.
  destruct (Z.eqb_spec K 1) as [->|Hne]; cbn [andb] in H.
  - destruct (Z.eqb_spec (of_be bs) 0), (Z.eqb_spec (of_be bs) 1); cbn in H; try discriminate;
      inversion H; subst; unfold inr; lia.
  - rewrite width_exact in Hr by assumption. inversion H; subst. exact Hr.
Qed.

(** An accepted byte string is exactly the encoding of the value it decodes to. *)
Lemma from_bytes_canonical K bs x : In K widths -> Forall (fun b => 0 <= b < 256) bs ->
  from_bytes K bs = Ok x -> bs = to_bytes K x.
Proof.
  intros HK Hb H. unfold from_bytes in H.
  destruct (Nat.eqb_spec (length bs) (nbytes K)) as [Hl|]; [|discriminate].
  destruct ((K =? 1) && negb ((of_be bs =? 0) || (of_be bs =? 1))); [discriminate|].
  inversion H; subst. rewrite to_bytes_eq, <- Hl. symmetry; apply to_be_of_be; exact Hb.
Qed.

Lemma slice_to_bytes_concat K l out :
  fold_left (fun o v => add_to_bytes K v o) l out = out ++ concat (map (to_bytes K) l).
Proof.
  revert out; induction l as [|v l IH]; intros out; simpl; [rewrite app_nil_r; reflexivity|].
  rewrite IH. unfold add_to_bytes at 1. rewrite <- app_assoc. reflexivity.
Qed.

Lemma ring_slice_to_bytes_eq K l : ring_slice_to_bytes K l = concat (map (to_bytes K) l).
Proof. unfold ring_slice_to_bytes. rewrite slice_to_bytes_concat. reflexivity. Qed.

Lemma ring_slice_length K l : length (ring_slice_to_bytes K l) = (length l * nbytes K)%nat.
Proof.
  rewrite ring_slice_to_bytes_eq. induction l as [|v l IH]; simpl; [reflexivity|].
  rewrite app_length, IH, to_bytes_eq, to_be_length. reflexivity.
Qed.

Lemma take_n_app K l rest : In K widths -> Forall (inr K) l ->
  take_n K (length l) (ring_slice_to_bytes K l ++ rest) = Ok (l, rest).
Proof.
  intros HK. rewrite ring_slice_to_bytes_eq. induction l as [|v l IH]; intros H; [reflexivity|].
  inversion H as [|? ? Hv Hl]; subst. cbn [length take_n map concat].
  rewrite <- app_assoc, take_to_bytes by assumption. rewrite (IH Hl). reflexivity.
Qed.

Lemma vec_roundtrip K l : In K widths -> Forall (inr K) l ->
  ring_vec_from_bytes K (ring_slice_to_bytes K l) (length l) = Ok l.
Proof.
  intros HK H. unfold ring_vec_from_bytes.
  rewrite <- (app_nil_r (ring_slice_to_bytes K l)), take_n_app by assumption. reflexivity.
Qed.

Lemma drain_roundtrip K l : In K widths -> Forall (inr K) l ->
  iter_drain K (length l) (ring_slice_to_bytes K l) = Ok l.
Proof.
  intros HK. rewrite ring_slice_to_bytes_eq. induction l as [|v l IH]; intros H; [reflexivity|].
  inversion H as [|? ? Hv Hl]; subst. cbn [length iter_drain map concat].
  rewrite take_to_bytes by assumption. rewrite (IH Hl). reflexivity.
Qed.

Lemma iter_roundtrip K l : In K widths -> Forall (inr K) l ->
  ring_iter_from_bytes K (ring_slice_to_bytes K l) (length l) = Ok l.
Proof.
  intros HK H. unfold ring_iter_from_bytes. rewrite ring_slice_length, Nat.eqb_refl.
  apply drain_roundtrip; assumption.
Qed.

Lemma take_shorter K bs v r : take_from_bytes K bs = Ok (v, r) ->
  length bs = (nbytes K + length r)%nat.
Proof.
  unfold take_from_bytes. destruct (Nat.ltb_spec (length bs) (nbytes K)) as [|Hge]; [discriminate|].
  destruct ((K =? 1) && _); [discriminate|]. intros H; inversion H; subst.
  rewrite skipn_length. lia.
Qed.

Lemma take_n_length K n bs vs r : take_n K n bs = Ok (vs, r) ->
  length vs = n /\ length bs = (n * nbytes K + length r)%nat.
Proof.
  revert bs vs r; induction n as [|n IH]; intros bs vs r H; cbn [take_n] in H.
  - inversion H; subst; split; reflexivity.
  - destruct (take_from_bytes K bs) as [[v bs']|] eqn:E; [|discriminate].
    destruct (take_n K n bs') as [[vs' r']|] eqn:E'; [|discriminate].
    inversion H; subst. apply IH in E' as [E1 E2]. apply take_shorter in E. simpl. lia.
Qed.

Lemma vec_wrong_length K bs n : length bs <> (n * nbytes K)%nat ->
  ring_vec_from_bytes K bs n = Err EConversion.
Proof.
  intros H. unfold ring_vec_from_bytes.
  destruct (take_n K n bs) as [[vs r]|e] eqn:E.
  - apply take_n_length in E as [_ E]. destruct r; [simpl in E; lia | reflexivity].
  - clear H. revert bs e E; induction n as [|n IH]; intros bs e E; cbn [take_n] in E; [discriminate|].
    destruct (take_from_bytes K bs) as [[v bs']|e'] eqn:E1.
    + destruct (take_n K n bs') as [[vs' r']|e'] eqn:E2; [discriminate|].
      inversion E; subst. apply (IH _ _ E2).
    + inversion E; subst. unfold take_from_bytes in E1.
      destruct (Nat.ltb _ _); [congruence|]. destruct ((K =? 1) && _); congruence.
Qed.

Lemma iter_wrong_length K bs n : length bs <> (n * nbytes K)%nat ->
  ring_iter_from_bytes K bs n = Err EConversion.
Proof.
  intros H. unfold ring_iter_from_bytes. destruct (Nat.eqb_spec (length bs) (n * nbytes K)); [lia|reflexivity].
Qed.

(** Without malformed Bit bytes the iterator parser never panics. *)
Lemma iter_no_panic K bs n : In K widths -> K <> 1 -> ring_iter_from_bytes K bs n <> Err EPanic.
Proof.
  intros HK Hne H. unfold ring_iter_from_bytes in H.
  destruct (Nat.eqb_spec (length bs) (n * nbytes K)) as [Hl|]; [|discriminate].
  revert bs Hl H; induction n as [|n IH]; intros bs Hl H; cbn [iter_drain] in H; [discriminate|].
  unfold take_from_bytes in H.
  destruct (Nat.ltb_spec (length bs) (nbytes K)) as [|Hge]; [simpl in Hl; lia|].
  replace (K =? 1) with false in H by lia. cbn [andb] in H.
  destruct (iter_drain K n (skipn (nbytes K) bs)) eqn:E; [discriminate|].
  injection H as ->. revert E; apply IH. rewrite skipn_length. simpl in Hl. lia.
Qed.

(** *** inverse *)
Lemma mod_half a b : 0 < b <= a -> 2 * (a mod b) < a.
Proof.
  intros H. assert (a / b >= 1) by (apply Z.le_ge, Z.div_le_lower_bound; lia).
  pose proof (Z.div_mod a b ltac:(lia)). pose proof (Z.mod_pos_bound a b ltac:(lia)). nia.
Qed.

Ltac Zify.zify_post_hook ::= idtac.
Section Euclid.
  Context (W K a : Z).
  Hypothesis HK : 0 < K.
  Hypothesis HW : W = 2 * K.

  Definition einv (r0 r1 s0 s1 : Z) : Prop :=
    0 < r0 < 2 ^ W /\ 0 <= r1 < 2 ^ W /\
    (r0 - s0 * a) mod 2 ^ K = 0 /\ (r1 - s1 * a) mod 2 ^ K = 0 /\ Z.gcd r0 r1 = 1.

  Lemma mod_2W_K x : (x mod 2 ^ W) mod 2 ^ K = x mod 2 ^ K.
  Proof.
    rewrite HW. replace (2 * K) with (K + K) by lia. rewrite Z.pow_add_r by lia.
    pose proof (pow2_pos K ltac:(lia)).
    rewrite Z.rem_mul_r by lia.
    rewrite <- Zplus_mod_idemp_r, Z.mul_comm, Z.mod_mul, Z.add_0_r, Zmod_mod by lia.
    reflexivity.
  Qed.

  Lemma einv_step r0 r1 s0 s1 : r1 <> 0 -> einv r0 r1 s0 s1 ->
    let q := r0 / r1 in
    (r0 - (q * r1) mod 2 ^ W) mod 2 ^ W = r0 mod r1 /\
    einv r1 (r0 mod r1) s1 ((s0 - (q * s1) mod 2 ^ W) mod 2 ^ W).
  Proof.
    intros Hne (Hr0 & Hr1 & E0 & E1 & G) q.
    pose proof (Z.div_mod r0 r1 Hne) as Hdm.
    pose proof (Z.mod_pos_bound r0 r1 ltac:(lia)) as Hb.
    assert (Hq : q * r1 = r0 - r0 mod r1) by (unfold q; lia).
    assert (Hmr : r0 mod r1 <= r0) by (apply Z.mod_le; lia).
    pose proof (pow2_pos K ltac:(lia)) as HpK.
    split.
    - rewrite (Z.mod_small (q * r1)) by lia. rewrite Z.mod_small by lia. lia.
    - unfold einv. repeat split; try lia.
      assert (Es : ((s0 - (q * s1) mod 2 ^ W) mod 2 ^ W) mod 2 ^ K = (s0 - q * s1) mod 2 ^ K).
      { rewrite mod_2W_K. rewrite <- Zminus_mod_idemp_r, mod_2W_K, Zminus_mod_idemp_r. reflexivity. }
      set (s := (s0 - (q * s1) mod 2 ^ W) mod 2 ^ W) in *.
      apply Z.mod_divide in E0, E1; try lia. destruct E0 as [x0 E0], E1 as [x1 E1].
      assert (exists z, s = s0 - q * s1 + z * 2 ^ K) as [z Ez].
      { assert ((s - (s0 - q * s1)) mod 2 ^ K = 0).
        { rewrite Zminus_mod, Es, Z.sub_diag. apply Z.mod_0_l; lia. }
        apply Z.mod_divide in H; try lia. destruct H as [z Hz]. exists z; lia. }
      apply Z.mod_divide; [lia|]. exists (x0 - q * x1 - z * a). fold q in Hdm.
      replace (r0 mod r1) with (r0 - r1 * q) by lia. rewrite Ez.
      replace r0 with (x0 * 2 ^ K + s0 * a) by lia.
      replace r1 with (x1 * 2 ^ K + s1 * a) by lia. ring.
      rewrite Z.gcd_comm, Z.gcd_mod by lia. rewrite Z.gcd_comm. exact G.
  Qed.

  Lemma euclid_ok k : forall fuel r0 r1 s0 s1, (2 * k + 1 <= fuel)%nat ->
    r1 < 2 ^ Z.of_nat k -> r1 <= r0 -> einv r0 r1 s0 s1 ->
    exists s, euclid_loop fuel W r0 r1 s0 s1 = Some (1, s) /\ (1 - s * a) mod 2 ^ K = 0.
  Proof.
    induction k as [|k IH]; intros fuel r0 r1 s0 s1 Hf Hr Hle HI.
    - pose proof HI as (Hr0 & Hr1 & E0 & E1 & G). change (2 ^ Z.of_nat 0) with 1 in Hr.
      assert (r1 = 0) by lia. subst r1. rewrite Z.gcd_0_r, Z.abs_eq in G by lia. subst r0.
      exists s0. split; [destruct fuel; reflexivity | exact E0].
    - assert (Hbase : forall f r0 s0 s1, einv r0 0 s0 s1 ->
        exists s, euclid_loop f W r0 0 s0 s1 = Some (1, s) /\ (1 - s * a) mod 2 ^ K = 0).
      { intros f r s s' (Hr0 & Hr1 & E0 & E1 & G).
        rewrite Z.gcd_0_r, Z.abs_eq in G by lia. subst r. exists s.
        split; [destruct f; reflexivity | exact E0]. }
      destruct (Z.eq_dec r1 0) as [->|Hne]; [apply (Hbase fuel r0 s0 s1 HI)|].
      destruct fuel as [|fuel]; [lia|]. cbn [euclid_loop].
      replace (r1 =? 0) with false by lia.
      destruct (einv_step _ _ _ _ Hne HI) as [Er HI1]. cbv zeta in Er, HI1. rewrite Er.
      set (s2 := (s0 - _) mod 2 ^ W) in *. clearbody s2.
      pose proof HI as (Hr0 & Hr1 & _).
      pose proof (Z.mod_pos_bound r0 r1 ltac:(lia)) as Hb.
      destruct (Z.eq_dec (r0 mod r1) 0) as [E0|Hne2].
      { rewrite E0 in *. apply (Hbase fuel r1 s1 s2 HI1). }
      destruct fuel as [|fuel]; [lia|]. cbn [euclid_loop].
      replace (r0 mod r1 =? 0) with false by lia.
      destruct (einv_step _ _ _ _ Hne2 HI1) as [Er2 HI2]. cbv zeta in Er2, HI2. rewrite Er2.
      set (s3 := (s1 - _) mod 2 ^ W) in *. clearbody s3.
      apply IH; try lia; try exact HI2.
      + pose proof (mod_half r1 (r0 mod r1) ltac:(lia)) as Hh.
        rewrite Nat2Z.inj_succ, Z.pow_succ_r in Hr by lia. lia.
      + pose proof (Z.mod_pos_bound r1 (r0 mod r1) ltac:(lia)). lia.
  Qed.
End Euclid.

Ltac Zify.zify_post_hook ::= Z.div_mod_to_equations.
Lemma gcd_odd_pow2 x K : 0 <= K -> Z.odd x = true -> Z.gcd (2 ^ K) x = 1.
Proof.
  intros HK Ho. apply Zgcd_1_rel_prime. apply rel_prime_sym.
  apply rel_prime_Zpower_r; [lia|]. apply rel_prime_sym, prime_rel_prime; [apply prime_2|].
  intros [z Hz]. subst x. rewrite Z.odd_mul in Ho. cbn in Ho. rewrite andb_false_r in Ho. discriminate.
Qed.

Lemma land1_odd x : Z.land 1 x = if Z.odd x then 1 else 0.
Proof.
  rewrite Z.land_comm. change 1 with (Z.ones 1) at 1. rewrite Z.land_ones by lia.
  change (2 ^ 1) with 2. rewrite Zmod_odd. reflexivity.
Qed.

Lemma inverse_odd K x : In K [8; 16; 32; 64] -> inr K x -> Z.odd x = true ->
  exists y, inverse K x = Some (Ok y) /\ inr K y /\ rmul K x y = 1.
Proof.
  intros HK [Hx0 Hx1] Ho.
  assert (HK' : 0 < K /\ K <> 1 /\ K <> 128) by (simpl in HK; lia). destruct HK' as (Hpos & H1 & H128).
  unfold inverse. replace (K =? 128) with false by lia. replace (K =? 1) with false by lia.
  rewrite land1_odd, Ho. change (1 =? 0) with false. cbv iota.
  pose proof (pow2_pos K ltac:(lia)) as Hp.
  assert (Hlt : 2 ^ K < 2 ^ (2 * K)) by (apply Z.pow_lt_mono_r; lia).
  destruct (euclid_ok (2 * K) K x Hpos eq_refl (Z.to_nat K)
             (Z.to_nat (2 * K + 2)) (2 ^ K) x 0 1) as (s & Es & Hs); try lia.
  - rewrite Z2Nat.id by lia. exact Hx1.
  - unfold einv. repeat split; try lia.
    + rewrite Z.sub_0_r. apply Z.mod_same; lia.
    + rewrite Z.mul_1_l, Z.sub_diag. apply Z.mod_0_l; lia.
    + apply gcd_odd_pow2; [lia|exact Ho].
  - unfold extended_euclid_rev. rewrite Es. exists (s mod 2 ^ K). split; [reflexivity|].
    split; [apply Z.mod_pos_bound; lia|]. unfold rmul.
    rewrite Zmult_mod_idemp_r. apply Z.mod_divide in Hs; [|lia]. destruct Hs as [z Hz].
    replace (x * s) with (1 + (- z) * 2 ^ K) by lia.
    rewrite Z.mod_add by lia. apply Z.mod_small.
    split; [lia|]. apply (Z.pow_gt_1 2 K); lia.
Qed.

Lemma inverse_even K x : In K [1; 8; 16; 32; 64] -> inr K x -> Z.odd x = false ->
  inverse K x = Some (Err ENoInverse).
Proof.
  intros HK Hx He. unfold inverse.
  assert (K <> 128) by (simpl in HK; lia). replace (K =? 128) with false by lia.
  destruct (Z.eqb_spec K 1) as [->|].
  - assert (x = 0). { destruct Hx as [H0 H1]. change (2 ^ 1) with 2 in H1.
      assert (x = 0 \/ x = 1) as [->| ->] by lia; [reflexivity|discriminate]. }
    subst; reflexivity.
  - rewrite land1_odd, He. reflexivity.
Qed.
