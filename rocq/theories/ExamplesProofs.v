(** Lemmas about the shipped programs: sampling, the tables, reading them back. *)
From Verif Require Import Base Ring RingProofs Prog Rng Net Iris IrisSpec IrisProofs MpcSpec Rel ShareSpec SpecProofs Protocol Aby3 Jmp Aby3Mal Spdz Swift3 Swift3Setup
  Swift3Verify Swift3VerifyProofs Swift3Api PropLemmas PropLemmas2 PropLemmas6 Aby3MalProofs AddProofs Emits TripleSpec Swift3Spec Examples.

(** ** bytes and words *)
Lemma chunks_fuel_flat {A} (f : A -> list Z) n l : (0 < n)%nat -> (forall a, length (f a) = n) ->
  forall fuel, (length l <= fuel)%nat -> chunks_fuel fuel n (flat_map f l) = map f l.
Proof.
  intros Hn Hf. induction l as [|a l IH]; intros fuel Hl; [destruct fuel; reflexivity|]. destruct fuel as [|fuel]; [cbn in Hl; lia|].
  cbn [flat_map map chunks_fuel]. pose proof (Hf a) as La. destruct (f a) as [|x t] eqn:E; [cbn in La; lia|]. rewrite <- E in *. 
  destruct (f a ++ flat_map f l) eqn:E2; [rewrite E in E2; discriminate|]. rewrite <- E2.
  rewrite <- La at 1. rewrite AddProofs.firstn_length_app. rewrite <- La at 2. rewrite AddProofs.skipn_length_app. rewrite IH; [reflexivity|cbn in Hl; lia].
Qed.
Lemma raw_len c : length (raw c) = (8 * length c)%nat.
Proof. unfold raw. induction c as [|w c IH]; [reflexivity|]. cbn [flat_map length]. rewrite app_length, to_le_len, IH. lia. Qed.
Lemma copy_raw_raw c : wf_code c -> copy_raw (raw c) = Ok c.
Proof.
  intros [Hl Hr]. unfold copy_raw. rewrite raw_len, Hl. change (Z.of_nat (8 * IRIS_CODE_SIZE_U64) =? 1600) with true. cbv iota.
  unfold unraw, chunks. unfold raw at 2. rewrite chunks_fuel_flat; [|lia|intros a; apply to_le_len|rewrite raw_len; lia].
  rewrite map_map. rewrite <- (map_id c) at 2. f_equal. apply map_ext_in. intros w Hw. rewrite Forall_forall in Hr. apply from_le_to_le. exact (Hr _ Hw).
Qed.
Lemma from_le_range l : Forall (fun b => 0 <= b < 256) l -> 0 <= from_le l < 256 ^ Z.of_nat (length l).
Proof.
  unfold from_le. induction 1 as [|b l Hb _ IH]; [cbn; lia|]. cbn [fold_right length]. rewrite Nat2Z.inj_succ, Z.pow_succ_r by lia. lia.
Qed.
Lemma unraw_wf b : Forall (fun x => 0 <= x < 256) b -> length b = (8 * IRIS_CODE_SIZE_U64)%nat -> wf_code (unraw b).
Proof.
  intros Hb Hl. unfold unraw. destruct (chunks_exact 8 IRIS_CODE_SIZE_U64 b ltac:(lia) Hl) as [H1 H2]. split; [rewrite map_length; exact H2|].
  pose proof (chunks_incl _ 8 b Hb) as H3. apply Forall_map. rewrite Forall_forall in H1, H3 |- *. intros c Hc. pose proof (from_le_range c (H3 _ Hc)) as R. rewrite (H1 _ Hc) in R. exact R.
Qed.

Section Sampling.
  Variable G : rng.
  Lemma random_code_wf s : wf_code (snd (random_code G s)).
  Proof.
    unfold random_code. destruct (draw G IRIS_CODE_SIZE_Z s) as [s1 v]. cbn [snd]. apply unraw_wf.
    - unfold to_le. apply Forall_rev. apply to_be_bytes.
    - rewrite to_le_len. reflexivity.
  Qed.
  (** The mask after clearing: every bit is as before or cleared. *)
  Lemma clear_bits_ok p n : forall i m s, 0 <= i -> i + Z.of_nat n <= 12800 -> wf_code m ->
    exists s' m', clear_bits G p n i m s = Ok (s', m') /\ wf_code m'.
  Proof.
    induction n as [|n IH]; intros i m s Hi Hn Hm; [exists s, m; auto|]. cbn [clear_bits]. destruct (bernoulli G p s) as [s1 b].
    destruct b.
    - destruct (set_bit_spec m i false Hm ltac:(lia)) as (m1 & E & W & _). rewrite E. cbn [rbind]. apply IH; [lia|lia|exact W].
    - cbn [rbind]. apply IH; [lia|lia|exact Hm].
  Qed.
  Lemma random_iris_ok s : exists s' x, random_iris G s = Ok (s', x) /\ wf_iris x.
  Proof.
    unfold random_iris. pose proof (random_code_wf s) as Hc. destruct (random_code G s) as [s1 c]. cbn [snd] in Hc.
    destruct (clear_bits_ok (bernoulli_new 10) IRIS_CODE_SIZE 0 ONES s1 ltac:(lia) ltac:(rewrite iris_size_nat; lia) (proj2 codes_wf)) as (s2 & m & E & W).
    rewrite E. cbn [rbind fst snd]. eexists _, _. split; [reflexivity|]. split; assumption.
  Qed.
  Lemma flip_bits_ok p n : forall i x s, 0 <= i -> i + Z.of_nat n <= 12800 -> wf_iris x ->
    exists s' x', flip_bits G p n i x s = Ok (s', x') /\ wf_iris x'.
  Proof.
    induction n as [|n IH]; intros i x s Hi Hn [Hc Hm]; [exists s, x; split; [reflexivity|split; assumption]|]. cbn [flip_bits]. destruct (bernoulli G p s) as [s1 b1].
    assert (E1 : exists c, (if b1 then flip_bit (ir_code x) i else Ok (ir_code x)) = Ok c /\ wf_code c).
    { destruct b1; [|eauto]. destruct (flip_bit_spec _ i Hc ltac:(lia)) as (c & E & W & _). eauto. }
    destruct E1 as (c & -> & Wc). cbn [rbind]. destruct (bernoulli G p s1) as [s2 b2].
    assert (E2 : exists c, (if b2 then flip_bit (ir_mask x) i else Ok (ir_mask x)) = Ok c /\ wf_code c).
    { destruct b2; [|eauto]. destruct (flip_bit_spec _ i Hm ltac:(lia)) as (m & E & W & _). eauto. }
    destruct E2 as (m & -> & Wm). cbn [rbind]. apply IH; [lia|lia|split; assumption].
  Qed.
  Lemma similar_iris_ok x s : wf_iris x -> exists s' x', similar_iris G x s = Ok (s', x') /\ wf_iris x'.
  Proof. intros Hx. unfold similar_iris. apply flip_bits_ok; [lia|rewrite iris_size_nat; lia|exact Hx]. Qed.
  (** Irises that came out of the sampler. *)
  Definition sampled (x : iris) : Prop := exists s s', random_iris G s = Ok (s', x).
  Lemma random_irises_ok n : forall s, exists s' l, random_irises G n s = Ok (s', l) /\ Forall wf_iris l /\ length l = n /\ Forall sampled l.
  Proof.
    induction n as [|n IH]; intros s; [exists s, []; auto|]. cbn [random_irises]. destruct (random_iris_ok s) as (s1 & x & E & W). rewrite E. cbn [rbind fst snd].
    destruct (IH s1) as (s2 & l & E2 & W2 & L2 & S2). rewrite E2. cbn [rbind fst snd]. exists s2, (x :: l). cbn [length]. split; [reflexivity|]. split; [auto|]. split; [auto|].
    constructor; [exists s, s1; exact E|exact S2].
  Qed.
End Sampling.

(** ** what is sampled *)
(** The n-th output (from 0) of a generator in state s. *)
Definition nth_draw (G : rng) (K : Z) (s : rstate G) (n : nat) : Z := snd (draw G K (Nat.iter n (fun t => fst (draw G K t)) s)).
Lemma nth_draw_S G K s n : nth_draw G K s (S n) = nth_draw G K (fst (draw G K s)) n.
Proof.
  unfold nth_draw. f_equal. f_equal. induction n as [|n IH]; [reflexivity|]. cbn [Nat.iter nat_rect] in *. unfold Nat.iter in *. cbn [nat_rect] in *. rewrite IH. reflexivity.
Qed.
Lemma to_le_S n v : to_le (S n) v = v mod 256 :: to_le n (v / 256).
Proof. unfold to_le. cbn [to_be]. rewrite rev_app_distr. reflexivity. Qed.
Lemma to_le_app a : forall b v, to_le (a + b) v = to_le a v ++ to_le b (v / 256 ^ Z.of_nat a).
Proof.
  induction a as [|a IH]; intros b v; [cbn [Nat.add]; change (256 ^ Z.of_nat 0) with 1; rewrite Z.div_1_r; reflexivity|].
  cbn [Nat.add]. rewrite !to_le_S, IH, Nat2Z.inj_succ, Z.pow_succ_r by lia. rewrite Z.div_div by lia. reflexivity.
Qed.
Lemma to_le_mod n : forall v, to_le n (v mod 256 ^ Z.of_nat n) = to_le n v.
Proof.
  induction n as [|n IH]; intros v; [reflexivity|]. rewrite !to_le_S, Nat2Z.inj_succ, Z.pow_succ_r by lia.
  pose proof (Z.pow_pos_nonneg 256 (Z.of_nat n) ltac:(lia) ltac:(lia)) as Hp.
  rewrite Z.rem_mul_r by lia. f_equal.
  - rewrite (Z.mul_comm 256), Z.mod_add by lia. apply Z.mod_mod. lia.
  - rewrite (Z.mul_comm 256), Z.div_add by lia. rewrite (Z.div_small (v mod 256)) by (apply Z.mod_pos_bound; lia). rewrite Z.add_0_l. apply IH.
Qed.
Lemma from_le_to_le_mod n v : from_le (to_le n v) = v mod 256 ^ Z.of_nat n.
Proof. rewrite <- to_le_mod. apply from_le_to_le. apply Z.mod_pos_bound. apply Z.pow_pos_nonneg; lia. Qed.
Lemma to_le_words v n : forall k, to_le (8 * n) (v / 2 ^ (64 * Z.of_nat k)) = flat_map (fun k => to_le 8 (v / 2 ^ (64 * Z.of_nat k))) (seq k n).
Proof.
  induction n as [|n IH]; intros k; [reflexivity|]. replace (8 * S n)%nat with (8 + 8 * n)%nat by lia. rewrite to_le_app. cbn [seq flat_map]. rewrite <- IH. f_equal. f_equal.
  change (256 ^ Z.of_nat 8) with (2 ^ 64). assert (0 < 2 ^ (64 * Z.of_nat k)) by (apply Z.pow_pos_nonneg; lia). rewrite Z.div_div by lia. rewrite <- Z.pow_add_r by lia.
  replace (64 * Z.of_nat k + 64) with (64 * Z.of_nat (S k)) by lia. reflexivity.
Qed.
Lemma unraw_words v n : unraw (to_le (8 * n) v) = map (fun k => (v / 2 ^ (64 * Z.of_nat k)) mod 2 ^ 64) (seq 0 n).
Proof.
  pose proof (to_le_words v n 0) as E. change (2 ^ (64 * Z.of_nat 0)) with 1 in E. rewrite Z.div_1_r in E. unfold unraw, chunks. rewrite to_le_len, E.
  rewrite (chunks_fuel_flat _ 8 _ ltac:(lia) (fun k => to_le_len 8 _)) by (rewrite seq_length; lia).
  rewrite map_map. apply map_ext. intros k. apply from_le_to_le_mod.
Qed.
Lemma unraw_word n v k : (k < n)%nat -> nth k (unraw (to_le (8 * n) v)) 0 = (v / 2 ^ (64 * Z.of_nat k)) mod 2 ^ 64.
Proof.
  intros Hk. rewrite unraw_words. set (f := fun k : nat => _). rewrite (nth_indep _ 0 (f 0%nat)) by (rewrite map_length, seq_length; exact Hk). rewrite map_nth, seq_nth by exact Hk. reflexivity.
Qed.
Lemma unraw_bit v i : 0 <= i < 12800 -> bit_at (unraw (to_le (Z.to_nat 1600) v)) i = Z.testbit v i.
Proof.
  intros Hi. unfold bit_at. change (Z.to_nat 1600) with (8 * 200)%nat.
  assert (H1 : 0 <= i / 64 < 200) by (split; [apply Z.div_pos; lia|apply Z.div_lt_upper_bound; lia]). pose proof (Z.mod_pos_bound i 64 ltac:(lia)) as H2.
  rewrite unraw_word by lia. rewrite Z.mod_pow2_bits_low by lia. rewrite Z2Nat.id by lia. rewrite Z.div_pow2_bits by lia. f_equal. pose proof (Z.div_mod i 64 ltac:(lia)). lia.
Qed.
Section Sampled.
  Variable G : rng.
  Lemma clear_bits_spec p n : forall i m s s' m', 0 <= i -> i + Z.of_nat n <= 12800 -> wf_code m -> clear_bits G p n i m s = Ok (s', m') ->
    forall j, 0 <= j -> bit_at m' j = bit_at m j && negb ((i <=? j) && (j <? i + Z.of_nat n) && (nth_draw G 64 s (Z.to_nat (j - i)) <? p)).
  Proof.
    induction n as [|n IH]; intros i m s s' m' Hi Hn Hm E j Hj.
    - cbn [clear_bits] in E. injection E as <- <-. replace ((i <=? j) && (j <? i + Z.of_nat 0)) with false by lia. cbn. rewrite andb_true_r. reflexivity.
    - cbn [clear_bits] in E. unfold bernoulli in E. destruct (draw G 64 s) as [s1 v] eqn:Ed.
      assert (HX : exists m1, (if v <? p then set_bit m i false else Ok m) = Ok m1 /\ wf_code m1 /\ bit_at m1 i = bit_at m i && negb (v <? p) /\ forall k, 0 <= k -> k <> i -> bit_at m1 k = bit_at m k).
      { destruct (v <? p).
        - destruct (set_bit_spec m i false Hm ltac:(lia)) as (m1 & E1 & W & B1 & B2). exists m1. rewrite B1. cbn [negb]. rewrite andb_false_r. auto.
        - exists m. cbn [negb]. rewrite andb_true_r. auto. }
      destruct HX as (m1 & E1 & W & B1 & B2). rewrite E1 in E. cbn [rbind] in E.
      rewrite (IH (i + 1) m1 s1 s' m' ltac:(lia) ltac:(lia) W E j Hj). destruct (Z.eq_dec j i) as [->|Hne].
      + rewrite B1. replace (i + 1 <=? i) with false by lia. replace (i <=? i) with true by lia. replace (i <? i + Z.of_nat (S n)) with true by lia. rewrite Z.sub_diag. cbn [andb negb].
        rewrite andb_true_r. unfold nth_draw. cbn. rewrite Ed. reflexivity.
      + rewrite B2 by assumption. f_equal. f_equal. destruct (Z.leb_spec (i + 1) j) as [Hl|Hl].
        * replace (i <=? j) with true by lia. replace (j <? i + Z.of_nat (S n)) with (j <? i + 1 + Z.of_nat n) by lia. replace (Z.to_nat (j - i)) with (S (Z.to_nat (j - (i + 1)))) by lia.
          rewrite nth_draw_S, Ed. reflexivity.
        * replace (i <=? j) with false by lia. reflexivity.
  Qed.
  Lemma flip_bits_spec p n : forall i x s s' x', 0 <= i -> i + Z.of_nat n <= 12800 -> wf_iris x -> flip_bits G p n i x s = Ok (s', x') ->
    forall j, 0 <= j ->
      bit_at (ir_code x') j = xorb (bit_at (ir_code x) j) ((i <=? j) && (j <? i + Z.of_nat n) && (nth_draw G 64 s (2 * Z.to_nat (j - i)) <? p)) /\
      bit_at (ir_mask x') j = xorb (bit_at (ir_mask x) j) ((i <=? j) && (j <? i + Z.of_nat n) && (nth_draw G 64 s (2 * Z.to_nat (j - i) + 1) <? p)).
  Proof.
    induction n as [|n IH]; intros i x s s' x' Hi Hn [Hc Hm] E j Hj.
    - cbn [flip_bits] in E. injection E as <- <-. replace ((i <=? j) && (j <? i + Z.of_nat 0)) with false by lia. cbn [andb]. rewrite !xorb_false_r. auto.
    - cbn [flip_bits] in E. unfold bernoulli in E. destruct (draw G 64 s) as [s1 v1] eqn:Ed1. 
      assert (HX : forall (b : bool) m, wf_code m -> exists m1, (if b then flip_bit m i else Ok m) = Ok m1 /\ wf_code m1 /\ bit_at m1 i = xorb (bit_at m i) b /\ forall k, 0 <= k -> k <> i -> bit_at m1 k = bit_at m k).
      { intros b m Wm. destruct b.
        - destruct (flip_bit_spec m i Wm ltac:(lia)) as (m1 & E1 & W & B1 & B2). exists m1. rewrite B1, xorb_true_r. auto.
        - exists m. rewrite xorb_false_r. auto. }
      destruct (HX (v1 <? p) _ Hc) as (c1 & E1 & W1 & B1 & B1'). rewrite E1 in E. cbn [rbind] in E. destruct (draw G 64 s1) as [s2 v2] eqn:Ed2.
      destruct (HX (v2 <? p) _ Hm) as (m1 & E2 & W2 & B2 & B2'). rewrite E2 in E. cbn [rbind] in E.
      destruct (IH (i + 1) _ s2 s' x' ltac:(lia) ltac:(lia) (conj W1 W2 : wf_iris {| ir_code := c1; ir_mask := m1 |}) E j Hj) as [I1 I2]. cbn [ir_code ir_mask] in I1, I2.
      rewrite I1, I2. destruct (Z.eq_dec j i) as [->|Hne].
      + rewrite B1, B2. replace (i + 1 <=? i) with false by lia. replace (i <=? i) with true by lia. replace (i <? i + Z.of_nat (S n)) with true by lia. rewrite Z.sub_diag. cbn [andb].
        rewrite !xorb_false_r. change (2 * Z.to_nat 0)%nat with 0%nat. change (0 + 1)%nat with 1%nat. unfold nth_draw. cbn. rewrite Ed1. cbn [fst snd]. rewrite Ed2. auto.
      + rewrite B1', B2' by assumption. destruct (Z.leb_spec (i + 1) j) as [Hl|Hl].
        * replace (i <=? j) with true by lia. replace (j <? i + Z.of_nat (S n)) with (j <? i + 1 + Z.of_nat n) by lia.
          replace (2 * Z.to_nat (j - i))%nat with (S (S (2 * Z.to_nat (j - (i + 1)))))%nat by lia. cbn [Nat.add]. rewrite !nth_draw_S, Ed1. cbn [fst]. rewrite Ed2. auto.
        * replace (i <=? j) with false by lia. cbn [andb]. auto.
  Qed.
  Lemma random_iris_spec s s' x : random_iris G s = Ok (s', x) -> forall i, 0 <= i < 12800 ->
    bit_at (ir_code x) i = Z.testbit (snd (draw G 12800 s)) i /\
    bit_at (ir_mask x) i = negb (nth_draw G 64 (fst (draw G 12800 s)) (Z.to_nat i) <? bernoulli_new 10).
  Proof.
    unfold random_iris, random_code. change IRIS_CODE_SIZE_Z with 12800. destruct (draw G 12800 s) as [s1 v]. intros E i Hi. cbn [fst snd].
    destruct (clear_bits G (bernoulli_new 10) IRIS_CODE_SIZE 0 ONES s1) as [[s2 m]|e] eqn:E1; [|discriminate]. cbn [rbind fst snd] in E. injection E as <- <-. cbn [ir_code ir_mask].
    split; [apply unraw_bit, Hi|]. rewrite (clear_bits_spec (bernoulli_new 10) IRIS_CODE_SIZE 0 ONES s1 s2 m ltac:(lia) ltac:(rewrite iris_size_nat; lia) (proj2 codes_wf) E1) by lia.
    rewrite bit_at_ONES by exact Hi. rewrite iris_size_nat, Z.sub_0_r. replace ((0 <=? i) && (i <? 0 + 12800)) with true by lia. reflexivity.
  Qed.
  Lemma similar_iris_spec a s s' x : wf_iris a -> similar_iris G a s = Ok (s', x) -> forall i, 0 <= i < 12800 ->
    bit_at (ir_code x) i = xorb (bit_at (ir_code a) i) (nth_draw G 64 s (2 * Z.to_nat i) <? bernoulli_new 5) /\
    bit_at (ir_mask x) i = xorb (bit_at (ir_mask a) i) (nth_draw G 64 s (2 * Z.to_nat i + 1) <? bernoulli_new 5).
  Proof.
    intros Ha E i Hi. unfold similar_iris in E.
    destruct (flip_bits_spec (bernoulli_new 5) IRIS_CODE_SIZE 0 a s s' x ltac:(lia) ltac:(rewrite iris_size_nat; lia) Ha E i ltac:(lia)) as [H1 H2]. rewrite H1, H2, iris_size_nat, Z.sub_0_r.
    replace ((0 <=? i) && (i <? 0 + 12800)) with true by lia. auto.
  Qed.
End Sampled.

(** ** rows *)
Section Rows.
  Variable G : rng.
  Context {X C : Type}.
  Variable R : (pid -> X) -> Z -> Prop.
  Variable deal : Z -> rstate G -> rstate G * (X * X * X).
  Variable cols : list (X * X * X) -> C.
  Hypothesis deal_ok : forall (b : bool) s, R (fun i => pick3 i (snd (deal (Z.b2z b) s))) (Z.b2z b).

  (** A row made from the iris a. *)
  Definition stores (x : row C) (a : iris) : Prop :=
    wf_iris a /\ r_code x = raw (ir_code a) /\ r_mask x = raw (ir_mask a) /\
    exists ts, r_cols x = cols ts /\ RL R (fun i => map (pick3 i) ts) (code_vals (ir_code a)).

  Lemma deal_bits_ok bs : forall s, RL R (fun i => map (pick3 i) (snd (deal_bits G deal bs s))) (map Z.b2z bs).
  Proof using deal_ok.
    induction bs as [|b bs IH]; intros s; [apply RL_nil'|]. cbn [deal_bits]. pose proof (deal_ok b s) as Hd. destruct (deal (Z.b2z b) s) as [s1 t]. cbn [snd] in Hd.
    pose proof (IH s1) as H. destruct (deal_bits G deal bs s1) as [s2 ts]. cbn [snd map] in H |- *. apply (RL_cons' R (fun i => pick3 i t)); assumption.
  Qed.
  Lemma bits_vals c : map Z.b2z (map (bit_at c) positions) = code_vals c.
  Proof using Type. apply map_map. Qed.
  Lemma make_rows_ok l : Forall wf_iris l -> forall s, exists s' rs, make_rows G deal cols l s = Ok (s', rs) /\ Forall2 stores rs l.
  Proof using deal_ok.
    induction 1 as [|x l [Hc Hm] _ IH]; intros s; [exists s, []; auto|]. cbn [make_rows]. rewrite (bits_spec _ Hc). cbn [rbind].
    pose proof (deal_bits_ok (map (bit_at (ir_code x)) positions) s) as HD. destruct (deal_bits G deal _ s) as [s1 ts]. cbn [snd] in HD. rewrite bits_vals in HD.
    destruct (IH s1) as (s2 & rs & E & HF). rewrite E. cbn [rbind fst snd]. eexists _, _. split; [reflexivity|]. constructor; [|exact HF].
    split; [split; assumption|]. split; [reflexivity|]. split; [reflexivity|]. exists ts. split; [reflexivity|exact HD].
  Qed.
  Lemma create_ok n s tbl l0 : Forall2 stores tbl l0 -> exists tbl' l, create G deal cols n s tbl = Ok tbl' /\ Forall2 stores tbl' (l0 ++ l) /\ length l = n /\ Forall (sampled G) l.
  Proof using deal_ok.
    intros H0. unfold create. destruct (random_irises_ok G n s) as (s1 & l & E & W & L & HS). rewrite E. cbn [rbind fst snd].
    destruct (make_rows_ok l W s1) as (s2 & rs & E2 & HF). rewrite E2. cbn [rbind fst snd]. eexists _, l. split; [reflexivity|]. split; [|auto]. apply Forall2_app; assumption.
  Qed.
  Lemma row_iris_ok x a : stores x a -> row_iris x = Ok a.
  Proof using Type.
    intros ([Hc Hm] & E1 & E2 & _). unfold row_iris. rewrite E1, E2, !copy_raw_raw by assumption. cbn [rbind]. destruct a. reflexivity.
  Qed.
  Lemma stores_wf tbl l : Forall2 stores tbl l -> Forall wf_iris l.
  Proof using Type. induction 1 as [|x a tbl l Hx _ IH]; constructor; [apply Hx|exact IH]. Qed.

  (** The plain program's answer on such a table. *)
  Lemma find_match_ok tbl l q : wf_iris q -> Forall2 stores tbl l ->
    (find_match tbl q = Err EPanic /\ Exists (fun b => ~ enough_valid q b) l) \/
    (exists r, find_match tbl q = Ok r /\ Forall (enough_valid q) l /\ (r = true <-> Exists (close q) l)).
  Proof using Type.
    intros Hq HF. unfold find_match.
    assert (HX : (mapM_res (fun x => rbind (row_iris x) (fun a => is_close a q)) tbl = Err EPanic /\ Exists (fun b => ~ enough_valid q b) l) \/
      exists bs, mapM_res (fun x => rbind (row_iris x) (fun a => is_close a q)) tbl = Ok bs /\ Forall (enough_valid q) l /\ (existsb (fun b => b) bs = true <-> Exists (close q) l)).
    { induction HF as [|x a tbl l Hx HF IH].
      - right. exists []. split; [reflexivity|]. split; [constructor|]. cbn. split; [discriminate|]. intros H. inversion H.
      - cbn [mapM_res]. rewrite (row_iris_ok x a Hx). cbn [rbind]. rewrite (is_close_sym a q (proj1 Hx) Hq). destruct (is_close_spec q a Hq (proj1 Hx)) as (C1 & C2 & C3).
        destruct (is_close q a) as [b|e] eqn:E.
        + assert (Ev : enough_valid q a) by (destruct b; [apply C2|apply C3]; reflexivity).
          destruct IH as [(E1 & HE)|(bs & E1 & Hv & Hb)]; rewrite E1; [left; split; [reflexivity|right; exact HE]|right].
          exists (b :: bs). split; [reflexivity|]. split; [constructor; assumption|]. cbn [existsb]. rewrite Exists_cons, <- Hb. destruct b.
          * split; [|reflexivity]. intros _. left. apply C2. reflexivity.
          * cbn [orb]. split; [right; assumption|]. intros [H|H]; [|exact H]. exfalso. apply (proj2 (proj1 C3 eq_refl)), H.
        + left. assert (e = EPanic) by (unfold is_close in E; destruct (_ <? _); congruence). subst e. split; [reflexivity|]. left. apply C1. reflexivity. }
    destruct HX as [(E & HE)|(bs & E & Hv & Hb)]; rewrite E; cbn [rbind]; [left; auto|right]. eexists. split; [reflexivity|]. auto.
  Qed.

  (** ** the query *)
  Lemma query_iris_ok tbl l m s : Forall2 stores tbl l ->
    (m = true /\ tbl = [] /\ query_iris G tbl m s = Err EOther) \/ exists s' q, query_iris G tbl m s = Ok (s', q) /\ wf_iris q.
  Proof using Type.
    intros HF. unfold query_iris. destruct m; [|right; apply random_iris_ok]. destruct HF as [|x a tbl l Hx HF]; [left; auto|right].
    rewrite (row_iris_ok x a Hx). cbn [rbind]. apply similar_iris_ok, Hx.
  Qed.
  Lemma mapM_res_ok {A B} (f : A -> res B) g l : (forall a, In a l -> f a = Ok (g a)) -> mapM_res f l = Ok (map g l).
  Proof using Type.
    induction l as [|a l IH]; intros H; [reflexivity|]. cbn [mapM_res map]. rewrite (H a (or_introl eq_refl)), IH; [reflexivity|]. intros b Hb. apply H. right. exact Hb.
  Qed.
  Lemma party_num i : party_of (pid_num i) = Ok i.
  Proof using Type. destruct i; reflexivity. Qed.
  Lemma query_share_ok {C'} (tbl : list (row C')) m s s' q : query_iris G tbl m s = Ok (s', q) -> wf_iris q ->
    exists Q, (forall i, query_share G deal (pid_num i) tbl m s = Ok (Q i, ir_mask q)) /\ RL R Q (code_vals (ir_code q)).
  Proof using deal_ok.
    intros E [Hc _]. exists (fun i => map (pick3 i) (snd (deal_bits G deal (map (bit_at (ir_code q)) positions) s'))). split.
    - intros i. unfold query_share. rewrite E. cbn [rbind fst snd]. change (map Z.of_nat (seq 0 IRIS_CODE_SIZE)) with positions.
      rewrite (mapM_res_ok _ (bit_at (ir_code q))) by (intros p Hp; apply get_bit_ok; [exact Hc|apply in_positions, Hp]). cbn [rbind]. rewrite party_num. reflexivity.
    - rewrite <- bits_vals. apply deal_bits_ok.
  Qed.

  (** ** reading the table *)
  Variable read_row : pid -> row C -> res (list X * code).
  Hypothesis read_ok : forall x a ts, wf_iris a -> r_mask x = raw (ir_mask a) -> r_cols x = cols ts -> RL R (fun i => map (pick3 i) ts) (code_vals (ir_code a)) ->
    forall i, read_row i x = Ok (map (pick3 i) ts, ir_mask a).
  Lemma read_rows_ok tbl l : Forall2 stores tbl l -> exists L, (forall i, mapM_res (read_row i) tbl = Ok (L i)) /\
    (forall i, map snd (L i) = map ir_mask l) /\ RL (RL R) (fun i => map fst (L i)) (map (fun b => code_vals (ir_code b)) l).
  Proof using read_ok.
    induction 1 as [|x a tbl l (Wa & Ec & Em & ts & Et & HR) _ (L & E & HM & HL)].
    - exists (fun _ => []). split; [reflexivity|]. split; [reflexivity|]. apply RL_nil'.
    - exists (fun i => (map (pick3 i) ts, ir_mask a) :: L i). split; [|split].
      + intros i. cbn [mapM_res]. rewrite (read_ok x a ts Wa Em Et HR i), E. reflexivity.
      + intros i. cbn [map snd]. rewrite HM. reflexivity.
      + cbn [map fst]. apply (RL_cons' (RL R) (fun i => map (pick3 i) ts)); assumption.
  Qed.
End Rows.

(** ** the three kinds of rows *)
Lemma dec_enc_vec K l : 0 < K -> Forall (inr K) l -> (length l <= IRIS_CODE_SIZE)%nat -> dec_vec K (enc_vec K l) = Ok l.
Proof.
  intros HK Hl HS. unfold dec_vec, enc_vec. rewrite <- (app_nil_r (bc_vec _ l)). rewrite (bc_list_ok (inr K)); [reflexivity|apply uint_codec, HK|exact Hl|].
  unfold short. pose proof iris_size_nat. change (2 ^ 64) with 18446744073709551616. lia.
Qed.
Lemma dec_enc_one v : inr 64 v -> dec_one 64 (bc_uint 8 v) = Ok v.
Proof. intros Hv. unfold dec_one. rewrite <- (app_nil_r (bc_uint 8 v)). change (nbytes 64) with 8%nat. rewrite bc_take_uint; [reflexivity|exact Hv]. Qed.
Lemma code_vals_len c : length (code_vals c) = IRIS_CODE_SIZE.
Proof. unfold code_vals, positions. rewrite !map_length, seq_length. reflexivity. Qed.
Lemma RL_triples {X} (R : (pid -> X) -> Z -> Prop) ts : forall vs, RL R (fun i => map (pick3 i) ts) vs ->
  Forall (fun t => exists Y v, (forall i, Y i = pick3 i t) /\ R Y v) ts.
Proof.
  induction ts as [|t ts IH]; intros vs H; [constructor|]. inversion H as [Z HZ E1 E2|Z Y X' y ys HZ HY HR E1 E2]; subst; [specialize (HZ P0); discriminate HZ|].
  constructor.
  - exists Y, y. split; [|exact HY]. intros i. specialize (HZ i). cbn [map] in HZ. injection HZ as E _. symmetry. exact E.
  - apply (IH ys). eapply RL_ext; [|exact HR]. intros i. specialize (HZ i). cbn [map] in HZ. injection HZ as _ E. symmetry. exact E.
Qed.
Lemma aby3_triples K ts vs : RL (arith_shared K) (fun i => map (pick3 i) ts) vs ->
  Forall (fun t => forall i, inr K (sa (pick3 i t)) /\ sb (pick3 i t) = sa (pick3 (prev i) t)) ts.
Proof.
  intros H. apply RL_triples in H. rewrite Forall_forall in *. intros t Ht. destruct (H t Ht) as (Y & v & E & H1 & H2 & _). intros i. rewrite <- !E. split; [apply H1|apply H2].
Qed.
Lemma share_eta (x : share) : Share (sa x) (sb x) = x. Proof. destruct x; reflexivity. Qed.
Lemma glue ts i : Forall (fun t => forall i, inr 16 (sa (pick3 i t)) /\ sb (pick3 i t) = sa (pick3 (prev i) t)) ts ->
  map2 Share (map (fun t => sa (pick3 i t)) ts) (map (fun t => sa (pick3 (prev i) t)) ts) = map (pick3 i) ts.
Proof.
  induction 1 as [|t ts Ht _ IH]; [reflexivity|]. cbn [map map2]. rewrite IH, <- (proj2 (Ht i)), share_eta. reflexivity.
Qed.
Lemma size_ok_len l : length l = IRIS_CODE_SIZE -> size_ok l = true.
Proof. intros E. unfold size_ok. rewrite E. apply Nat.eqb_refl. Qed.

Lemma aby3_read_ok x a ts : wf_iris a -> r_mask x = raw (ir_mask a) -> r_cols x = aby3_cols ts ->
  RL (arith_shared 16) (fun i => map (pick3 i) ts) (code_vals (ir_code a)) -> forall i, aby3_read_row i x = Ok (map (pick3 i) ts, ir_mask a).
Proof.
  intros [Hc Hm] Em Et HR i. unfold aby3_read_row, own_prev. rewrite Em, Et, copy_raw_raw by exact Hm. cbn [rbind].
  pose proof (RL_length _ _ _ HR P0) as HL. cbv beta in HL. rewrite map_length, code_vals_len in HL. pose proof (aby3_triples _ _ _ HR) as HT.
  assert (HP : forall j, pick3 j (aby3_cols ts) = enc_vec 16 (map (fun t => sa (pick3 j t)) ts)) by (intros []; reflexivity).
  assert (HF : forall j, Forall (inr 16) (map (fun t => sa (pick3 j t)) ts)).
  { intros j. apply Forall_map. eapply Forall_impl; [|exact HT]. intros t Ht. apply Ht. }
  rewrite !HP, !dec_enc_vec; try (rewrite map_length, HL; apply le_n); try apply HF; try lia. cbn [rbind].
  rewrite !size_ok_len by (rewrite map_length; exact HL). cbn [negb orb]. rewrite glue by exact HT. reflexivity.
Qed.

Lemma swift3_triples ts vs : RL (arith3 16) (fun i => map (pick3 i) ts) vs ->
  Forall (fun t => forall i, inr 16 (ta (pick3 i t)) /\ inr 16 (tc (pick3 i t)) /\ tb (pick3 i t) = ta (pick3 (prev i) t) /\ tc (pick3 i t) = tc (fst3 t)) ts.
Proof.
  intros H. apply RL_triples in H. rewrite Forall_forall in *. intros t Ht. destruct (H t Ht) as (Y & v & E & H1 & H2 & _).
  assert (HC : forall i, tc (Y i) = tc (Y P0)). { intros [| |]; [reflexivity|apply (H2 P1)|]. transitivity (tc (Y P1)); [apply (H2 P2)|apply (H2 P1)]. }
  intros i. change (fst3 t) with (pick3 P0 t). rewrite <- !E. split; [apply H1|]. split; [apply H1|]. split; [apply H2|apply HC].
Qed.
Lemma glue3 ts i : Forall (fun t => forall i, inr 16 (ta (pick3 i t)) /\ inr 16 (tc (pick3 i t)) /\ tb (pick3 i t) = ta (pick3 (prev i) t) /\ tc (pick3 i t) = tc (fst3 t)) ts ->
  map2 (fun ab c => Share3 (fst ab) (snd ab) c) (combine (map (fun t => ta (pick3 i t)) ts) (map (fun t => ta (pick3 (prev i) t)) ts)) (map (fun t => tc (fst3 t)) ts) = map (pick3 i) ts.
Proof.
  induction 1 as [|t ts Ht _ IH]; [reflexivity|]. cbn [map map2 combine fst snd]. rewrite IH. destruct (Ht i) as (_ & _ & E1 & E2). rewrite <- E1, <- E2. destruct (pick3 i t). reflexivity.
Qed.
Lemma swift3_read_ok x a ts : wf_iris a -> r_mask x = raw (ir_mask a) -> r_cols x = swift3_cols ts ->
  RL (arith3 16) (fun i => map (pick3 i) ts) (code_vals (ir_code a)) -> forall i, swift3_read_row i x = Ok (map (pick3 i) ts, ir_mask a).
Proof.
  intros [Hc Hm] Em Et HR i. unfold swift3_read_row, own_prev. rewrite Em, Et, copy_raw_raw by exact Hm. cbn [rbind].
  pose proof (RL_length _ _ _ HR P0) as HL. cbv beta in HL. rewrite map_length, code_vals_len in HL. pose proof (swift3_triples _ _ HR) as HT.
  assert (HP : forall j, pick3 j (fst (swift3_cols ts)) = enc_vec 16 (map (fun t => ta (pick3 j t)) ts)) by (intros []; reflexivity).
  assert (HF : forall j, Forall (inr 16) (map (fun t => ta (pick3 j t)) ts)).
  { intros j. apply Forall_map. eapply Forall_impl; [|exact HT]. intros t Ht. apply Ht. }
  assert (HF2 : Forall (inr 16) (map (fun t => tc (fst3 t)) ts)).
  { apply Forall_map. eapply Forall_impl; [|exact HT]. intros t Ht. apply (Ht P0). }
  rewrite !HP. change (snd (swift3_cols ts)) with (enc_vec 16 (map (fun t => tc (fst3 t)) ts)).
  rewrite !dec_enc_vec; try (rewrite map_length, HL; apply le_n); try apply HF; try apply HF2; try lia. cbn [rbind].
  rewrite !size_ok_len by (rewrite map_length; exact HL). cbn [negb orb]. rewrite glue3 by exact HT. reflexivity.
Qed.

Lemma spdz_triples key ts vs : RL (spdz_shared 16 key) (fun i => map (pick3 i) ts) vs ->
  Forall (fun t => forall i, (inr 64 (sa (av (pick3 i t))) /\ sb (av (pick3 i t)) = sa (av (pick3 (prev i) t))) /\
                             (inr 64 (sa (am (pick3 i t))) /\ sb (am (pick3 i t)) = sa (am (pick3 (prev i) t)))) ts.
Proof.
  intros H. apply RL_triples in H. rewrite Forall_forall in *. intros t Ht. destruct (H t Ht) as (Y & v & E & w & [(H1 & H2 & _) (H3 & H4 & _)] & _).
  intros i. rewrite <- !E. repeat split; try apply H1; try apply H2; try apply H3; apply H4.
Qed.
Lemma glueZ ts i : Forall (fun t => forall i, (inr 64 (sa (av (pick3 i t))) /\ sb (av (pick3 i t)) = sa (av (pick3 (prev i) t))) /\
                             (inr 64 (sa (am (pick3 i t))) /\ sb (am (pick3 i t)) = sa (am (pick3 (prev i) t)))) ts ->
  map2 AShare (map2 Share (map (fun t => sa (av (pick3 i t))) ts) (map (fun t => sa (av (pick3 (prev i) t))) ts))
              (map2 Share (map (fun t => sa (am (pick3 i t))) ts) (map (fun t => sa (am (pick3 (prev i) t))) ts)) = map (pick3 i) ts.
Proof.
  induction 1 as [|t ts Ht _ IH]; [reflexivity|]. cbn [map map2]. rewrite IH. destruct (Ht i) as ((_ & E1) & (_ & E2)). rewrite <- E1, <- E2, !share_eta. destruct (pick3 i t). reflexivity.
Qed.
Lemma spdz_read_ok key x a ts : wf_iris a -> r_mask x = raw (ir_mask a) -> r_cols x = spdz_cols ts ->
  RL (spdz_shared 16 key) (fun i => map (pick3 i) ts) (code_vals (ir_code a)) -> forall i, spdz_read_row i x = Ok (map (pick3 i) ts, ir_mask a).
Proof.
  intros [Hc Hm] Em Et HR i. unfold spdz_read_row, own_prev. rewrite Em, Et, copy_raw_raw by exact Hm.
  pose proof (RL_length _ _ _ HR P0) as HL. cbv beta in HL. rewrite map_length, code_vals_len in HL. pose proof (spdz_triples _ _ _ HR) as HT.
  assert (HP : forall j, pick3 j (spdz_cols ts) = (enc_vec 64 (map (fun t => sa (av (pick3 j t))) ts), enc_vec 64 (map (fun t => sa (am (pick3 j t))) ts))) by (intros []; reflexivity).
  assert (HF : forall j, Forall (inr 64) (map (fun t => sa (av (pick3 j t))) ts)).
  { intros j. apply Forall_map. eapply Forall_impl; [|exact HT]. intros t Ht. apply Ht. }
  assert (HG : forall j, Forall (inr 64) (map (fun t => sa (am (pick3 j t))) ts)).
  { intros j. apply Forall_map. eapply Forall_impl; [|exact HT]. intros t Ht. apply Ht. }
  rewrite !HP. cbn [rbind]. rewrite !dec_enc_vec; try (rewrite map_length, HL; apply le_n); try apply HF; try apply HG; try lia. cbn [rbind].
  rewrite !size_ok_len by (rewrite map_length; exact HL). cbn [negb orb]. rewrite glueZ by exact HT. reflexivity.
Qed.
