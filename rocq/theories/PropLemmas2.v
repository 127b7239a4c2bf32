(** Lemmas assembled for the property files, continued. *)
From Verif Require Import Base Ring RingProofs Prog Sched Rel Rng Net BinTrait BinProofs AddProofs Iris IrisSpec IrisProofs
  Protocol MpcSpec ShareSpec Plain Aby3 Aby3Proofs Aby3Proofs2 SlicedProofs OrProofs ProtocolProofs EngineProofs PlainProofs
  SpecProofs Client ClientProofs Apis ApiProofs PropLemmas.

(** ** C15 *)
Lemma nth_error_Some_lt {A} (l : list A) n a : nth_error l n = Some a -> (n < length l)%nat.
Proof. intros H. apply nth_error_Some. congruence. Qed.
Lemma in_firstn {A} (l : list A) n a : In a (firstn n l) -> In a l.
Proof. intros H. rewrite <- (firstn_skipn n l). apply in_or_app. auto. Qed.
Lemma in_skipn {A} (l : list A) n a : In a (skipn n l) -> In a l.
Proof. intros H. rewrite <- (firstn_skipn n l). apply in_or_app. auto. Qed.
Lemma nth_firstn_lt {A} (l : list A) n m d : (n < m)%nat -> nth n (firstn m l) d = nth n l d.
Proof. revert n l. induction m as [|m IH]; intros n l H; [lia|]. destruct l; [destruct n; reflexivity|]. destruct n; [reflexivity|]. cbn. apply IH. lia. Qed.
Lemma nth_skipn' {A} (l : list A) n m d : nth n (skipn m l) d = nth (m + n) l d.
Proof. revert l. induction m as [|m IH]; intros l; [reflexivity|]. destruct l; [destruct n; reflexivity|]. cbn. apply IH. Qed.
Lemma map_nth' {A B} (f : A -> B) l n d d' : (n < length l)%nat -> nth n (map f l) d' = f (nth n l d).
Proof. revert n. induction l as [|a l IH]; intros [|n] H; cbn in *; [lia|lia|reflexivity|apply IH; lia]. Qed.
Lemma zbit_01 r x : inr 1 (zbit r x).
Proof. unfold zbit. apply b2z_inr. Qed.
Lemma transpose_bits K (x : list share) r w row sh :
  nth_error (transpose_pack_u128 K x) r = Some row -> nth_error row w = Some sh ->
  forall n, (n < 128)%nat ->
    Z.testbit (sa sh) (Z.of_nat n) = Z.testbit (sa (nth (128 * w + n) x szero)) (Z.of_nat r) /\
    Z.testbit (sb sh) (Z.of_nat n) = Z.testbit (sb (nth (128 * w + n) x szero)) (Z.of_nat r).
Proof.
  intros Hr Hw n Hn. rewrite transpose_pack_eq in Hr.
  rewrite nth_error_map in Hr.
  assert (Hlt : (r < Z.to_nat K)%nat).
  { destruct (nth_error (seq 0 (Z.to_nat K)) r) eqn:E; [|discriminate]. apply nth_error_Some_lt in E. rewrite seq_length in E. exact E. }
  rewrite (nth_error_nth' _ _ 0%nat) in Hr by (rewrite seq_length; exact Hlt). rewrite seq_nth in Hr by exact Hlt.
  cbn [option_map Nat.add] in Hr. injection Hr as <-.
  unfold pack in Hw. rewrite nth_error_map in Hw.
  destruct (nth_error (chunks (Z.to_nat 128) (map (sbit r) x)) w) as [c|] eqn:E; [|discriminate].
  cbn [option_map] in Hw. injection Hw as <-.
  assert (Hc : c = firstn 128 (skipn (w * 128) (map (sbit r) x))).
  { rewrite <- chunks_nth by lia. symmetry. apply nth_error_nth. exact E. }
  assert (Hlen : (length c <= 128)%nat) by (rewrite Hc; rewrite firstn_length; lia).
  rewrite pack_word_eq. cbn [sa sb].
  assert (Hs : forall (f : share -> Z), (forall y, f (sbit r y) = zbit r (f y)) -> f szero = 0 ->
            Z.testbit (pkf 128 (map f c)) (Z.of_nat n) = Z.testbit (f (nth (128 * w + n) x szero)) (Z.of_nat r)).
  { intros f Hf Hf0. destruct (pkf_spec 128 (map f c)) as [_ Hp].
    - lia.
    - rewrite map_length. lia.
    - apply Forall_forall. intros z Hz. apply in_map_iff in Hz. destruct Hz as (y & <- & Hy). rewrite Hc in Hy.
      apply in_firstn, in_skipn in Hy. apply in_map_iff in Hy. destruct Hy as (y' & <- & _). rewrite Hf. apply zbit_01.
    - rewrite Hp by lia. rewrite Hc.
      assert (En : nth n (map f (firstn 128 (skipn (w * 128) (map (sbit r) x)))) 0 = zbit r (f (nth (128 * w + n) x szero))).
      { rewrite <- firstn_map, <- skipn_map, map_map. rewrite nth_firstn_lt by exact Hn. rewrite nth_skipn'.
        replace (w * 128 + n)%nat with (128 * w + n)%nat by lia.
        destruct (Nat.lt_ge_cases (128 * w + n) (length x)) as [Hl|Hl].
        - rewrite (map_nth' _ _ _ szero) by exact Hl. apply Hf.
        - rewrite nth_overflow by (rewrite map_length; lia). rewrite (nth_overflow x) by lia. rewrite Hf0. unfold zbit. rewrite Z.testbit_0_l. reflexivity. }
      rewrite En. unfold zbit. destruct (Z.testbit (f _) _); reflexivity. }
  split; apply Hs; try reflexivity; intros y; unfold sbit; cbn [sa sb]; apply zbit_eq.
Qed.
Lemma transpose_shape K (x : list share) : 0 <= K ->
  Z.of_nat (length (transpose_pack_u128 K x)) = K /\
  Forall (fun row => length row = Nat.div (length x + 127) 128) (transpose_pack_u128 K x).
Proof.
  intros HK. rewrite transpose_pack_eq. rewrite map_length, seq_length. split; [lia|].
  apply Forall_forall. intros row H. apply in_map_iff in H. destruct H as (r & <- & _).
  unfold pack. rewrite map_length, chunks_length by lia. rewrite map_length. reflexivity.
Qed.
Lemma txor_entry x y r w rx ry sx sy :
  nth_error x r = Some rx -> nth_error y r = Some ry -> nth_error rx w = Some sx -> nth_error ry w = Some sy ->
  exists row, nth_error (transposed_pack_xor x y) r = Some row /\ nth_error row w = Some (sh_xor sx sy).
Proof.
  assert (H : forall {A B C} (f : A -> B -> C) l l' n a b, nth_error l n = Some a -> nth_error l' n = Some b -> nth_error (map2 f l l') n = Some (f a b)).
  { clear. intros A B C f l. induction l as [|a0 l IH]; intros [|b0 l'] [|n] a b H1 H2; try discriminate; cbn in *; [congruence|eauto]. }
  intros H1 H2 H3 H4. eexists. split; [apply H; eassumption|]. apply H; assumption.
Qed.

(** ** C17 *)
Lemma msb_lt15 K h t : 14 < K -> 0 <= h <= 12800 -> 0 <= t <= 4352 -> Z.testbit ((h - t) mod 2 ^ K) (K - 1) = (h <? t).
Proof.
  intros HK Hh Ht.
  assert (Hp : 2 ^ 14 <= 2 ^ (K - 1)) by (apply Z.pow_le_mono_r; lia). change (2 ^ 14) with 16384 in Hp.
  assert (E : 2 ^ K = 2 * 2 ^ (K - 1)) by (rewrite <- Z.pow_succ_r by lia; f_equal; lia).
  rewrite Z.testbit_eqb by lia.
  destruct (Z.ltb_spec h t) as [H|H].
  - assert ((h - t) mod 2 ^ K = h - t + 2 ^ K) as ->.
    { symmetry. apply (Z.mod_unique_pos _ _ (-1)); lia. }
    assert ((h - t + 2 ^ K) / 2 ^ (K - 1) = 1) as ->; [|reflexivity].
    symmetry. apply (Z.div_unique_pos _ _ 1 (h - t + 2 ^ (K - 1))); lia.
  - rewrite (Z.mod_small (h - t)) by lia. rewrite Z.div_small by lia. reflexivity.
Qed.
Lemma iris_new_spec K : iris_new K = (if K <=? 14 then Err EConfig else Ok tt).
Proof. unfold iris_new. assert (E : f64_leb (f64_of_Z 1) RATIO_034 || f64_leb RATIO_034 (f64_of_Z 0) = false) by (vm_compute; reflexivity). rewrite E. assert (E' : Z.of_nat (ceil_log2 IRIS_CODE_SIZE_Z) = 14) by (vm_compute; reflexivity). rewrite E'. reflexivity. Qed.
Lemma threshold_msb a b K : 14 < K ->
  Z.testbit ((count (differ a b) - 34 * count (both_valid a b) / 100) mod 2 ^ K) (K - 1) = true <-> close a b.
Proof.
  intros HK. pose proof (count_range (differ a b)). pose proof (count_range (both_valid a b)).
  assert (0 <= 34 * count (both_valid a b) / 100 <= 4352).
  { split; [apply Z.div_pos; lia|]. apply Z.div_le_upper_bound; lia. }
  rewrite msb_lt15 by lia. unfold close. apply Z.ltb_lt.
Qed.

(** ** Dealing a vector: every plain vector has sharings. *)
Lemma deal_vec K (ab : Z -> Z * Z) xs : 0 <= K -> Forall (inr K) xs -> (forall x, inr K (fst (ab x)) /\ inr K (snd (ab x))) ->
  vec_shared (arith_shared K) (fun i => map (fun x => dealt K x (fst (ab x)) (snd (ab x)) i) xs) xs.
Proof.
  intros HK Hx Hab. apply RL_vec. induction Hx as [|x xs Hx _ IH]; [apply RL_nil'|].
  cbn [map]. apply (RL_cons' _ (fun i => dealt K x (fst (ab x)) (snd (ab x)) i)); [|exact IH].
  apply dealt_shared; try apply Hab; assumption.
Qed.
Lemma code_vals_range K c : 0 < K -> Forall (inr K) (code_vals c).
Proof.
  intros HK. pose proof (code_vals_bits c) as H. eapply Forall_impl; [|exact H]. intros z [H1 H2]. split; [exact H1|].
  eapply Z.lt_le_trans; [exact H2|]. apply Z.pow_le_mono_r; lia.
Qed.
Lemma deal_zero K c : 0 < K -> exists X, vec_shared (arith_shared K) X (code_vals c).
Proof.
  intros HK. eexists. apply (deal_vec K (fun _ => (0, 0))); [lia|apply code_vals_range, HK|].
  intros _. cbn. pose proof (pow2_pos K). unfold inr. lia.
Qed.

(** ** C18 *)
Definition answers (a : iris) (bs : list iris) (r : pid -> bool) : Prop :=
  forall i, r i = true <-> Exists (close a) bs.
Lemma answers_intro a bs (r : pid -> bool) : (forall i, r i = existsb (matches a) bs) -> answers a bs r.
Proof. intros H i. rewrite H. apply matches_spec. Qed.
Lemma answers_agree a bs r : answers a bs r -> forall i j, r i = r j.
Proof. intros H i j. apply Bool.eq_true_iff_eq. rewrite (H i), (H j). reflexivity. Qed.

Lemma aby3_iris_in_db G K signed s X a DB bs chunk : In K widths -> 14 < K -> prf_synced s ->
  wf_iris a -> Forall wf_iris bs -> Forall (enough_valid a) bs -> (0 < length bs)%nat -> (0 < chunk)%nat ->
  vec_shared (arith_shared K) X (code_vals (ir_code a)) ->
  vec_shared (vec_shared (arith_shared K)) DB (map (fun b => code_vals (ir_code b)) bs) ->
  honest_run (fun i => iris_in_db (aby3_engine G K i) signed (X i) (DB i) (ir_mask a) (map ir_mask bs) chunk) s
    (fun s' r => prf_synced s' /\ answers a bs r).
Proof.
  intros HW HK Hs Ha Hbs Hv Hl Hc HX HDB.
  assert (HK16 : 16 <= K) by (apply width_cases in HW; lia).
  apply wpM_honest. eapply wpM_mono.
  2: { refine (iris_in_db_ok (aby3_engine G K) K _ _ _ _ _ _ _ _ _ (aby3_mpc_ok G K HW ltac:(lia)) HK16 signed tt s X a DB bs chunk Hs Ha Hbs Hv Hl Hc (vec_RL _ _ _ HX) (vec2_RL _ _ _ HDB) I). }
  intros s' r [Hs' Hr]. split; [exact Hs'|apply answers_intro, Hr].
Qed.

(** ** Concrete codes, for the examples (by reasoning rather than by computing: 12800 positions). *)
Lemma rep_nth {A} (a d : A) m n : (n < m)%nat -> nth n (repeat a m) d = a.
Proof. revert n. induction m as [|m IH]; intros [|n] H; try lia; cbn; [reflexivity|apply IH; lia]. Qed.
Lemma bit_at_repeat z i : 0 <= i < 12800 -> bit_at (repeat z IRIS_CODE_SIZE_U64) i = Z.testbit z (i mod 64).
Proof.
  intros Hi. unfold bit_at. f_equal. apply rep_nth.
  assert (i / 64 < 200) by (apply Z.div_lt_upper_bound; lia). assert (0 <= i / 64) by (apply Z.div_pos; lia).
  change IRIS_CODE_SIZE_U64 with 200%nat. lia.
Qed.
Lemma bit_at_ONES i : 0 <= i < 12800 -> bit_at ONES i = true.
Proof.
  intros Hi. unfold ONES. rewrite bit_at_repeat by exact Hi.
  change (2 ^ 64 - 1) with (Z.ones 64). apply Z.ones_spec_low. apply Z.mod_pos_bound. lia.
Qed.
Lemma bit_at_ZERO i : 0 <= i < 12800 -> bit_at ZERO i = false.
Proof. intros Hi. unfold ZERO. rewrite bit_at_repeat by exact Hi. apply Z.testbit_0_l. Qed.
Lemma count_all P : (forall i, 0 <= i < 12800 -> P i = true) -> count P = 12800.
Proof.
  intros H. rewrite (count_ext P (fun _ => true) H). unfold count.
  assert (E : forall l : list Z, filter (fun _ => true) l = l) by (induction l as [|x l IH]; cbn; congruence).
  rewrite E. unfold positions. rewrite map_length, seq_length. apply iris_size_nat.
Qed.
Lemma count_none P : (forall i, 0 <= i < 12800 -> P i = false) -> count P = 0.
Proof.
  intros H. rewrite (count_ext P (fun _ => false) H). unfold count.
  assert (E : forall l : list Z, filter (fun _ => false) l = []) by (induction l as [|x l IH]; cbn; congruence).
  rewrite E. reflexivity.
Qed.
Definition ir0 : iris := {| ir_code := ZERO; ir_mask := ONES |}.
Definition ir1 : iris := {| ir_code := ONES; ir_mask := ONES |}.
Lemma codes_wf : wf_code ZERO /\ wf_code ONES.
Proof.
  assert (H : forall z, 0 <= z < 2 ^ 64 -> wf_code (repeat z IRIS_CODE_SIZE_U64)).
  { intros z Hz. split; [apply repeat_length|]. apply Forall_forall. intros w Hw. apply repeat_spec in Hw. subst. exact Hz. }
  split; apply H; lia.
Qed.
Lemma ir_wf : wf_iris ir0 /\ wf_iris ir1.
Proof. destruct codes_wf. repeat split; try apply codes_wf. Qed.
Lemma ir_valid : forall a b, In a [ir0; ir1] -> In b [ir0; ir1] -> count (both_valid a b) = 12800.
Proof.
  intros a b Ha Hb. apply count_all. intros i Hi. unfold both_valid.
  destruct Ha as [<-|[<-|[]]], Hb as [<-|[<-|[]]]; cbn [ir_mask ir0 ir1]; rewrite bit_at_ONES by exact Hi; reflexivity.
Qed.
Lemma ir_enough : forall a b, In a [ir0; ir1] -> In b [ir0; ir1] -> enough_valid a b.
Proof. intros a b Ha Hb. unfold enough_valid. rewrite ir_valid by assumption. lia. Qed.
Lemma ir_close : close ir0 ir0 /\ ~ close ir0 ir1.
Proof.
  unfold close. rewrite !ir_valid by (cbn; tauto). split.
  - rewrite count_none; [reflexivity|]. intros i Hi. unfold differ. rewrite xorb_nilpotent. reflexivity.
  - rewrite count_all; [intros H; discriminate H|]. intros i Hi. unfold differ, both_valid. cbn [ir_code ir_mask ir0 ir1].
    rewrite bit_at_ONES, bit_at_ZERO by exact Hi. reflexivity.
Qed.
