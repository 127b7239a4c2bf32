From Verif Require Import Base Iris IrisSpec.
From Coq Require Import ZifyBool ZifyNat.

(** ** Word-level facts *)
Lemma iris_size_nat : Z.of_nat IRIS_CODE_SIZE = 12800.
Proof. reflexivity. Qed.
Lemma iris_size_words : IRIS_CODE_SIZE = (IRIS_CODE_SIZE_U64 * 64)%nat.
Proof. apply Nat2Z.inj. rewrite iris_size_nat, Nat2Z.inj_mul. reflexivity. Qed.
Global Opaque IRIS_CODE_SIZE.

Lemma in_positions i : In i positions <-> 0 <= i < 12800.
Proof.
  unfold positions. rewrite in_map_iff. split.
  - intros (n & <- & Hn). apply in_seq in Hn. pose proof iris_size_nat. lia.
  - intros H. exists (Z.to_nat i). split; [lia|]. apply in_seq. pose proof iris_size_nat. lia.
Qed.

Lemma land1_testbit w : (Z.land w 1 =? 1) = Z.testbit w 0.
Proof.
  rewrite <- Z.bit0_odd at 1 || idtac.
  change 1 with (Z.ones 1) at 1. rewrite Z.land_ones by lia. change (2 ^ 1) with 2.
  rewrite Z.bit0_odd, Zmod_odd. destruct (Z.odd w); reflexivity.
Qed.

Lemma word_get w b : 0 <= b -> (Z.land (Z.shiftr w b) 1 =? 1) = Z.testbit w b.
Proof. intros H. rewrite land1_testbit, Z.shiftr_spec by lia. f_equal. Qed.

Lemma nth_error_nth' {A} (l : list A) n d : (n < length l)%nat -> nth_error l n = Some (nth n l d).
Proof. apply nth_error_nth'. Qed.

Lemma get_bit_ok c i : wf_code c -> 0 <= i < 12800 -> get_bit c i = Ok (bit_at c i).
Proof.
  intros [Hl _] Hi. unfold get_bit, bit_at. rewrite (nth_error_nth' c _ 0).
  - rewrite word_get by (apply Z.mod_pos_bound; lia). reflexivity.
  - rewrite Hl. unfold IRIS_CODE_SIZE_U64. apply Nat2Z.inj_lt. rewrite Z2Nat.id by (apply Z.div_pos; lia).
    apply Z.div_lt_upper_bound; lia.
Qed.

Lemma word_oob c i : wf_code c -> 12800 <= i -> (length c <= Z.to_nat (i / 64))%nat.
Proof.
  intros [Hl _] Hi. rewrite Hl. unfold IRIS_CODE_SIZE_U64. apply Nat2Z.inj_le.
  rewrite Z2Nat.id by (apply Z.div_pos; lia). apply Z.div_le_lower_bound; lia.
Qed.

Lemma get_bit_oob c i : wf_code c -> 12800 <= i -> get_bit c i = Err EPanic.
Proof.
  intros H Hi. unfold get_bit. rewrite (proj2 (nth_error_None c _)); [reflexivity|].
  apply word_oob; assumption.
Qed.

Lemma update_word_oob c n f : (length c <= n)%nat -> update_word c n f = Err EPanic.
Proof.
  revert n. induction c as [|w t IH]; intros n H; [reflexivity|].
  destruct n; simpl in H; [lia|]. cbn [update_word]. rewrite IH by lia. reflexivity.
Qed.
Lemma update_word_ok c n f : (n < length c)%nat -> exists c', update_word c n f = Ok c' /\
  length c' = length c /\ (forall m, nth m c' 0 = if Nat.eqb m n then f (nth m c 0) else nth m c 0) /\
  (forall P : Z -> Prop, Forall P c -> P (f (nth n c 0)) -> Forall P c').
Proof.
  revert n. induction c as [|w t IH]; intros n H; [simpl in H; lia|].
  destruct n as [|n]; cbn [update_word].
  - exists (f w :: t). repeat split.
    + intros [|m]; reflexivity.
    + intros P HP Hf. inversion HP; subst. constructor; assumption.
  - destruct (IH n) as (t' & E & L & N & F); [simpl in H; lia|]. rewrite E.
    exists (w :: t'). repeat split.
    + simpl; congruence.
    + intros [|m]; [reflexivity|]. cbn [nth]. rewrite N. reflexivity.
    + intros P HP Hf. inversion HP; subst. constructor; [assumption|]. apply F; assumption.
Qed.

Lemma idx_ok i : 0 <= i < 12800 -> (Z.to_nat (i / 64) < 200)%nat /\ 0 <= i mod 64 < 64.
Proof.
  intros Hi. split; [|apply Z.mod_pos_bound; lia].
  apply Nat2Z.inj_lt. rewrite Z2Nat.id by (apply Z.div_pos; lia). apply Z.div_lt_upper_bound; lia.
Qed.
Lemma idx_eq i j : 0 <= i -> 0 <= j -> Z.to_nat (j / 64) = Z.to_nat (i / 64) -> j mod 64 = i mod 64 -> j = i.
Proof.
  intros Hi Hj H1 H2. apply Z2Nat.inj in H1; try (apply Z.div_pos; lia).
  rewrite (Z.div_mod j 64), (Z.div_mod i 64) by lia. congruence.
Qed.

Lemma testbit_shiftl1 b j : 0 <= b -> 0 <= j -> Z.testbit (Z.shiftl 1 b) j = (j =? b).
Proof.
  intros Hb Hj. rewrite Z.shiftl_1_l. destruct (Z.eqb_spec j b) as [->|Hne].
  - apply Z.pow2_bits_true; lia.
  - apply Z.pow2_bits_false. lia.
Qed.

Lemma range_bits w n : 0 <= n -> 0 <= w -> (forall j, n <= j -> Z.testbit w j = false) -> w < 2 ^ n.
Proof.
  intros Hn Hw H. destruct (Z.lt_ge_cases w (2 ^ n)) as [|Hge]; [assumption|].
  assert (w <> 0) by (intros ->; pose proof (Z.pow_pos_nonneg 2 n); lia).
  assert (n <= Z.log2 w) by (apply Z.log2_le_pow2; lia).
  pose proof (Z.bit_log2 w ltac:(lia)) as Hb. rewrite H in Hb; [discriminate|assumption].
Qed.
Lemma bits_range w n j : 0 <= w < 2 ^ n -> n <= j -> 0 <= n -> Z.testbit w j = false.
Proof.
  intros [H0 H1] Hj Hn. rewrite <- (Z.mod_small w (2 ^ n)) by lia.
  apply Z.mod_pow2_bits_high. lia.
Qed.

Lemma update_bit_spec c i (f : Z -> Z) (g : bool -> bool) :
  wf_code c -> 0 <= i < 12800 ->
  (forall w, 0 <= w < 2 ^ 64 -> 0 <= f w /\ forall j, 0 <= j ->
     Z.testbit (f w) j = if j =? i mod 64 then g (Z.testbit w j) else Z.testbit w j) ->
  exists c', update_word c (Z.to_nat (i / 64)) f = Ok c' /\ wf_code c' /\
    bit_at c' i = g (bit_at c i) /\ (forall j, 0 <= j -> j <> i -> bit_at c' j = bit_at c j).
Proof.
  intros [Hl Hr] Hi Hf. destruct (idx_ok i Hi) as [Hw Hb].
  destruct (update_word_ok c (Z.to_nat (i / 64)) f) as (c' & E & L & N & F).
  { rewrite Hl. exact Hw. }
  assert (Hrng : forall m, 0 <= nth m c 0 < 2 ^ 64).
  { intros m. destruct (Nat.lt_ge_cases m (length c)) as [Hm|Hm].
    - rewrite Forall_forall in Hr. apply Hr, nth_In, Hm.
    - rewrite nth_overflow by exact Hm. lia. }
  exists c'. repeat split.
  - exact E.
  - congruence.
  - apply F; [exact Hr|]. destruct (Hf _ (Hrng (Z.to_nat (i / 64)))) as [H0 H1]. split; [exact H0|].
    apply range_bits; [lia|exact H0|]. intros j Hj. rewrite H1 by lia.
    destruct (Z.eqb_spec j (i mod 64)); [lia|]. eapply bits_range; [apply Hrng|exact Hj|lia].
  - unfold bit_at. rewrite N, Nat.eqb_refl. destruct (Hf _ (Hrng (Z.to_nat (i / 64)))) as [H0 H1].
    rewrite H1 by lia. rewrite Z.eqb_refl. reflexivity.
  - intros j Hj Hne. unfold bit_at. rewrite N.
    destruct (Nat.eqb_spec (Z.to_nat (j / 64)) (Z.to_nat (i / 64))) as [He|He]; [|reflexivity].
    destruct (Hf _ (Hrng (Z.to_nat (j / 64)))) as [H0 H1].
    rewrite H1 by (apply Z.mod_pos_bound; lia).
    destruct (Z.eqb_spec (j mod 64) (i mod 64)) as [Hm|Hm]; [|reflexivity].
    exfalso. apply Hne. apply idx_eq; try lia; assumption.
Qed.

Lemma set_bit_spec c i v : wf_code c -> 0 <= i < 12800 ->
  exists c', set_bit c i v = Ok c' /\ wf_code c' /\
    bit_at c' i = v /\ (forall j, 0 <= j -> j <> i -> bit_at c' j = bit_at c j).
Proof.
  intros Hc Hi. destruct (idx_ok i Hi) as [_ Hb]. unfold set_bit. destruct v.
  - apply (update_bit_spec c i _ (fun _ => true) Hc Hi). intros w Hw. split.
    + apply Z.lor_nonneg. split; [lia|]. rewrite Z.shiftl_1_l. apply Z.pow_nonneg; lia.
    + intros j Hj. rewrite Z.lor_spec, testbit_shiftl1 by lia.
      destruct (Z.eqb_spec j (i mod 64)); [apply orb_true_r|apply orb_false_r].
  - apply (update_bit_spec c i _ (fun _ => false) Hc Hi). intros w Hw. split.
    + apply Z.land_nonneg. left; lia.
    + intros j Hj. rewrite Z.land_spec.
      destruct (Z.lt_ge_cases j 64) as [Hj64|Hj64].
      * replace (2 ^ 64 - 1 - Z.shiftl 1 (i mod 64)) with (Z.ldiff (Z.ones 64) (Z.shiftl 1 (i mod 64))).
        { rewrite Z.ldiff_spec, testbit_shiftl1, Z.ones_spec_low by lia.
          destruct (Z.eqb_spec j (i mod 64)); simpl; [apply andb_false_r|apply andb_true_r]. }
        rewrite <- Z.sub_nocarry_ldiff; [rewrite Z.ones_equiv; lia|].
        apply Z.bits_inj'. intros n Hn. rewrite Z.ldiff_spec, testbit_shiftl1, Z.bits_0 by lia.
        destruct (Z.eqb_spec n (i mod 64)) as [->|]; [|reflexivity].
        rewrite Z.ones_spec_low by lia. reflexivity.
      * rewrite (bits_range w 64 j) by lia. simpl. destruct (j =? i mod 64); reflexivity.
Qed.

Lemma set_bit_oob c i v : wf_code c -> 12800 <= i -> set_bit c i v = Err EPanic.
Proof. intros Hc Hi. unfold set_bit. destruct v; apply update_word_oob, word_oob; assumption. Qed.

Lemma flip_bit_spec c i : wf_code c -> 0 <= i < 12800 ->
  exists c', flip_bit c i = Ok c' /\ wf_code c' /\
    bit_at c' i = negb (bit_at c i) /\ (forall j, 0 <= j -> j <> i -> bit_at c' j = bit_at c j).
Proof.
  intros Hc Hi. destruct (idx_ok i Hi) as [_ Hb]. unfold flip_bit.
  apply (update_bit_spec c i _ negb Hc Hi). intros w Hw. split.
  - apply Z.lxor_nonneg. rewrite Z.shiftl_1_l. pose proof (Z.pow_nonneg 2 (i mod 64)). lia.
  - intros j Hj. rewrite Z.lxor_spec, testbit_shiftl1 by lia.
    destruct (Z.eqb_spec j (i mod 64)); [apply xorb_true_r|apply xorb_false_r].
Qed.
Lemma flip_bit_oob c i : wf_code c -> 12800 <= i -> flip_bit c i = Err EPanic.
Proof. intros Hc Hi. apply update_word_oob, word_oob; assumption. Qed.

(** ** & and ^ *)
Lemma map2_length {A B C} (f : A -> B -> C) l l' : length l = length l' -> length (map2 f l l') = length l.
Proof. revert l'. induction l as [|a l IH]; intros [|b l'] H; simpl in *; try lia. rewrite IH; lia. Qed.
Lemma map2_nth {A B C} (f : A -> B -> C) l l' n a b c : length l = length l' -> f a b = c ->
  nth n (map2 f l l') c = f (nth n l a) (nth n l' b).
Proof.
  revert l' n. induction l as [|x l IH]; intros [|y l'] n H E; simpl in *; try lia.
  - destruct n; auto.
  - destruct n; [reflexivity|]. apply IH; [lia|exact E].
Qed.
Lemma map2_Forall {A B C} (f : A -> B -> C) (P : A -> Prop) (Q : B -> Prop) (R : C -> Prop) l l' :
  (forall a b, P a -> Q b -> R (f a b)) -> Forall P l -> Forall Q l' -> Forall R (map2 f l l').
Proof.
  intros H HP. revert l'. induction HP as [|x l Hx _ IH]; intros l' HQ; [constructor|].
  destruct HQ; simpl; constructor; auto.
Qed.

Lemma land_range a b n : 0 <= n -> 0 <= a < 2 ^ n -> 0 <= b < 2 ^ n -> 0 <= Z.land a b < 2 ^ n.
Proof.
  intros Hn Ha Hb. assert (0 <= Z.land a b) by (apply Z.land_nonneg; lia). split; [assumption|].
  apply range_bits; [lia|assumption|]. intros j Hj. rewrite Z.land_spec, (bits_range a n j) by lia. reflexivity.
Qed.
Lemma lor_range a b n : 0 <= n -> 0 <= a < 2 ^ n -> 0 <= b < 2 ^ n -> 0 <= Z.lor a b < 2 ^ n.
Proof.
  intros Hn Ha Hb. assert (0 <= Z.lor a b) by (apply Z.lor_nonneg; lia). split; [assumption|].
  apply range_bits; [lia|assumption|]. intros j Hj.
  rewrite Z.lor_spec, (bits_range a n j), (bits_range b n j) by lia. reflexivity.
Qed.
Lemma lxor_range a b n : 0 <= n -> 0 <= a < 2 ^ n -> 0 <= b < 2 ^ n -> 0 <= Z.lxor a b < 2 ^ n.
Proof.
  intros Hn Ha Hb. assert (0 <= Z.lxor a b) by (apply Z.lxor_nonneg; lia). split; [assumption|].
  apply range_bits; [lia|assumption|]. intros j Hj.
  rewrite Z.lxor_spec, (bits_range a n j), (bits_range b n j) by lia. reflexivity.
Qed.

Lemma code_and_wf a b : wf_code a -> wf_code b -> wf_code (code_and a b).
Proof.
  intros [La Ra] [Lb Rb]. split.
  - unfold code_and. rewrite map2_length; congruence.
  - eapply map2_Forall; [|exact Ra|exact Rb]. intros x y Hx Hy; cbn beta in *. apply land_range; lia.
Qed.
Lemma code_xor_wf a b : wf_code a -> wf_code b -> wf_code (code_xor a b).
Proof.
  intros [La Ra] [Lb Rb]. split.
  - unfold code_xor. rewrite map2_length; congruence.
  - eapply map2_Forall; [|exact Ra|exact Rb]. intros x y Hx Hy; cbn beta in *. apply lxor_range; lia.
Qed.
Lemma code_and_bit a b i : wf_code a -> wf_code b -> bit_at (code_and a b) i = bit_at a i && bit_at b i.
Proof.
  intros [La _] [Lb _]. unfold bit_at, code_and.
  rewrite (map2_nth Z.land a b _ 0 0 0) by (congruence || reflexivity). apply Z.land_spec.
Qed.
Lemma code_xor_bit a b i : wf_code a -> wf_code b -> bit_at (code_xor a b) i = xorb (bit_at a i) (bit_at b i).
Proof.
  intros [La _] [Lb _]. unfold bit_at, code_xor.
  rewrite (map2_nth Z.lxor a b _ 0 0 0) by (congruence || reflexivity). apply Z.lxor_spec.
Qed.

(** ** count_ones *)
Lemma filter_map_length {A B} (f : A -> B) (P : B -> bool) l :
  length (filter P (map f l)) = length (filter (fun a => P (f a)) l).
Proof. induction l as [|a l IH]; [reflexivity|]. simpl. destruct (P (f a)); simpl; rewrite IH; reflexivity. Qed.
Lemma filter_ext_length {A} (P Q : A -> bool) l : (forall a, In a l -> P a = Q a) ->
  length (filter P l) = length (filter Q l).
Proof.
  induction l as [|a l IH]; [reflexivity|]. intros H. simpl. rewrite (H a (or_introl eq_refl)).
  destruct (Q a); simpl; rewrite IH; try reflexivity; intros; apply H; right; assumption.
Qed.

Lemma popcount_spec w : popcount w = Z.of_nat (length (filter (fun j => Z.testbit w (Z.of_nat j)) (seq 0 64))).
Proof.
  unfold popcount. generalize (seq 0 64). intros l. induction l as [|j l IH]; [reflexivity|].
  cbn [fold_right filter]. rewrite IH. destruct (Z.testbit w (Z.of_nat j)); cbn [length]; rewrite ?Nat2Z.inj_succ; lia.
Qed.

Lemma fold_left_sum (f : Z -> Z) l a : fold_left (fun a w => a + f w) l a = a + fold_right (fun w a => f w + a) 0 l.
Proof. revert a. induction l as [|w l IH]; intros a; simpl; [lia|]. rewrite IH. lia. Qed.

Lemma seq_shift_n s n : seq s n = map (fun j => (s + j)%nat) (seq 0 n).
Proof.
  revert s. induction n as [|n IH]; intros s; [reflexivity|]. simpl. f_equal; [lia|].
  rewrite IH, (IH 1%nat), map_map. apply map_ext. intros. lia.
Qed.

Lemma count_ones_list c :
  count_ones c = Z.of_nat (length (filter (fun n => bit_at c (Z.of_nat n)) (seq 0 (length c * 64)))).
Proof.
  unfold count_ones. rewrite fold_left_sum. rewrite Z.add_0_l.
  induction c as [|w c IH]; [reflexivity|].
  cbn [fold_right length]. rewrite IH. rewrite Nat.mul_succ_l, Nat.add_comm, seq_app.
  rewrite filter_app, app_length, Nat2Z.inj_add. f_equal.
  - rewrite popcount_spec. apply (f_equal Z.of_nat). apply filter_ext_length. intros j Hj. apply in_seq in Hj.
    unfold bit_at. rewrite Z.div_small, Z.mod_small by lia. reflexivity.
  - rewrite (seq_shift_n (0 + 64)), filter_map_length. apply (f_equal Z.of_nat). apply filter_ext_length.
    intros j _. unfold bit_at.
    replace (Z.of_nat (0 + 64 + j)) with (Z.of_nat j + 1 * 64) by lia.
    rewrite Z.div_add, Z.mod_add by lia. rewrite Z.add_1_r, Z2Nat.inj_succ by (apply Z.div_pos; lia). reflexivity.
Qed.

Lemma count_ones_spec c : wf_code c -> count_ones c = count (bit_at c).
Proof.
  intros [Hl _]. rewrite count_ones_list, Hl, <- iris_size_words. unfold count, positions.
  rewrite filter_map_length. reflexivity.
Qed.

Lemma count_ext P Q : (forall i, 0 <= i < 12800 -> P i = Q i) -> count P = count Q.
Proof. intros H. unfold count. f_equal. apply filter_ext_length. intros i Hi. apply H, in_positions, Hi. Qed.

Lemma count_range P : 0 <= count P <= 12800.
Proof.
  unfold count. assert (H : (length (filter P positions) <= length positions)%nat).
  { generalize positions. intros l. induction l as [|a l IH]; simpl; [lia|]. destruct (P a); simpl; lia. }
  unfold positions in H at 2. rewrite map_length, seq_length in H. pose proof iris_size_nat. lia.
Qed.

Lemma count_le P Q : (forall i, 0 <= i < 12800 -> P i = true -> Q i = true) -> count P <= count Q.
Proof.
  intros H. unfold count. apply inj_le.
  assert (H' : forall i, In i positions -> P i = true -> Q i = true) by (intros; apply H; [apply in_positions|]; assumption).
  revert H'. generalize positions. intros l H'. induction l as [|a l IH]; simpl; [lia|].
  assert (IH' : (length (filter P l) <= length (filter Q l))%nat) by (apply IH; intros; apply H'; [right|]; assumption).
  specialize (H' a (or_introl eq_refl)). destruct (P a), (Q a); simpl; try lia.
Qed.

Lemma count_false P : (forall i, 0 <= i < 12800 -> P i = false) -> count P = 0.
Proof.
  intros H. rewrite (count_ext P (fun _ => false) H). unfold count.
  generalize positions. intros l. induction l; [reflexivity|]. exact IHl.
Qed.

(** ** The Bits iterator *)
Lemma bits_from_spec c fuel idx cur : wf_code c -> 0 <= idx <= 12800 -> 12800 - idx < Z.of_nat fuel ->
  (idx mod 64 <> 0 -> cur = Z.shiftr (nth (Z.to_nat (idx / 64)) c 0) (idx mod 64)) ->
  bits_from fuel c (cur, idx) = Ok (map (fun j => bit_at c (idx + Z.of_nat j)) (seq 0 (Z.to_nat (12800 - idx)))).
Proof.
  intros Hc. revert idx cur. induction fuel as [|fuel IH]; intros idx cur Hi Hf Hcur; [lia|].
  cbn [bits_from]. unfold bits_next. change IRIS_CODE_SIZE_Z with 12800. rewrite Z.geb_leb. destruct (Z.leb_spec 12800 idx) as [Hge|Hlt].
  - replace (12800 - idx) with 0 by lia. reflexivity.
  - set (w := nth (Z.to_nat (idx / 64)) c 0) in *.
    assert (Hm := Z.mod_pos_bound idx 64 ltac:(lia)).
    assert (E : (if idx mod 64 =? 0
       then match nth_error c (Z.to_nat (idx / 64)) with Some w => Ok w | None => Err EPanic end
       else Ok cur) = Ok (Z.shiftr w (idx mod 64))).
    { destruct (Z.eqb_spec (idx mod 64) 0) as [H0|H0].
      - rewrite (nth_error_nth' c _ 0). { rewrite H0, Z.shiftr_0_r. reflexivity. }
        destruct Hc as [Hl _]. rewrite Hl. apply (idx_ok idx). lia.
      - rewrite Hcur by exact H0. reflexivity. }
    rewrite E. rewrite IH.
    + replace (Z.to_nat (12800 - idx)) with (S (Z.to_nat (12800 - (idx + 1)))) by lia.
      cbn [seq map]. rewrite word_get by lia. rewrite Z.add_0_r.
      rewrite (seq_shift_n 1), map_map. f_equal. f_equal. apply map_ext. intros. f_equal. lia.
    + lia.
    + lia.
    + intros Hn0. rewrite Z.shiftr_shiftr by lia.
      assert (Hd : idx = 64 * (idx / 64) + idx mod 64) by (apply Z.div_mod; lia).
      assert (idx mod 64 <> 63).
      { intros H63. apply Hn0. rewrite Hd, H63. replace (64 * (idx / 64) + 63 + 1) with ((idx / 64 + 1) * 64) by lia.
        apply Z.mod_mul. lia. }
      assert (Hq : (idx + 1) / 64 = idx / 64).
      { symmetry. apply (Z.div_unique _ _ _ (idx mod 64 + 1)); lia. }
      assert (Hr : (idx + 1) mod 64 = idx mod 64 + 1).
      { symmetry. apply (Z.mod_unique _ _ (idx / 64)); lia. }
      rewrite Hq, Hr. reflexivity.
Qed.

Lemma bits_spec c : wf_code c -> bits c = Ok (map (bit_at c) positions).
Proof.
  intros Hc. unfold bits. rewrite (bits_from_spec c _ 0 0 Hc).
  - unfold positions. rewrite map_map. reflexivity.
  - lia.
  - pose proof iris_size_nat. lia.
  - intros H. exfalso. apply H. reflexivity.
Qed.

(** ** f64: the whole domain of mask weights, by computation *)
Fixpoint sweep (n : nat) (z : Z) : bool :=
  match n with
  | O => true
  | S n' => (match_threshold z =? 34 * z / 100) && sweep n' (z + 1)
  end.
Lemma sweep_spec n z : sweep n z = true -> forall k, z <= k < z + Z.of_nat n -> match_threshold k = 34 * k / 100.
Proof.
  revert z. induction n as [|n IH]; intros z H k Hk; [lia|].
  cbn [sweep] in H. apply andb_true_iff in H. destruct H as [H1 H2].
  destruct (Z.eq_dec k z) as [->|Hne]; [apply Z.eqb_eq, H1|]. apply (IH (z + 1) H2). lia.
Qed.
Transparent IRIS_CODE_SIZE.
Lemma sweep_all : sweep (S IRIS_CODE_SIZE) 0 = true.
Proof. vm_compute. reflexivity. Qed.
Global Opaque IRIS_CODE_SIZE.
Lemma match_threshold_exact k : 0 <= k <= 12800 -> match_threshold k = 34 * k / 100.
Proof. intros H. apply (sweep_spec _ _ sweep_all). pose proof iris_size_nat. lia. Qed.
Lemma mask_threshold_exact : MASK_THRESHOLD = 8960.
Proof. vm_compute. reflexivity. Qed.

(** ** is_close *)
Section Close.
  Variables a b : iris.
  Hypotheses (Ha : wf_iris a) (Hb : wf_iris b).
  Lemma mask_len : count_ones (code_and (ir_mask a) (ir_mask b)) = count (both_valid a b).
  Proof.
    destruct Ha as [_ Ma], Hb as [_ Mb]. rewrite count_ones_spec by (apply code_and_wf; assumption).
    apply count_ext. intros i _. rewrite code_and_bit by assumption. reflexivity.
  Qed.
  Lemma distance :
    count_ones (code_and (code_xor (ir_code a) (ir_code b)) (code_and (ir_mask a) (ir_mask b))) = count (differ a b).
  Proof.
    destruct Ha as [Ca Ma], Hb as [Cb Mb].
    rewrite count_ones_spec by (apply code_and_wf; [apply code_xor_wf|apply code_and_wf]; assumption).
    apply count_ext. intros i _. rewrite code_and_bit by (apply code_xor_wf || apply code_and_wf; assumption).
    rewrite code_xor_bit, code_and_bit by assumption. reflexivity.
  Qed.
  Lemma is_close_eq : is_close a b =
    if count (both_valid a b) <? 8960 then Err EPanic
    else Ok (count (differ a b) <? 34 * count (both_valid a b) / 100).
  Proof.
    unfold is_close. rewrite mask_len, distance, mask_threshold_exact.
    rewrite match_threshold_exact by apply count_range. reflexivity.
  Qed.
End Close.

Lemma is_close_spec a b : wf_iris a -> wf_iris b ->
  (is_close a b = Err EPanic <-> ~ enough_valid a b) /\
  (is_close a b = Ok true <-> enough_valid a b /\ close a b) /\
  (is_close a b = Ok false <-> enough_valid a b /\ ~ close a b).
Proof.
  intros Ha Hb. rewrite is_close_eq by assumption. unfold enough_valid, close.
  destruct (Z.ltb_spec (count (both_valid a b)) 8960) as [H|H].
  - repeat split; intros; try discriminate; try lia.
  - destruct (Z.ltb_spec (count (differ a b)) (34 * count (both_valid a b) / 100)) as [H1|H1].
    + repeat split; intros; try discriminate; try lia.
    + repeat split; intros; try discriminate; try lia.
Qed.

Lemma is_close_sym a b : wf_iris a -> wf_iris b -> is_close a b = is_close b a.
Proof.
  intros Ha Hb. rewrite !is_close_eq by assumption.
  rewrite (count_ext (both_valid b a) (both_valid a b)) by (intros; apply andb_comm).
  rewrite (count_ext (differ b a) (differ a b)); [reflexivity|].
  intros i _. unfold differ, both_valid. rewrite xorb_comm. f_equal. apply andb_comm.
Qed.

Lemma is_close_refl a : wf_iris a -> 100 * count (bit_at (ir_mask a)) >= 70 * 12800 -> is_close a a = Ok true.
Proof.
  intros Ha H. rewrite is_close_eq by assumption.
  rewrite (count_ext (both_valid a a) (bit_at (ir_mask a))) by (intros; apply andb_diag).
  rewrite (count_false (differ a a)) by (intros; unfold differ; rewrite xorb_nilpotent; reflexivity).
  destruct (Z.ltb_spec (count (bit_at (ir_mask a))) 8960); [lia|]. f_equal.
  apply Z.ltb_lt. apply Z.div_str_pos. lia.
Qed.
