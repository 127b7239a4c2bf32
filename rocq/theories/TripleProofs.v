(** Pools of AND triples and the shuffle: what they contain. *)
From Coq Require Import Permutation.
From Verif Require Import Base Ring RingProofs Prog Rng Rel Net BinTrait BitArith BinProofs AddProofs IrisProofs Aby3 ShareSpec Aby3Proofs Spdz TripleSpec.
From Coq Require Import ZifyBool ZifyNat.

(** ** Words as bits *)
Definition wbit (l : list Z) (k : nat) : bool := Z.testbit (nth (k / 128) l 0) (Z.of_nat (k mod 128)).
Definition transp (i j k : nat) : nat := if Nat.eqb k i then j else if Nat.eqb k j then i else k.

Lemma upd_nth_length n f l : length (upd_nth n f l) = length l.
Proof. revert n. induction l as [|x l IH]; intros [|n]; cbn; auto. Qed.
Lemma upd_nth_nth n f l m : (n < length l)%nat -> nth m (upd_nth n f l) 0 = if Nat.eqb m n then f (nth n l 0) else nth m l 0.
Proof.
  revert n m. induction l as [|x l IH]; intros [|n] [|m] H; cbn in *; try lia; try reflexivity. apply IH. lia.
Qed.
Lemma upd_nth_Forall (P : Z -> Prop) n f l : Forall P l -> (forall x, P x -> P (f x)) -> Forall P (upd_nth n f l).
Proof. intros H Hf. revert n. induction H as [|x l Hx H IH]; intros [|n]; cbn; auto. Qed.

Lemma bit_of w m : (if Z.testbit w m then 1 else 0) = Z.b2z (Z.testbit w m).
Proof. destruct (Z.testbit w m); reflexivity. Qed.
Lemma shr_and1 w m : 0 <= m < 128 -> rand_ (rshr 128 w m) 1 = Z.b2z (Z.testbit w m).
Proof.
  intros Hm. unfold rand_, rshr. cbn [Z.eqb Pos.eqb]. rewrite Z.mod_small by lia.
  apply Z.bits_inj'. intros n Hn. rewrite Z.land_spec, Z.shiftr_spec by lia.
  destruct (Z.eq_dec n 0) as [->|Hn0].
  - rewrite Z.add_0_l, Z.b2z_bit0. destruct (Z.testbit w m); reflexivity.
  - rewrite !(Z.bits_above_log2 _ n), ?andb_false_r; try reflexivity; try (destruct (Z.testbit w m)); cbn; lia.
Qed.
Lemma shl_bit (b : bool) m n : 0 <= m < 128 -> 0 <= n < 128 -> Z.testbit (rshl 128 (Z.b2z b) m) n = b && (n =? m).
Proof.
  intros Hm Hn. rewrite testbit_rshl; try lia.
  - destruct (Z.eqb_spec n m) as [->|Hne].
    + rewrite Z.sub_diag, Z.b2z_bit0, andb_true_r. reflexivity.
    + rewrite andb_false_r. destruct (Z_lt_le_dec n m); [apply Z.testbit_neg_r; lia|].
      apply Z.bits_above_log2; destruct b; cbn; lia.
  - unfold inr. destruct b; cbn; lia.
Qed.
Lemma shl_bit_range (b : bool) m : inr 128 (rshl 128 (Z.b2z b) m).
Proof. apply inr_rshl; [lia|]. unfold inr. destruct b; cbn; lia. Qed.

Section Swap.
  Variable l : list Z.
  Variables i j : nat.
  Hypothesis (Hi : (i < 128 * length l)%nat) (Hj : (j < 128 * length l)%nat).
  Lemma swap_words_length : length (swap_words l i j) = length l.
  Proof using Type. unfold swap_words. rewrite !upd_nth_length. reflexivity. Qed.
  Lemma swap_words_range : Forall (inr 128) l -> Forall (inr 128) (swap_words l i j).
  Proof using Type.
    clear Hi Hj. intros H. unfold swap_words. rewrite !shr_and1 by (pose proof (Nat.mod_upper_bound i 128); pose proof (Nat.mod_upper_bound j 128); lia).
    cbv zeta. set (x := rxor (Z.b2z _) (Z.b2z _)). assert (Hx : exists b : bool, x = Z.b2z b).
    { unfold x. destruct (Z.testbit _ _), (Z.testbit _ _); [exists false|exists true|exists true|exists false]; reflexivity. }
    destruct Hx as [b ->]. apply upd_nth_Forall; [apply upd_nth_Forall; [exact H|]|]; intros w Hw; apply inr_lxor; auto using shl_bit_range; lia.
  Qed.
  Lemma swap_words_bit k : (k < 128 * length l)%nat -> wbit (swap_words l i j) k = wbit l (transp i j k).
  Proof using Hi Hj.
    intros Hk. unfold swap_words, wbit.
    assert (Mi := Nat.mod_upper_bound i 128 ltac:(lia)). assert (Mj := Nat.mod_upper_bound j 128 ltac:(lia)). assert (Mk := Nat.mod_upper_bound k 128 ltac:(lia)).
    assert (Di := Nat.div_mod i 128 ltac:(lia)). assert (Dj := Nat.div_mod j 128 ltac:(lia)). assert (Dk := Nat.div_mod k 128 ltac:(lia)).
    assert (Li : (i / 128 < length l)%nat) by (apply Nat.div_lt_upper_bound; lia).
    assert (Lj : (j / 128 < length l)%nat) by (apply Nat.div_lt_upper_bound; lia).
    rewrite !shr_and1 by lia. fold (wbit l i). fold (wbit l j).
    replace (rxor (Z.b2z (wbit l i)) (Z.b2z (wbit l j))) with (Z.b2z (xorb (wbit l i) (wbit l j))) by (destruct (wbit l i), (wbit l j); reflexivity).
    rewrite !upd_nth_nth by (rewrite ?upd_nth_length; assumption).
    assert (E1 : forall w, Z.testbit (rxor w (rshl 128 (Z.b2z (xorb (wbit l i) (wbit l j))) (Z.of_nat (i mod 128)))) (Z.of_nat (k mod 128)) =
      xorb (Z.testbit w (Z.of_nat (k mod 128))) (xorb (wbit l i) (wbit l j) && Nat.eqb (k mod 128) (i mod 128))).
    { intros w. unfold rxor. rewrite Z.lxor_spec, shl_bit by lia. f_equal. f_equal. lia. }
    assert (E2 : forall w, Z.testbit (rxor w (rshl 128 (Z.b2z (xorb (wbit l i) (wbit l j))) (Z.of_nat (j mod 128)))) (Z.of_nat (k mod 128)) =
      xorb (Z.testbit w (Z.of_nat (k mod 128))) (xorb (wbit l i) (wbit l j) && Nat.eqb (k mod 128) (j mod 128))).
    { intros w. unfold rxor. rewrite Z.lxor_spec, shl_bit by lia. f_equal. f_equal. lia. }
    set (vi := wbit l i) in *. set (vj := wbit l j) in *.
    transitivity (xorb (wbit l k) (xorb (xorb vi vj && Nat.eqb k i) (xorb vi vj && Nat.eqb k j))).
    - unfold wbit at 1. destruct (Nat.eqb_spec (k / 128) (j / 128)) as [Ej|Ej].
      + rewrite E2. destruct (Nat.eqb_spec (j / 128) (i / 128)) as [Ei|Ei].
        * rewrite E1. replace (k / 128)%nat with (i / 128)%nat by congruence.
          replace (Nat.eqb k i) with (Nat.eqb (k mod 128) (i mod 128)) by lia.
          replace (Nat.eqb k j) with (Nat.eqb (k mod 128) (j mod 128)) by lia. apply xorb_assoc.
        * rewrite <- Ej. replace (Nat.eqb k i) with false by lia.
          replace (Nat.eqb k j) with (Nat.eqb (k mod 128) (j mod 128)) by lia. rewrite andb_false_r, xorb_false_l. reflexivity.
      + destruct (Nat.eqb_spec (k / 128) (i / 128)) as [Ei|Ei].
        * rewrite E1. replace (Nat.eqb k j) with false by lia. rewrite <- Ei.
          replace (Nat.eqb k i) with (Nat.eqb (k mod 128) (i mod 128)) by lia. rewrite andb_false_r, xorb_false_r. reflexivity.
        * replace (Nat.eqb k i) with false by lia. replace (Nat.eqb k j) with false by lia. rewrite !andb_false_r, !xorb_false_r. reflexivity.
    - change (Z.testbit (nth (transp i j k / 128) l 0) (Z.of_nat (transp i j k mod 128))) with (wbit l (transp i j k)).
      unfold transp. destruct (Nat.eqb_spec k i) as [Eki|Eki], (Nat.eqb_spec k j) as [Ekj|Ekj].
      + subst vj vi. rewrite <- Eki, <- Ekj. destruct (wbit l k); reflexivity.
      + rewrite Eki. fold vi vj. destruct vi, vj; reflexivity.
      + rewrite Ekj. fold vi vj. destruct vi, vj; reflexivity.
      + rewrite !andb_false_r. apply xorb_false_r.
  Qed.
End Swap.

Lemma words_ext l l' : length l = length l' -> Forall (inr 128) l -> Forall (inr 128) l' ->
  (forall k, (k < 128 * length l)%nat -> wbit l k = wbit l' k) -> l = l'.
Proof.
  intros HL H H' HB. apply (nth_ext _ _ 0 0 HL). intros n Hn.
  apply (inr_bits_eq 128); [lia|rewrite Forall_forall in H; apply H, nth_In; exact Hn|rewrite Forall_forall in H'; apply H', nth_In; lia|].
  intros m Hm. specialize (HB (n * 128 + Z.to_nat m)%nat ltac:(lia)). unfold wbit in HB.
  replace ((n * 128 + Z.to_nat m) / 128)%nat with n in HB by lia.
  replace (Z.of_nat ((n * 128 + Z.to_nat m) mod 128)) with m in HB by lia. exact HB.
Qed.

(** ** The shuffle permutes bit triples *)
Lemma transp_perm i j n : (i < n)%nat -> (j < n)%nat -> Permutation (map (transp i j) (seq 0 n)) (seq 0 n).
Proof.
  intros Hi Hj.
  assert (Inv : forall k, transp i j (transp i j k) = k).
  { intros k. unfold transp. destruct (Nat.eqb_spec k i), (Nat.eqb_spec k j); repeat match goal with |- context [Nat.eqb ?x ?y] => destruct (Nat.eqb_spec x y) end; congruence. }
  assert (Rng : forall k, (k < n)%nat -> (transp i j k < n)%nat).
  { intros k Hk. unfold transp. destruct (Nat.eqb k i); [lia|]. destruct (Nat.eqb k j); lia. }
  apply NoDup_Permutation.
  - apply FinFun.Injective_map_NoDup; [|apply seq_NoDup]. intros a b E. rewrite <- (Inv a), <- (Inv b), E. reflexivity.
  - apply seq_NoDup.
  - intros k. rewrite in_map_iff, in_seq. split.
    + intros (k' & <- & Hk). apply in_seq in Hk. specialize (Rng k'). lia.
    + intros Hk. exists (transp i j k). split; [apply Inv|]. apply in_seq. specialize (Rng k). lia.
Qed.

(** All bit triples of three columns, as a function of the position. *)
Definition col_bit (l : list share) (k : nat) : bool * bool := (wbit (map sa l) k, wbit (map sb l) k).
Definition all_bits (a b c : list share) : list bit_triple :=
  map (fun k => (col_bit a k, col_bit b k, col_bit c k)) (seq 0 (128 * length a)).
Lemma map2_Share_id l : map2 Share (map sa l) (map sb l) = l.
Proof. induction l as [|[x y] l IH]; [reflexivity|]. cbn. rewrite IH. reflexivity. Qed.
Lemma map2_Share_sa u v : length u = length v -> map sa (map2 Share u v) = u.
Proof. revert v. induction u as [|x u IH]; intros [|y v] H; cbn in *; try discriminate; [reflexivity|]. rewrite IH by congruence. reflexivity. Qed.
Lemma map2_Share_sb u v : length u = length v -> map sb (map2 Share u v) = v.
Proof. revert v. induction u as [|x u IH]; intros [|y v] H; cbn in *; try discriminate; [reflexivity|]. rewrite IH by congruence. reflexivity. Qed.
Lemma map2_length_min {A B C} (f : A -> B -> C) l l' : length (map2 f l l') = Nat.min (length l) (length l').
Proof. revert l'. induction l as [|a l IH]; intros [|b l']; cbn; auto. Qed.
Lemma swap_bit_sa l i j : map sa (swap_bit l i j) = swap_words (map sa l) i j.
Proof. apply map2_Share_sa. rewrite !swap_words_length, !map_length. reflexivity. Qed.
Lemma swap_bit_sb l i j : map sb (swap_bit l i j) = swap_words (map sb l) i j.
Proof. apply map2_Share_sb. rewrite !swap_words_length, !map_length. reflexivity. Qed.
Lemma swap_bit_length l i j : length (swap_bit l i j) = length l.
Proof. rewrite <- (map_length sa), swap_bit_sa, swap_words_length, map_length. reflexivity. Qed.
Lemma swap_bit_col l i j k : (i < 128 * length l)%nat -> (j < 128 * length l)%nat -> (k < 128 * length l)%nat ->
  col_bit (swap_bit l i j) k = col_bit l (transp i j k).
Proof.
  intros Hi Hj Hk. unfold col_bit. rewrite swap_bit_sa, swap_bit_sb, !swap_words_bit by (rewrite map_length; assumption). reflexivity.
Qed.
Lemma share_in_cols n l : Forall (share_in n) l <-> Forall (inr n) (map sa l) /\ Forall (inr n) (map sb l).
Proof.
  split.
  - intros H. split; apply Forall_map; eapply Forall_impl; try exact H; intros x [H1 H2]; assumption.
  - intros [H1 H2]. rewrite Forall_map in H1, H2. rewrite Forall_forall in *. intros x Hx. split; auto.
Qed.
Lemma swap_bit_range l i j : Forall (share_in 128) l -> Forall (share_in 128) (swap_bit l i j).
Proof.
  rewrite !share_in_cols, swap_bit_sa, swap_bit_sb. intros [H1 H2]. split; apply swap_words_range; assumption.
Qed.
Lemma swap_all_bits a b c i j : length b = length a -> length c = length a ->
  (i < 128 * length a)%nat -> (j < 128 * length a)%nat ->
  Permutation (all_bits (swap_bit a i j) (swap_bit b i j) (swap_bit c i j)) (all_bits a b c).
Proof.
  intros Lb Lc Hi Hj. unfold all_bits. rewrite swap_bit_length.
  rewrite (map_ext_in _ (fun k => (fun k => (col_bit a k, col_bit b k, col_bit c k)) (transp i j k))).
  - rewrite <- (map_map (transp i j) (fun k => (col_bit a k, col_bit b k, col_bit c k))).
    apply Permutation_map, transp_perm; assumption.
  - intros k Hk. apply in_seq in Hk. rewrite !swap_bit_col by lia. reflexivity.
Qed.

Lemma gen_range_spec G r lo hi : (lo < hi)%nat -> (lo <= snd (gen_range G r lo hi) < hi)%nat.
Proof.
  intros H. unfold gen_range. destruct (rdraw G r _) as [r' v]. cbn [snd].
  pose proof (Z.mod_pos_bound v (Z.of_nat (hi - lo)) ltac:(lia)). lia.
Qed.

(** Anything preserved by every single swap is preserved by the shuffle. *)
Lemma shuffle_ind G (P : list share -> list share -> list share -> Prop) r a b c :
  length b = length a -> length c = length a -> P a b c ->
  (forall a' b' c' i j, length a' = length a -> length b' = length a -> length c' = length a ->
     (i < 128 * length a)%nat -> (j < 128 * length a)%nat -> P a' b' c' -> P (swap_bit a' i j) (swap_bit b' i j) (swap_bit c' i j)) ->
  let '(x, y, z) := shuffle G r a b c in
  length x = length a /\ length y = length a /\ length z = length a /\ P x y z.
Proof.
  intros Lb Lc H0 HS. unfold shuffle. rewrite Nat.mul_comm. set (N := (128 * length a)%nat).
  assert (E : forall js r a' b' c', Forall (fun j => j < N)%nat js -> length a' = length a -> length b' = length a -> length c' = length a -> P a' b' c' ->
    let '(x, y, z) := snd (fold_left (fun (s : rstate G * (list share * list share * list share)) j =>
         let '(r, (a, b, c)) := s in
         let '(r', i) := gen_range G r j N in
         (r', (swap_bit a i j, swap_bit b i j, swap_bit c i j))) js (r, (a', b', c'))) in
    length x = length a /\ length y = length a /\ length z = length a /\ P x y z).
  { induction js as [|j js IH]; intros r0 a' b' c' HF L1 L2 L3 HP; cbn [fold_left snd]; [auto|].
    inversion HF as [|? ? Hj HFs]; subst. pose proof (gen_range_spec G r0 j N Hj) as Hr.
    destruct (gen_range G r0 j N) as [r1 i]. cbn [snd] in Hr. apply IH; rewrite ?swap_bit_length; auto. apply HS; auto. lia. }
  apply E; auto. apply Forall_forall. intros j Hj. apply in_seq in Hj. lia.
Qed.
Lemma shuffle_perm G r a b c : length b = length a -> length c = length a ->
  let '(x, y, z) := shuffle G r a b c in
  length x = length a /\ length y = length a /\ length z = length a /\ Permutation (all_bits x y z) (all_bits a b c).
Proof.
  intros Lb Lc. apply (shuffle_ind G (fun x y z => Permutation (all_bits x y z) (all_bits a b c))); auto.
  intros a' b' c' i j L1 L2 L3 Hi Hj HP. etransitivity; [|exact HP]. apply swap_all_bits; congruence.
Qed.
Lemma shuffle_range G r a b c : length b = length a -> length c = length a -> Forall (share_in 128) (a ++ b ++ c) ->
  let '(x, y, z) := shuffle G r a b c in Forall (share_in 128) (x ++ y ++ z).
Proof.
  intros Lb Lc HF. pose proof (shuffle_ind G (fun x y z => Forall (share_in 128) (x ++ y ++ z)) r a b c Lb Lc HF) as E.
  destruct (shuffle G r a b c) as [[x y] z]. apply E. intros a' b' c' i j _ _ _ _ _ HP.
  rewrite !Forall_app in *. destruct HP as (H1 & H2 & H3). auto using swap_bit_range.
Qed.

(** *** In terms of the specification *)
Lemma col_bit_nth l n k : (k < 128)%nat -> col_bit l (n * 128 + k) = share_bit (nth n l szero) k.
Proof.
  intros Hk. unfold col_bit, share_bit, wbit. replace ((n * 128 + k) / 128)%nat with n by lia. replace ((n * 128 + k) mod 128)%nat with k by lia.
  rewrite (map_nth sa l szero n : nth n (map sa l) 0 = _), (map_nth sb l szero n : nth n (map sb l) 0 = _). reflexivity.
Qed.
Lemma all_bits_cons x y z a b c : all_bits (x :: a) (y :: b) (z :: c) = word_bits 128 x y z ++ all_bits a b c.
Proof.
  unfold all_bits. cbn [length]. replace (128 * S (length a))%nat with (128 + 128 * length a)%nat by lia.
  rewrite seq_app, map_app. apply (f_equal2 (@app _)).
  - unfold word_bits. apply map_ext_in. intros k Hk. apply in_seq in Hk.
    assert (C : forall u l, col_bit (u :: l) k = share_bit u k) by (intros u l; exact (col_bit_nth (u :: l) 0 k ltac:(lia))). rewrite !C. reflexivity.
  - change (0 + 128)%nat with (128 + 0)%nat.
    assert (E : forall m n s, seq (m + s) n = map (Nat.add m) (seq s n)).
    { intros m n. induction n as [|n IH]; intros s; [reflexivity|]. cbn [seq map]. f_equal. rewrite <- IH. f_equal. lia. }
    rewrite E, map_map. apply map_ext_in. intros k Hk. apply in_seq in Hk.
    assert (C : forall u l, col_bit (u :: l) (128 + k) = col_bit l k).
    { intros u l. unfold col_bit, wbit. replace ((128 + k) / 128)%nat with (S (k / 128)) by lia.
      replace ((128 + k) mod 128)%nat with (k mod 128)%nat by lia. reflexivity. }
    rewrite !C. reflexivity.
Qed.
Lemma column_bits_all a b c : length b = length a -> length c = length a -> column_bits 128 a b c = all_bits a b c.
Proof.
  revert b c. induction a as [|x a IH]; intros [|y b] [|z c] Lb Lc; try discriminate; [reflexivity|].
  rewrite all_bits_cons, <- IH by (cbn in Lb, Lc; congruence). destruct a as [|x' a], b as [|y' b], c as [|z' c]; try discriminate; [|reflexivity].
  cbn [column_bits]. rewrite app_nil_r. reflexivity.
Qed.
Lemma column_bits_snoc n a b c x y z : length b = length a -> length c = length a ->
  column_bits n (a ++ [x]) (b ++ [y]) (c ++ [z]) = column_bits 128 a b c ++ word_bits n x y z.
Proof.
  revert b c. induction a as [|x' a IH]; intros [|y' b] [|z' c] Lb Lc; try discriminate; [reflexivity|].
  specialize (IH b c ltac:(cbn in Lb; congruence) ltac:(cbn in Lc; congruence)).
  assert (E : forall used x0 y0 z0 a b c, length b = length a -> length c = length a -> a <> [] ->
     column_bits used (x0 :: a) (y0 :: b) (z0 :: c) = word_bits 128 x0 y0 z0 ++ column_bits used a b c).
  { clear. intros used x0 y0 z0 [|x a] [|y b] [|z c] Lb Lc Hn; try discriminate; [congruence|reflexivity]. }
  cbn [app]. rewrite E; [|rewrite !app_length; cbn in *; lia..|destruct a; discriminate]. rewrite IH, app_assoc. f_equal.
  destruct a as [|x'' a], b as [|y'' b], c as [|z'' c]; try discriminate; [cbn [column_bits]; apply app_nil_r|reflexivity].
Qed.
Lemma word_bits_length n x y z : length (word_bits n x y z) = n.
Proof. unfold word_bits. rewrite map_length, seq_length. reflexivity. Qed.
Lemma all_bits_length a b c : length (all_bits a b c) = (128 * length a)%nat.
Proof. unfold all_bits. rewrite map_length, seq_length. reflexivity. Qed.

(** ** Appending to a pool *)
Definition cat (K w x : Z) : Z := ror (rshl 128 w K) x.
Definition scat (K : Z) (w x : share) : share := Share (cat K (sa w) (sa x)) (cat K (sb w) (sb x)).
Definition low (K x : Z) : Z := rand_ x (2 ^ K - 1).
Definition slow (K : Z) (x : share) : share := Share (low K (sa x)) (low K (sb x)).
Definition shigh (K : Z) (x : share) : share := Share (rshr 128 (sa x) K) (rshr 128 (sb x) K).

Section Cat.
  Variables (g K w x : Z).
  Hypothesis (Hg : 0 < g) (HK : 0 < K) (Hs : g + K <= 128) (Hw : inr g w) (Hx : inr K x).
  Lemma cat_shl : rshl 128 w K = Z.shiftl w K.
  Proof using Hg HK Hs Hw.
    unfold rshl. cbn [Z.eqb Pos.eqb]. rewrite (Z.mod_small K) by lia. apply Z.mod_small. rewrite Z.shiftl_mul_pow2 by lia.
    unfold inr in Hw. assert (0 < 2 ^ K) by (apply Z.pow_pos_nonneg; lia).
    assert (2 ^ g * 2 ^ K <= 2 ^ 128) by (rewrite <- Z.pow_add_r by lia; apply Z.pow_le_mono_r; lia). nia.
  Qed.
  Lemma cat_range : inr (g + K) (cat K w x).
  Proof using Hg HK Hs Hw Hx.
    unfold cat. rewrite cat_shl. apply inr_lor; [lia| |].
    - unfold inr in *. rewrite Z.shiftl_mul_pow2, Z.pow_add_r by lia. assert (0 < 2 ^ K) by (apply Z.pow_pos_nonneg; lia). nia.
    - unfold inr in *. assert (2 ^ K <= 2 ^ (g + K)) by (apply Z.pow_le_mono_r; lia). lia.
  Qed.
  Lemma cat_bit n : 0 <= n -> Z.testbit (cat K w x) n = if n <? K then Z.testbit x n else Z.testbit w (n - K).
  Proof using Hg HK Hs Hw Hx.
    intros Hn. unfold cat, ror. rewrite cat_shl, Z.lor_spec, Z.shiftl_spec by lia.
    destruct (Z.ltb_spec n K) as [H|H].
    - rewrite (Z.testbit_neg_r w) by lia. reflexivity.
    - rewrite <- (norm_inr K x Hx). unfold norm. rewrite Z.mod_pow2_bits_high by lia. apply orb_false_r.
  Qed.
End Cat.
Lemma low_eq K x : 0 <= K -> low K x = x mod 2 ^ K.
Proof. intros H. unfold low, rand_. replace (2 ^ K - 1) with (Z.ones K); [apply Z.land_ones; exact H|]. rewrite Z.ones_equiv. lia. Qed.
Lemma low_range K x : 0 <= K -> inr K (low K x).
Proof. intros H. rewrite low_eq by exact H. apply inr_norm, H. Qed.
Lemma low_bit K x n : 0 <= K -> 0 <= n < K -> Z.testbit (low K x) n = Z.testbit x n.
Proof. intros H Hn. rewrite low_eq by exact H. apply Z.mod_pow2_bits_low. lia. Qed.
Lemma high_range K o x : 0 <= o < K -> K <= 128 -> inr K x -> inr (K - o) (rshr 128 x o).
Proof.
  intros Ho HK Hx. unfold rshr. cbn [Z.eqb Pos.eqb]. rewrite Z.mod_small by lia. rewrite Z.shiftr_div_pow2 by lia. unfold inr in *. 
  assert (0 < 2 ^ o) by (apply Z.pow_pos_nonneg; lia). assert (2 ^ K = 2 ^ o * 2 ^ (K - o)) by (rewrite <- Z.pow_add_r by lia; f_equal; lia).
  split; [apply Z.div_pos; lia|]. apply Z.div_lt_upper_bound; lia.
Qed.
Lemma high_bit o x n : 0 <= o < 128 -> 0 <= n -> Z.testbit (rshr 128 x o) n = Z.testbit x (n + o).
Proof. intros Ho Hn. unfold rshr. cbn [Z.eqb Pos.eqb]. rewrite Z.mod_small by lia. apply Z.shiftr_spec. exact Hn. Qed.

(** Where the bits go. *)
Lemma map_seq_add {A} (f : nat -> A) m n s : map f (seq (m + s) n) = map (fun k => f (m + k)%nat) (seq s n).
Proof. revert s. induction n as [|n IH]; intros s; [reflexivity|]. cbn [seq map]. f_equal. rewrite <- IH. f_equal. f_equal. lia. Qed.
Lemma share_bit_scat g K w x k : 0 < g -> 0 < K -> g + K <= 128 -> share_in g w -> share_in K x ->
  share_bit (scat K w x) k = if Z.of_nat k <? K then share_bit x k else share_bit w (k - Z.to_nat K).
Proof.
  intros Hg HK Hs [W1 W2] [X1 X2]. unfold share_bit, scat. cbn [sa sb]. rewrite !(cat_bit g) by (auto; lia).
  destruct (Z.ltb_spec (Z.of_nat k) K); [reflexivity|]. replace (Z.of_nat (k - Z.to_nat K)) with (Z.of_nat k - K) by lia. reflexivity.
Qed.
Lemma word_bits_scat g K w1 w2 w3 x y z : 0 < g -> 0 < K -> g + K <= 128 -> share_in g w1 -> share_in g w2 -> share_in g w3 ->
  share_in K x -> share_in K y -> share_in K z ->
  word_bits (Z.to_nat (g + K)) (scat K w1 x) (scat K w2 y) (scat K w3 z) = word_bits (Z.to_nat K) x y z ++ word_bits (Z.to_nat g) w1 w2 w3.
Proof.
  intros Hg HK Hs W1 W2 W3 X Y Z. unfold word_bits. replace (Z.to_nat (g + K)) with (Z.to_nat K + Z.to_nat g)%nat by lia.
  rewrite seq_app, map_app, Nat.add_0_l. rewrite <- (Nat.add_0_r (Z.to_nat K)) at 2. rewrite map_seq_add. apply (f_equal2 (@app _)); apply map_ext_in; intros k Hk; apply in_seq in Hk.
  - rewrite !(share_bit_scat g) by (auto; lia). replace (Z.of_nat k <? K) with true by lia. reflexivity.
  - rewrite !(share_bit_scat g) by (auto; lia). replace (Z.of_nat (Z.to_nat K + k) <? K) with false by lia.
    replace (Z.to_nat K + k - Z.to_nat K)%nat with k by lia. reflexivity.
Qed.
Lemma word_bits_low o x y z : 0 <= o -> word_bits (Z.to_nat o) (slow o x) (slow o y) (slow o z) = word_bits (Z.to_nat o) x y z.
Proof.
  intros Ho. unfold word_bits. apply map_ext_in. intros k Hk. apply in_seq in Hk. unfold share_bit, slow. cbn [sa sb].
  rewrite !low_bit by lia. reflexivity.
Qed.
Lemma word_bits_split o K x y z : 0 <= o < K -> K <= 128 ->
  word_bits (Z.to_nat K) x y z = word_bits (Z.to_nat o) x y z ++ word_bits (Z.to_nat (K - o)) (shigh o x) (shigh o y) (shigh o z).
Proof.
  intros Ho HK. unfold word_bits. replace (Z.to_nat K) with (Z.to_nat o + Z.to_nat (K - o))%nat by lia. rewrite seq_app, map_app. apply (f_equal2 (@app _)); [reflexivity|].
  rewrite Nat.add_0_l. rewrite <- (Nat.add_0_r (Z.to_nat o)) at 1. rewrite map_seq_add. apply map_ext_in. intros k Hk.
  unfold share_bit, shigh. cbn [sa sb]. rewrite !high_bit by lia. replace (Z.of_nat (Z.to_nat o + k)) with (Z.of_nat k + o) by lia. reflexivity.
Qed.

Lemma scat_in g K w x : 0 < g -> 0 < K -> g + K <= 128 -> share_in g w -> share_in K x -> share_in (g + K) (scat K w x).
Proof. intros Hg HK Hs [W1 W2] [X1 X2]. split; cbn [sa sb scat]; apply cat_range; assumption. Qed.
Lemma slow_in o x : 0 <= o -> share_in o (slow o x).
Proof. intros Ho. split; apply low_range, Ho. Qed.
Lemma shigh_in o K x : 0 <= o < K -> K <= 128 -> share_in K x -> share_in (K - o) (shigh o x).
Proof. intros Ho HK [X1 X2]. split; apply high_range; assumption. Qed.
Lemma share_in_mono n m x : n <= m -> share_in n x -> share_in m x.
Proof. intros H [H1 H2]. unfold share_in, inr in *. assert (2 ^ n <= 2 ^ m) by (apply Z.pow_le_mono_r; lia). lia. Qed.

Lemma upd_last_snoc f l x : upd_last f (l ++ [x]) = l ++ [f x].
Proof. induction l as [|y l IH]; [reflexivity|]. cbn [app upd_last]. rewrite <- IH. destruct (l ++ [x]) eqn:E; [destruct l; discriminate|reflexivity]. Qed.
Lemma last_snoc {A} (l : list A) x d : last (l ++ [x]) d = x.
Proof. apply last_last. Qed.
Lemma snoc_cases {A} (l : list A) : l = [] \/ exists l' x, l = l' ++ [x].
Proof. destruct (rev l) as [|x r] eqn:E; [left|right]; [rewrite <- (rev_involutive l), E; reflexivity|]. exists (rev r), x. rewrite <- (rev_involutive l), E. reflexivity. Qed.

Lemma add_t_spec K t x y z : 0 < K <= 128 -> pool_wf t -> share_in K x -> share_in K y -> share_in K z ->
  pool_wf (add_t K t x y z) /\ Permutation (pool_bits (add_t K t x y z)) (pool_bits t ++ word_bits (Z.to_nat K) x y z).
Proof.
  intros HK (Lb & Lc & Hb & He & HF & HL) X Y Z. destruct t as [a b c g]. cbn [t_a t_b t_c t_bits] in *.
  unfold add_t, push_t, add_all_t, split_and_add_t. cbn [t_a t_b t_c t_bits].
  assert (X8 : share_in 128 x) by (apply (share_in_mono K); [lia|assumption]).
  assert (Y8 : share_in 128 y) by (apply (share_in_mono K); [lia|assumption]).
  assert (Z8 : share_in 128 z) by (apply (share_in_mono K); [lia|assumption]).
  rewrite !Forall_app in HF. destruct HF as (Fa & Fb & Fc).
  destruct (Z.eqb_spec (128 - g) 0) as [E0|E0].
  { replace g with 128 in * by lia. split.
    - unfold pool_wf. cbn [t_a t_b t_c t_bits]. rewrite !app_length, Lb, Lc, !last_snoc, !Forall_app.
      repeat split; try tauto; try lia; try (apply X || apply Y || apply Z); auto; try (intros E; destruct a; discriminate).
    - unfold pool_bits. cbn [t_a t_b t_c t_bits]. rewrite column_bits_snoc by assumption. reflexivity. }
  destruct (snoc_cases a) as [->|(a' & w1 & ->)]; [specialize (He eq_refl); lia|]. clear He.
  destruct (snoc_cases b) as [->|(b' & w2 & ->)]; [rewrite app_length in Lb; cbn in Lb; lia|].
  destruct (snoc_cases c) as [->|(c' & w3 & ->)]; [rewrite app_length in Lc; cbn in Lc; lia|].
  assert (Na : a' ++ [w1] <> []) by (intros E; destruct a'; discriminate). specialize (HL Na).
  rewrite !last_snoc in HL. destruct HL as (W1 & W2 & W3).
  rewrite !app_length in Lb, Lc. cbn [length] in Lb, Lc.
  apply Forall_app in Fa, Fb, Fc. destruct Fa as [Fa _], Fb as [Fb _], Fc as [Fc _].
  rewrite !upd_last_snoc.
  destruct (Z.leb_spec K (128 - g)) as [E1|E1].
  - split.
    + assert (forall w u, share_in g w -> share_in K u -> share_in 128 (scat K w u)) by (intros; apply (share_in_mono (g + K)); [lia|apply scat_in; auto; lia]).
      unfold pool_wf. cbn [t_a t_b t_c t_bits]. rewrite !app_length, !last_snoc, !Forall_app. cbn [length].
      split; [lia|]. split; [lia|]. split; [lia|]. split; [intros E; destruct a'; discriminate|].
      split; [repeat split; auto; constructor; auto; apply H; assumption|]. intros _. repeat split; try (apply (scat_in g K); auto; lia).
    + unfold pool_bits. cbn [t_a t_b t_c t_bits]. rewrite !column_bits_snoc by lia. rewrite <- app_assoc. apply Permutation_app_head.
      change (Permutation (word_bits (Z.to_nat (g + K)) (scat K w1 x) (scat K w2 y) (scat K w3 z)) (word_bits (Z.to_nat g) w1 w2 w3 ++ word_bits (Z.to_nat K) x y z)). rewrite (word_bits_scat g K) by (auto; lia). apply Permutation_app_comm.
  - set (o := 128 - g) in *. assert (Ho : 0 < o < K) by lia.
    assert (B1 : forall u, share_in o (slow o u)) by (intros; apply slow_in; lia).
    assert (C1 : forall w u, share_in g w -> share_in 128 (scat o w (slow o u))) by (intros; replace 128 with (g + o) by lia; apply scat_in; auto; lia).
    assert (D1 : forall u, share_in K u -> share_in (K - o) (shigh o u)) by (intros; apply shigh_in; auto; lia).
    assert (D2 : forall u, share_in K u -> share_in 128 (shigh o u)) by (intros; apply (share_in_mono (K - o)); auto; lia).
    split.
    + unfold pool_wf. cbn [t_a t_b t_c t_bits]. rewrite !last_snoc, !Forall_app, !app_length. cbn [length].
      split; [lia|]. split; [lia|]. split; [lia|]. split; [intros E; destruct a'; discriminate|].
      split.
      * repeat split; auto; constructor; auto; try (apply C1; assumption); apply D2; assumption.
      * intros _. repeat split; apply D1; assumption.
    + unfold pool_bits. cbn [t_a t_b t_c t_bits]. rewrite !column_bits_snoc by (rewrite ?app_length; cbn [length]; lia). rewrite <- !app_assoc. apply Permutation_app_head.
      change (Permutation (word_bits (Z.to_nat 128) (scat o w1 (slow o x)) (scat o w2 (slow o y)) (scat o w3 (slow o z)) ++ word_bits (Z.to_nat (K - o)) (shigh o x) (shigh o y) (shigh o z))
        (word_bits (Z.to_nat g) w1 w2 w3 ++ word_bits (Z.to_nat K) x y z)).
      replace 128 with (g + o) at 1 by lia. rewrite (word_bits_scat g o) by (auto; lia).
      rewrite word_bits_low by lia. rewrite (word_bits_split o K) by lia.
      rewrite <- app_assoc. etransitivity; [apply Permutation_app_comm|]. rewrite <- app_assoc. apply Permutation_app_head. apply Permutation_app_comm.
Qed.
