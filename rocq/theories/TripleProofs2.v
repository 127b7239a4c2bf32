(** Exact contents of pools, and the shuffle as a Fisher-Yates shuffle. *)
From Coq Require Import Permutation.
From Verif Require Import Base Ring RingProofs Prog Rng Rel Net BinTrait BitArith BinProofs AddProofs IrisProofs Aby3 ShareSpec Aby3Proofs Spdz TripleSpec TripleProofs.
From Coq Require Import ZifyBool ZifyNat.

(** ** Pools *)
Lemma place_perm {T} (p w : list T) : Permutation (place p w) (p ++ w).
Proof.
  unfold place. set (f := (128 * _)%nat). set (o := (128 - _)%nat).
  transitivity (firstn f p ++ skipn f p ++ firstn o w ++ skipn o w).
  - apply Permutation_app_head. rewrite !app_assoc. apply Permutation_app_tail. apply Permutation_app_comm.
  - rewrite app_assoc, !firstn_skipn. reflexivity.
Qed.
Lemma place_length {T} (p w : list T) : length (place p w) = (length p + length w)%nat.
Proof. rewrite (Permutation_length (place_perm p w)), app_length. reflexivity. Qed.
Lemma place_map {T T'} (f : T -> T') p w : map f (place p w) = place (map f p) (map f w).
Proof. unfold place. rewrite !map_app, !firstn_map, !skipn_map, !map_length. reflexivity. Qed.
Lemma place_full {T} n (p w : list T) : length p = (128 * n)%nat -> (length w <= 128)%nat -> place p w = p ++ w.
Proof.
  intros Hp Hw. unfold place. rewrite Hp. replace (128 * n / 128)%nat with n by lia. replace (128 * n mod 128)%nat with 0%nat by lia.
  rewrite firstn_all2, skipn_all2 by lia. rewrite firstn_all2, skipn_all2 by lia. rewrite app_nil_r. reflexivity.
Qed.
Lemma place_part {T} n (q v w : list T) : length q = (128 * n)%nat -> (0 < length v < 128)%nat ->
  place (q ++ v) w = q ++ firstn (128 - length v) w ++ v ++ skipn (128 - length v) w.
Proof.
  intros Hq Hv. unfold place. rewrite app_length, Hq. replace ((128 * n + length v) / 128)%nat with n by lia.
  replace ((128 * n + length v) mod 128)%nat with (length v) by lia.
  rewrite <- Hq, firstn_app, skipn_app, Nat.sub_diag, firstn_all, skipn_all, firstn_O, skipn_O, app_nil_r. reflexivity.
Qed.
Lemma add_t_place K t x y z : 0 < K <= 128 -> pool_wf t -> share_in K x -> share_in K y -> share_in K z ->
  pool_bits (add_t K t x y z) = place (pool_bits t) (word_bits (Z.to_nat K) x y z).
Proof.
  intros HK (Lb & Lc & Hb & He & HF & HL) X Y Z. destruct t as [a b c g]. cbn [t_a t_b t_c t_bits] in *.
  unfold add_t, push_t, add_all_t, split_and_add_t. cbn [t_a t_b t_c t_bits].
  assert (LL : forall a b c : list share, length b = length a -> length c = length a -> length (column_bits 128 a b c) = (128 * length a)%nat)
    by (intros; rewrite column_bits_all by assumption; apply all_bits_length).
  destruct (Z.eqb_spec (128 - g) 0) as [E0|E0].
  { replace g with 128 in * by lia. unfold pool_bits. cbn [t_a t_b t_c t_bits]. rewrite column_bits_snoc by assumption.
    symmetry. apply (place_full (length a)); [apply LL; assumption|rewrite word_bits_length; lia]. }
  destruct (snoc_cases a) as [->|(a' & w1 & ->)]; [specialize (He eq_refl); lia|]. clear He.
  destruct (snoc_cases b) as [->|(b' & w2 & ->)]; [rewrite app_length in Lb; cbn in Lb; lia|].
  destruct (snoc_cases c) as [->|(c' & w3 & ->)]; [rewrite app_length in Lc; cbn in Lc; lia|].
  assert (Na : a' ++ [w1] <> []) by (intros E; destruct a'; discriminate). specialize (HL Na).
  rewrite !last_snoc in HL. destruct HL as (W1 & W2 & W3).
  rewrite !app_length in Lb, Lc. cbn [length] in Lb, Lc.
  rewrite !upd_last_snoc.
  assert (EP : pool_bits (Triples (a' ++ [w1]) (b' ++ [w2]) (c' ++ [w3]) g) = column_bits 128 a' b' c' ++ word_bits (Z.to_nat g) w1 w2 w3)
    by (unfold pool_bits; cbn [t_a t_b t_c t_bits]; rewrite column_bits_snoc by lia; reflexivity).
  rewrite EP, (place_part (length a')); [|apply LL; lia|rewrite word_bits_length; lia]. rewrite word_bits_length.
  destruct (Z.leb_spec K (128 - g)) as [E1|E1].
  - rewrite firstn_all2, skipn_all2, app_nil_r by (rewrite word_bits_length; lia).
    unfold pool_bits. cbn [t_a t_b t_c t_bits]. rewrite !column_bits_snoc by lia. f_equal.
    apply (word_bits_scat g K); auto; lia.
  - set (o := 128 - g) in *. assert (Ho : 0 < o < K) by lia.
    assert (B1 : forall u, share_in o (slow o u)) by (intros; apply slow_in; lia).
    unfold pool_bits. cbn [t_a t_b t_c t_bits]. rewrite !column_bits_snoc by (rewrite ?app_length; cbn [length]; lia). rewrite <- !app_assoc. f_equal.
    change (word_bits (Z.to_nat 128) (scat o w1 (slow o x)) (scat o w2 (slow o y)) (scat o w3 (slow o z)) ++ word_bits (Z.to_nat (K - o)) (shigh o x) (shigh o y) (shigh o z) =
        firstn (128 - Z.to_nat g) (word_bits (Z.to_nat K) x y z) ++ word_bits (Z.to_nat g) w1 w2 w3 ++ skipn (128 - Z.to_nat g) (word_bits (Z.to_nat K) x y z)).
    replace 128 with (g + o) at 1 by lia. rewrite (word_bits_scat g o) by (auto; lia).
    rewrite word_bits_low by lia. rewrite (word_bits_split o K) by lia.
    replace (128 - Z.to_nat g)%nat with (length (word_bits (Z.to_nat o) x y z) + 0)%nat by (rewrite word_bits_length; lia).
    rewrite firstn_app_2, firstn_O, app_nil_r, Nat.add_0_r, skipn_app, skipn_all, Nat.sub_diag, skipn_O, <- app_assoc. reflexivity.
Qed.

(** A sequence of pushes. *)
Definition push : Type := Z * (share * share * share).
Definition push_ok (p : push) : Prop :=
  let '(K, (x, y, z)) := p in 0 < K <= 128 /\ share_in K x /\ share_in K y /\ share_in K z.
Definition push_bits (p : push) : list bit_triple := let '(K, (x, y, z)) := p in word_bits (Z.to_nat K) x y z.
Definition push_all (ps : list push) (t : triples) : triples :=
  fold_left (fun t p => let '(K, (x, y, z)) := p in add_t K t x y z) ps t.
Lemma push_all_spec ps : forall t, Forall push_ok ps -> pool_wf t ->
  pool_wf (push_all ps t) /\ pool_bits (push_all ps t) = fold_left place (map push_bits ps) (pool_bits t).
Proof.
  induction ps as [|[K [[x y] z]] ps IH]; intros t HF Ht; [auto|]. inversion HF as [|? ? Hp HFs]; subst. destruct Hp as (H1 & H2 & H3 & H4).
  cbn [push_all fold_left map push_bits]. fold (push_all ps (add_t K t x y z)). destruct (IH (add_t K t x y z) HFs) as [I1 I2].
  - apply add_t_spec; assumption.
  - split; [exact I1|]. rewrite I2, add_t_place by assumption. reflexivity.
Qed.
Lemma fold_place_perm {T} (ws : list (list T)) : forall p, Permutation (fold_left place ws p) (p ++ concat ws).
Proof.
  induction ws as [|w ws IH]; intros p; cbn [fold_left concat]; [rewrite app_nil_r; reflexivity|].
  rewrite IH, app_assoc. apply Permutation_app_tail, place_perm.
Qed.
Lemma pool_bits_len t : pool_wf t -> (length (pool_bits t) = 128 * t_len t - (if Nat.eqb (t_len t) 0 then 0 else 128 - Z.to_nat (t_bits t)))%nat.
Proof.
  intros (Lb & Lc & Hb & He & _). destruct t as [a b c g]. cbn [t_a t_b t_c t_bits t_len] in *. unfold pool_bits, t_len. cbn [t_a t_b t_c t_bits].
  destruct (snoc_cases a) as [->|(a' & w1 & ->)]; [destruct b, c; try discriminate; reflexivity|].
  destruct (snoc_cases b) as [->|(b' & w2 & ->)]; [rewrite app_length in Lb; cbn in Lb; lia|].
  destruct (snoc_cases c) as [->|(c' & w3 & ->)]; [rewrite app_length in Lc; cbn in Lc; lia|].
  rewrite !app_length in *. cbn [length] in *. rewrite column_bits_snoc by lia.
  rewrite app_length, column_bits_all by lia. rewrite all_bits_length, word_bits_length.
  destruct (Nat.eqb_spec (length a' + 1) 0); lia.
Qed.
Lemma pool_len t : pool_wf t -> t_len t = Nat.div (length (pool_bits t) + 127) 128.
Proof.
  intros Ht. rewrite pool_bits_len by exact Ht. destruct Ht as (_ & _ & Hb & _).
  destruct (Nat.eqb_spec (t_len t) 0) as [E|E]; [rewrite E; reflexivity|]. lia.
Qed.
Lemma pool0_wf : pool_wf triples0.
Proof. unfold pool_wf, triples0. cbn. repeat split; auto; try lia; try constructor; congruence. Qed.
(** The unused positions of the last word hold zeros. *)
Definition zero_triple : bit_triple := ((false, false), (false, false), (false, false)).
Lemma share_bit_above n x k : share_in n x -> n <= Z.of_nat k -> share_bit x k = (false, false).
Proof.
  intros [[H1 H2] [H3 H4]] Hk. unfold share_bit.
  assert (Hn : 0 <= n). { destruct (Z.lt_ge_cases n 0) as [E|E]; [|exact E]. rewrite Z.pow_neg_r in H2 by exact E. lia. }
  assert (forall y, 0 <= y < 2 ^ n -> Z.testbit y (Z.of_nat k) = false); [|f_equal; auto].
  intros y Hy. rewrite <- (Z.mod_small y (2 ^ n)) by exact Hy. apply Z.mod_pow2_bits_high. lia.
Qed.
Lemma pool_padding t : pool_wf t -> column_bits 128 (t_a t) (t_b t) (t_c t) =
  pool_bits t ++ repeat zero_triple (128 * t_len t - length (pool_bits t)).
Proof.
  intros Ht. rewrite pool_bits_len by exact Ht. destruct Ht as (Lb & Lc & Hb & He & _ & HL). destruct t as [a b c g]. unfold pool_bits, t_len.
  cbn [t_a t_b t_c t_bits] in *.
  destruct (snoc_cases a) as [->|(a' & w1 & ->)]; [destruct b, c; try discriminate; reflexivity|].
  destruct (snoc_cases b) as [->|(b' & w2 & ->)]; [rewrite app_length in Lb; cbn in Lb; lia|].
  destruct (snoc_cases c) as [->|(c' & w3 & ->)]; [rewrite app_length in Lc; cbn in Lc; lia|].
  assert (Na : a' ++ [w1] <> []) by (intros E; destruct a'; discriminate). specialize (HL Na). rewrite !last_snoc in HL. destruct HL as (W1 & W2 & W3).
  rewrite !app_length in *. cbn [length] in *. rewrite !column_bits_snoc by lia. rewrite <- app_assoc. f_equal.
  replace (Nat.eqb (length a' + 1) 0) with false by lia.
  set (m := (_ - _)%nat). assert (Em : (m = 128 - Z.to_nat g)%nat) by lia. rewrite Em. clear m Em.
  unfold word_bits. replace 128%nat with (Z.to_nat g + (128 - Z.to_nat g))%nat at 1 by lia. rewrite seq_app, map_app. apply (f_equal2 (@app _)); [reflexivity|].
  assert (E : forall n s, (Z.to_nat g <= s)%nat -> map (fun k => (share_bit w1 k, share_bit w2 k, share_bit w3 k)) (seq s n) = repeat zero_triple n).
  { induction n as [|n IH]; intros s Hs; [reflexivity|]. cbn [seq map repeat]. rewrite IH by lia. f_equal.
    rewrite !(share_bit_above g) by (assumption || lia). reflexivity. }
  apply E. lia.
Qed.

(** ** The shuffle *)
Lemma set_nth_length {T} n (x : T) l : length (set_nth n x l) = length l.
Proof. revert n. induction l as [|y l IH]; intros [|n]; cbn; auto. Qed.
Lemma nth_error_set {T} n (x : T) l m : (n < length l)%nat -> nth_error (set_nth n x l) m = if Nat.eqb m n then Some x else nth_error l m.
Proof.
  revert n m. induction l as [|y l IH]; intros [|n] [|m] Hn; cbn in *; try lia; auto. apply IH. lia.
Qed.
Lemma exchange_length {T} i j (l : list T) : length (exchange i j l) = length l.
Proof. unfold exchange. destruct (nth_error l i); [|reflexivity]. destruct (nth_error l j); [|reflexivity]. rewrite !set_nth_length. reflexivity. Qed.
Lemma nth_error_exchange {T} i j (l : list T) k : (i < length l)%nat -> (j < length l)%nat ->
  nth_error (exchange i j l) k = nth_error l (transp i j k).
Proof.
  intros Hi Hj. unfold exchange. destruct (nth_error l i) as [x|] eqn:Ei; [|apply nth_error_None in Ei; lia].
  destruct (nth_error l j) as [y|] eqn:Ej; [|apply nth_error_None in Ej; lia].
  rewrite !nth_error_set by (rewrite ?set_nth_length; assumption). unfold transp.
  destruct (Nat.eqb_spec k i) as [->|Hki]; [symmetry; exact Ej|]. destruct (Nat.eqb_spec k j) as [->|Hkj]; [symmetry; exact Ei|reflexivity].
Qed.
Lemma list_ext {T} (l l' : list T) : length l = length l' -> (forall k, (k < length l)%nat -> nth_error l k = nth_error l' k) -> l = l'.
Proof.
  revert l'. induction l as [|x l IH]; intros [|y l'] HL HE; try discriminate; [reflexivity|].
  pose proof (HE 0%nat ltac:(cbn; lia)) as E0. injection E0 as ->. f_equal. apply IH; [cbn in HL; lia|].
  intros k Hk. apply (HE (S k)). cbn. lia.
Qed.
Lemma exchange_perm {T} i j (l : list T) : (i < length l)%nat -> (j < length l)%nat -> Permutation (exchange i j l) l.
Proof.
  intros Hi Hj. destruct l as [|d l0]; [cbn in Hi; lia|]. set (l := d :: l0) in *.
  assert (E : forall m : list T, m = map (fun k => nth k m d) (seq 0 (length m))).
  { clear. intros m. apply list_ext; [rewrite map_length, seq_length; reflexivity|]. intros k Hk. rewrite nth_error_map, (nth_error_nth' _ _ 0%nat) by (rewrite seq_length; exact Hk).
    rewrite seq_nth by exact Hk. cbn. apply nth_error_nth'. exact Hk. }
  rewrite (E (exchange i j l)), exchange_length. transitivity (map (fun k => nth k l d) (seq 0 (length l))); [|rewrite <- (E l); reflexivity].
  rewrite (map_ext_in _ (fun k => (fun k => nth k l d) (transp i j k))).
  - rewrite <- (map_map (transp i j) (fun k => nth k l d)). apply Permutation_map, transp_perm; assumption.
  - intros k _. pose proof (nth_error_exchange i j l k Hi Hj) as En.
    rewrite <- !nth_default_eq. unfold nth_default. rewrite En. reflexivity.
Qed.
Lemma fy_perm {T} ks : forall l : list T, picks_ok (length l) ks -> Permutation (fisher_yates ks l) l.
Proof.
  induction ks as [|k ks IH]; intros l Hk; [reflexivity|]. destruct l as [|x l]; [destruct Hk|]. destruct Hk as [H1 H2]. cbn [fisher_yates].
  pose proof (exchange_perm k 0 (x :: l) H1 ltac:(cbn; lia)) as HP. pose proof (exchange_length k 0 (x :: l)) as HL.
  destruct (exchange k 0 (x :: l)) as [|y t]; [discriminate|]. cbn in HL. rewrite <- HP. constructor. apply IH. replace (length t) with (length l) by lia. exact H2.
Qed.
(** Every arrangement of distinct elements comes from exactly one sequence of picks. *)
Lemma exchange_head {T} k (l : list T) : (k < length l)%nat -> nth_error (exchange k 0 l) 0 = nth_error l k.
Proof. intros Hk. rewrite nth_error_exchange by lia. unfold transp. destruct (Nat.eqb_spec 0 k) as [<-|]; reflexivity. Qed.
Lemma fy_unique {T} : forall (l l' : list T), NoDup l -> Permutation l' l ->
  exists ks, (picks_ok (length l) ks /\ fisher_yates ks l = l') /\ forall ks', picks_ok (length l) ks' -> fisher_yates ks' l = l' -> ks' = ks.
Proof.
  intros l. remember (length l) as n eqn:En. revert l En. induction n as [|n IH]; intros l En l' HN HP.
  - destruct l; [|discriminate]. apply Permutation_sym, Permutation_nil in HP. subst l'. exists []. split; [cbn; auto|]. intros [|? ?]; cbn; tauto.
  - destruct l' as [|y l']; [apply Permutation_length in HP; cbn in HP; lia|].
    assert (Hin : In y l) by (eapply Permutation_in; [exact HP|left; reflexivity]).
    apply In_nth_error in Hin. destruct Hin as [k Hk].
    assert (Hlk : (k < length l)%nat) by (apply nth_error_Some; congruence).
    pose proof (exchange_head k l Hlk) as HH. rewrite Hk in HH.
    pose proof (exchange_perm k 0 l Hlk ltac:(lia)) as HX.
    destruct (exchange k 0 l) as [|y0 t] eqn:Ex; [discriminate|]. cbn in HH. injection HH as ->.
    assert (Ht : NoDup (y :: t)) by (eapply Permutation_NoDup; [apply Permutation_sym; exact HX|exact HN]). inversion Ht as [|? ? Hyt Ht']; subst.
    assert (HPt : Permutation l' t) by (apply (Permutation_cons_inv (a := y)); rewrite HX; exact HP).
    destruct (IH t) with (l' := l') as (ks & [Hok Hfy] & Huniq); auto.
    { apply Permutation_length in HX. cbn in HX. lia. }
    exists (k :: ks). split; [split; [split; [lia|exact Hok]|cbn [fisher_yates]; rewrite Ex, Hfy; reflexivity]|].
    intros [|k' ks'] Hok' Hf'; [destruct Hok'|]. destruct Hok' as [Hk' Hok']. cbn [fisher_yates] in Hf'.
    assert (k' = k) as ->.
    { assert (Hlk' : (k' < length l)%nat) by lia. pose proof (exchange_head k' l Hlk') as HH'. pose proof (exchange_length k' 0 l) as HL'.
      destruct (exchange k' 0 l) as [|y' t'] eqn:Ex'; [cbn in HL'; lia|]. injection Hf' as -> _. cbn in HH'.
      eapply NoDup_nth_error; [exact HN|exact Hlk'|]. congruence. }
    rewrite Ex in Hf'. injection Hf' as Hf'. f_equal. apply Huniq; assumption.
Qed.
Lemma picks_valid G n : forall r, picks_ok n (picks G r n).
Proof.
  induction n as [|n IH]; intros r; [exact I|]. cbn [picks]. destruct (rdraw G r _) as [r' v]. split; [|apply IH].
  pose proof (Z.mod_pos_bound v (Z.of_nat (S n)) ltac:(lia)). lia.
Qed.

Lemma all_bits_nth a b c k : (k < 128 * length a)%nat -> nth_error (all_bits a b c) k = Some (col_bit a k, col_bit b k, col_bit c k).
Proof.
  intros Hk. unfold all_bits. rewrite nth_error_map, (nth_error_nth' _ _ 0%nat) by (rewrite seq_length; exact Hk). rewrite seq_nth by exact Hk. reflexivity.
Qed.
Lemma swap_exchange a b c i j : length b = length a -> length c = length a ->
  (i < 128 * length a)%nat -> (j < 128 * length a)%nat ->
  all_bits (swap_bit a i j) (swap_bit b i j) (swap_bit c i j) = exchange i j (all_bits a b c).
Proof.
  intros Lb Lc Hi Hj. apply list_ext; [rewrite exchange_length, !all_bits_length, swap_bit_length; reflexivity|].
  intros k Hk. rewrite all_bits_length, swap_bit_length in Hk.
  rewrite nth_error_exchange by (rewrite all_bits_length; assumption).
  assert (Ht : (transp i j k < 128 * length a)%nat) by (unfold transp; destruct (Nat.eqb k i); [lia|]; destruct (Nat.eqb k j); lia).
  rewrite !all_bits_nth by (rewrite ?swap_bit_length; assumption). rewrite !swap_bit_col by lia. reflexivity.
Qed.
Lemma exchange_app {T} (q l : list T) k : (k < length l)%nat -> exchange (length q + k) (length q) (q ++ l) = q ++ exchange k 0 l.
Proof.
  intros Hk. apply list_ext; [rewrite exchange_length, !app_length, exchange_length; reflexivity|]. intros m Hm.
  rewrite nth_error_exchange by (rewrite app_length; lia). unfold transp.
  destruct (Nat.lt_ge_cases m (length q)) as [Hlt|Hge].
  - destruct (Nat.eqb_spec m (length q + k)); [lia|]. destruct (Nat.eqb_spec m (length q)); [lia|]. rewrite !nth_error_app1 by lia. reflexivity.
  - rewrite (nth_error_app2 q (exchange k 0 l)) by lia. rewrite nth_error_exchange by lia. unfold transp.
    destruct (Nat.eqb_spec m (length q + k)) as [->|E1].
    + rewrite nth_error_app2 by lia. rewrite Nat.sub_diag. replace (length q + k - length q)%nat with k by lia. rewrite Nat.eqb_refl. reflexivity.
    + destruct (Nat.eqb_spec (m - length q) k); [lia|].
      destruct (Nat.eqb_spec m (length q)) as [->|E2].
      * rewrite nth_error_app2 by lia. rewrite Nat.sub_diag. cbn [Nat.eqb]. replace (length q + k - length q)%nat with k by lia. reflexivity.
      * destruct (Nat.eqb_spec (m - length q) 0); [lia|]. rewrite nth_error_app2 by lia. reflexivity.
Qed.
Lemma shuffle_fy G r a b c : length b = length a -> length c = length a ->
  let '(x, y, z) := shuffle G r a b c in
  length x = length a /\ length y = length a /\ length z = length a /\
  all_bits x y z = fisher_yates (picks G r (128 * length a)) (all_bits a b c).
Proof.
  intros Lb Lc. unfold shuffle. rewrite Nat.mul_comm. set (N := (128 * length a)%nat).
  assert (E : forall n m r a' b' c' q l, (m + n = N)%nat -> length a' = length a -> length b' = length a -> length c' = length a ->
    all_bits a' b' c' = q ++ l -> length q = m -> length l = n ->
    let '(x, y, z) := snd (fold_left (fun (s : rstate G * (list share * list share * list share)) j =>
         let '(r, (a, b, c)) := s in
         let '(r', i) := gen_range G r j N in
         (r', (swap_bit a i j, swap_bit b i j, swap_bit c i j))) (seq m n) (r, (a', b', c'))) in
    length x = length a /\ length y = length a /\ length z = length a /\ all_bits x y z = q ++ fisher_yates (picks G r n) l).
  { induction n as [|n IH]; intros m r0 a' b' c' q l Hmn L1 L2 L3 EB Lq Ll.
    - cbn [seq fold_left snd picks fisher_yates]. auto.
    - cbn [seq fold_left picks]. unfold gen_range at 2. replace (N - m)%nat with (S n) by lia.
      destruct (rdraw G r0 (- Z.of_nat (S n))) as [r1 v]. set (k := Z.to_nat (v mod Z.of_nat (S n))).
      assert (Hk : (k < S n)%nat) by (pose proof (Z.mod_pos_bound v (Z.of_nat (S n)) ltac:(lia)); lia).
      cbn [fisher_yates]. pose proof (exchange_length k 0 l) as HL. rewrite Ll in HL.
      destruct (exchange k 0 l) as [|x0 t] eqn:Ex; [discriminate|]. cbn in HL.
      specialize (IH (S m) r1 (swap_bit a' (m + k) m) (swap_bit b' (m + k) m) (swap_bit c' (m + k) m) (q ++ [x0]) t).
      rewrite !swap_bit_length in IH. specialize (IH ltac:(lia) L1 L2 L3).
      rewrite app_length in IH. cbn [length] in IH. rewrite <- !app_assoc in IH. cbn [app] in IH.
      destruct (snd (fold_left _ (seq (S m) n) _)) as [[x1 y1] z1]. apply IH; [|lia|lia].
      rewrite swap_exchange by lia. rewrite EB, <- Lq, exchange_app by lia. rewrite Ex. reflexivity. }
  apply (E N 0%nat r a b c [] (all_bits a b c)); auto. apply all_bits_length.
Qed.
Lemma all_bits_app a b c a' b' c' : length b = length a -> length c = length a ->
  all_bits (a ++ a') (b ++ b') (c ++ c') = all_bits a b c ++ all_bits a' b' c'.
Proof.
  revert b c. induction a as [|x a IH]; intros [|y b] [|z c] Lb Lc; try discriminate; [reflexivity|].
  cbn [app]. rewrite !all_bits_cons, IH by (cbn in *; lia). apply app_assoc.
Qed.
