(** The AND-triple check against a malicious party: shuffling of errors. *)
From Coq Require Import Permutation.
From Verif Require Import Base Ring RingProofs Prog Sched Conc Rng Rel Net BinTrait BitArith BinProofs AddProofs IrisProofs MpcSpec Aby3 ShareSpec Aby3Proofs Aby3Proofs2 SlicedProofs Jmp JmpProofs
  Aby3Mal Spdz TripleSpec TripleProofs TripleProofs2 SpdzProofs SpdzProofs2 MacSpec TripleMalSpec FyCount.
From Coq Require Import ZifyBool ZifyNat.

Definition err_bits (a b c : list Z) : list bool := map (fun k => xorb (wbit c k) (wbit a k && wbit b k)) (seq 0 (128 * length a)).
Lemma wbit_cons_lo w l k : (k < 128)%nat -> wbit (w :: l) k = Z.testbit w (Z.of_nat k).
Proof. intros Hk. unfold wbit. rewrite Nat.div_small, Nat.mod_small by exact Hk. reflexivity. Qed.
Lemma wbit_cons_hi w l k : wbit (w :: l) (128 + k) = wbit l k.
Proof.
  unfold wbit. replace ((128 + k) / 128)%nat with (S (k / 128)) by lia.
  replace ((128 + k) mod 128)%nat with (k mod 128)%nat by lia. reflexivity.
Qed.
Lemma errors_bits a : forall b c, length b = length a -> length c = length a -> errors a b c = err_bits a b c.
Proof.
  induction a as [|x a IH]; intros [|y b] [|z c] Lb Lc; try discriminate; [reflexivity|].
  cbn [errors]. rewrite IH by (cbn in Lb, Lc; congruence). unfold err_bits. cbn [length]. replace (128 * S (length a))%nat with (128 + 128 * length a)%nat by lia.
  rewrite seq_app, map_app. apply (f_equal2 (@app _)).
  - unfold word_errors. apply map_ext_in. intros k Hk. apply in_seq in Hk. rewrite !wbit_cons_lo by lia. reflexivity.
  - rewrite Nat.add_0_l. rewrite <- (Nat.add_0_r 128) at 2. rewrite map_seq_add. apply map_ext_in. intros k Hk. rewrite !wbit_cons_hi. reflexivity.
Qed.
Lemma errors_length a b c : length b = length a -> length c = length a -> length (errors a b c) = (128 * length a)%nat.
Proof. intros Lb Lc. rewrite errors_bits by assumption. unfold err_bits. rewrite map_length, seq_length. reflexivity. Qed.
Lemma err_nth a b c k : (k < 128 * length a)%nat -> nth_error (err_bits a b c) k = Some (xorb (wbit c k) (wbit a k && wbit b k)).
Proof. intros Hk. unfold err_bits. rewrite nth_error_map, (nth_error_nth' _ _ 0%nat) by (rewrite seq_length; exact Hk). rewrite seq_nth by exact Hk. reflexivity. Qed.
Lemma err_len a b c : length (err_bits a b c) = (128 * length a)%nat.
Proof. unfold err_bits. rewrite map_length, seq_length. reflexivity. Qed.
Lemma err_swap a b c i j : length b = length a -> length c = length a -> (i < 128 * length a)%nat -> (j < 128 * length a)%nat ->
  err_bits (swap_words a i j) (swap_words b i j) (swap_words c i j) = exchange i j (err_bits a b c).
Proof.
  intros Lb Lc Hi Hj. apply list_ext; [rewrite exchange_length, !err_len, swap_words_length; reflexivity|].
  intros k Hk. rewrite err_len, swap_words_length in Hk.
  rewrite nth_error_exchange by (rewrite err_len; assumption).
  assert (Ht : (transp i j k < 128 * length a)%nat) by (unfold transp; destruct (Nat.eqb k i); [lia|]; destruct (Nat.eqb k j); lia).
  rewrite !err_nth by (rewrite ?swap_words_length; assumption). rewrite !swap_words_bit by lia. reflexivity.
Qed.

(** Any sharings, right or wrong, shuffled with a common generator: the errors are shuffled. *)
Lemma shuffle_errors G r A B C a b c : RL (bin_shared 128) A a -> RL (bin_shared 128) B b -> RL (bin_shared 128) C c ->
  length b = length a -> length c = length a ->
  exists a' b' c', RL (bin_shared 128) (fun p => col1 (shuffle G r (A p) (B p) (C p))) a' /\
    RL (bin_shared 128) (fun p => col2 (shuffle G r (A p) (B p) (C p))) b' /\
    RL (bin_shared 128) (fun p => col3 (shuffle G r (A p) (B p) (C p))) c' /\
    length a' = length a /\ length b' = length a /\ length c' = length a /\
    errors a' b' c' = fisher_yates (picks G r (128 * length a)) (errors a b c).
Proof.
  intros HA HB HC Lb Lc. rewrite (errors_bits a b c) by assumption. unfold shuffle. set (n := length a) in *. assert (La : length a = n) by reflexivity. clearbody n.
  assert (LA : forall p, length (A p) = n) by (intros p; rewrite (RL_length _ _ _ HA); exact La).
  assert (E : forall k m r A B C a b c q l, (m + k = 128 * n)%nat -> length a = n -> length b = n -> length c = n ->
     RL (bin_shared 128) A a -> RL (bin_shared 128) B b -> RL (bin_shared 128) C c ->
     err_bits a b c = q ++ l -> length q = m -> length l = k ->
     let F := fun i => snd (fold_left (fun (s : rstate G * (list share * list share * list share)) j =>
         let '(r, (a, b, c)) := s in let '(r', k) := gen_range G r j (n * 128) in
         (r', (swap_bit a k j, swap_bit b k j, swap_bit c k j))) (seq m k) (r, (A i, B i, C i))) in
     exists a' b' c', RL (bin_shared 128) (fun i => col1 (F i)) a' /\ RL (bin_shared 128) (fun i => col2 (F i)) b' /\ RL (bin_shared 128) (fun i => col3 (F i)) c' /\
       length a' = n /\ length b' = n /\ length c' = n /\ err_bits a' b' c' = q ++ fisher_yates (picks G r k) l).
  { clear. induction k as [|k IH]; intros m r A B C a b c q l Hm La Lb Lc HA HB HC EB Lq Ll; cbn [seq fold_left picks].
    - exists a, b, c. cbn [snd]. repeat (split; [assumption|]). exact EB.
    - assert (EG : gen_range G r m (n * 128) = let '(r', v) := rdraw G r (- Z.of_nat (S k)) in (r', (m + Z.to_nat (v mod Z.of_nat (S k)))%nat))
        by (unfold gen_range; replace (n * 128 - m)%nat with (S k) by lia; reflexivity).
      destruct (rdraw G r (- Z.of_nat (S k))) as [r1 v]. set (p := Z.to_nat (v mod Z.of_nat (S k))) in *. rewrite EG.
      assert (Hp : (p < S k)%nat) by (pose proof (Z.mod_pos_bound v (Z.of_nat (S k)) ltac:(lia)); lia).
      cbn [fisher_yates]. pose proof (exchange_length p 0 l) as HL. rewrite Ll in HL.
      destruct (exchange p 0 l) as [|x0 t] eqn:Ex; [discriminate|]. cbn in HL.
      destruct (IH (S m) r1 (fun i => swap_bit (A i) (m + p) m) (fun i => swap_bit (B i) (m + p) m) (fun i => swap_bit (C i) (m + p) m)
         (swap_words a (m + p) m) (swap_words b (m + p) m) (swap_words c (m + p) m) (q ++ [x0]) t) as (a' & b' & c' & R1 & R2 & R3 & L1 & L2 & L3 & EE);
        rewrite ?swap_words_length; auto; try (apply swap_bit_ok; auto; lia); try lia.
      + rewrite err_swap by lia. rewrite EB, <- Lq, exchange_app, Ex by lia. rewrite <- app_assoc. reflexivity.
      + rewrite app_length. cbn. lia.
      + exists a', b', c'. split; [exact R1|]. split; [exact R2|]. split; [exact R3|]. repeat (split; [assumption|]). rewrite EE, <- app_assoc. reflexivity. }
  destruct (E (128 * n)%nat 0%nat r A B C a b c [] (err_bits a b c)) as (a' & b' & c' & R1 & R2 & R3 & L1 & L2 & L3 & EE); auto.
  { rewrite err_len, La. reflexivity. }
  exists a', b', c'. rewrite (errors_bits a' b' c') by congruence.
  split; [eapply RL_ext; [|exact R1]; intros p; rewrite LA, (Nat.mul_comm 128); reflexivity|].
  split; [eapply RL_ext; [|exact R2]; intros p; rewrite LA, (Nat.mul_comm 128); reflexivity|].
  split; [eapply RL_ext; [|exact R3]; intros p; rewrite LA, (Nat.mul_comm 128); reflexivity|].
  repeat (split; [assumption|]). exact EE.
Qed.

(** Error lists and parts of columns. *)
Lemma errors_app a b c a' b' c' : length b = length a -> length c = length a -> errors (a ++ a') (b ++ b') (c ++ c') = errors a b c ++ errors a' b' c'.
Proof.
  revert b c. induction a as [|x a IH]; intros [|y b] [|z c] Lb Lc; try discriminate; [reflexivity|]. cbn [app errors]. rewrite IH, app_assoc by (cbn in *; congruence). reflexivity.
Qed.
Lemma word_errors_length x y z : length (word_errors x y z) = 128%nat.
Proof. unfold word_errors. rewrite map_length, seq_length. reflexivity. Qed.
Lemma errors_firstn a b c n : errors (firstn n a) (firstn n b) (firstn n c) = firstn (128 * n) (errors a b c).
Proof.
  revert a b c. induction n as [|n IH]; intros a b c; [rewrite Nat.mul_0_r; reflexivity|].
  destruct a as [|x a]; [cbn [errors firstn]; rewrite firstn_nil; reflexivity|]. destruct b as [|y b]; [cbn [errors firstn]; rewrite firstn_nil; reflexivity|].
  destruct c as [|z c]; [cbn [errors firstn]; rewrite firstn_nil; reflexivity|].
  cbn [firstn errors]. rewrite IH. rewrite firstn_app, word_errors_length. rewrite (firstn_all2 (n := (128 * S n)%nat)) by (rewrite word_errors_length; lia). replace (128 * S n - 128)%nat with (128 * n)%nat by lia. reflexivity.
Qed.
Lemma map_false {A} (l : list A) : map (fun _ => false) l = repeat false (length l).
Proof. induction l as [|x l IH]; cbn; congruence. Qed.
Lemma word_errors_zero x y z : inr 128 x -> inr 128 y -> inr 128 z -> (word_errors x y z = repeat false 128 <-> Z.land x y = z).
Proof.
  intros Hx Hy Hz. split.
  - intros E. apply (inr_bits_eq 128); [lia|apply inr_land; auto; lia|exact Hz|]. intros n Hn.
    assert (En : nth (Z.to_nat n) (word_errors x y z) false = false) by (rewrite E; apply nth_repeat).
    unfold word_errors in En. rewrite (nth_indep _ false (xorb (Z.testbit z (Z.of_nat 0)) (Z.testbit x (Z.of_nat 0) && Z.testbit y (Z.of_nat 0)))) in En by (rewrite map_length, seq_length; lia).
    rewrite (map_nth (fun k => xorb (Z.testbit z (Z.of_nat k)) (Z.testbit x (Z.of_nat k) && Z.testbit y (Z.of_nat k)))), seq_nth in En by lia.
    rewrite Nat.add_0_l, Z2Nat.id in En by lia. rewrite Z.land_spec. destruct (Z.testbit z n), (Z.testbit x n), (Z.testbit y n); cbn in *; congruence.
  - intros <-. unfold word_errors. rewrite (map_ext _ (fun _ => false)).
    + rewrite map_false, seq_length. reflexivity.
    + intros k. rewrite Z.land_spec. apply xorb_nilpotent.
Qed.
(** Equal errors, word by word. *)
Lemma word_errors_xor x y z x' y' z' : Z.lxor (Z.lxor z (Z.land x y)) (Z.lxor z' (Z.land x' y')) = 0 -> word_errors x y z = word_errors x' y' z'.
Proof.
  intros E. unfold word_errors. apply map_ext. intros k. apply (f_equal (fun w => Z.testbit w (Z.of_nat k))) in E.
  rewrite !Z.lxor_spec, !Z.land_spec, Z.bits_0 in E. apply Bool.xorb_eq. exact E.
Qed.
