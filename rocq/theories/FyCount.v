(** Counting the shuffles that turn one list of bits into another. *)
From Coq Require Import Permutation Factorial.
From Verif Require Import Base Ring Rng Aby3 ShareSpec Spdz TripleSpec TripleProofs TripleProofs2 TripleMalSpec.
From Coq Require Import ZifyBool ZifyNat.
Local Open Scope nat_scope.

Lemma all_picks_in n : forall ks, In ks (all_picks n) <-> picks_ok n ks.
Proof.
  induction n as [|n IH]; intros ks; cbn [all_picks].
  - split; [intros [<-|[]]; exact I|]. destruct ks; [left; reflexivity|intros []].
  - rewrite in_flat_map. split.
    + intros (k & Hk & Hin). apply in_map_iff in Hin. destruct Hin as (ks' & <- & Hin). apply in_seq in Hk. split; [lia|]. apply IH, Hin.
    + destruct ks as [|k ks]; [intros []|]. intros [H1 H2]. exists k. split; [apply in_seq; lia|]. apply in_map, IH, H2.
Qed.
Lemma flat_map_const {A B} (f : A -> list B) c l : (forall x, In x l -> length (f x) = c) -> length (flat_map f l) = length l * c.
Proof.
  induction l as [|x l IH]; intros Hc; cbn; [reflexivity|]. rewrite app_length, IH, Hc; [reflexivity|left; reflexivity|]. intros; apply Hc; right; assumption.
Qed.
Lemma all_picks_length n : length (all_picks n) = fact n.
Proof.
  induction n as [|n IH]; [reflexivity|]. cbn [all_picks]. rewrite (flat_map_const _ (fact n)); [rewrite seq_length; reflexivity|].
  intros k _. rewrite map_length. exact IH.
Qed.
Lemma NoDup_app {A} (u v : list A) : NoDup u -> NoDup v -> (forall x, In x u -> ~ In x v) -> NoDup (u ++ v).
Proof.
  intros Hu Hv HD. induction Hu as [|x u Hx Hu IH]; cbn; [exact Hv|]. constructor.
  - rewrite in_app_iff. intros [H|H]; [contradiction|]. apply (HD x); [left; reflexivity|exact H].
  - apply IH. intros y Hy. apply HD. right. exact Hy.
Qed.
Lemma all_picks_nodup n : NoDup (all_picks n).
Proof.
  induction n as [|n IH]; cbn [all_picks]; [repeat constructor; intros []|].
  generalize (seq_NoDup (S n) 0). generalize (seq 0 (S n)) as l. induction l as [|k l IHl]; intros HN; cbn [flat_map]; [constructor|].
  inversion HN as [|? ? Hk HN']; subst. apply NoDup_app; [|apply IHl, HN'|].
  - apply FinFun.Injective_map_NoDup; [intros x y E; injection E; auto|exact IH].
  - intros x H1 H2. apply in_map_iff in H1. destruct H1 as (y & <- & _). apply in_flat_map in H2. destruct H2 as (k' & Hk' & H2).
    apply in_map_iff in H2. destruct H2 as (y' & E & _). injection E as -> _. contradiction.
Qed.

Definition bools_dec : forall x y : list bool, {x = y} + {x <> y} := list_eq_dec Bool.bool_dec.
(** The shuffles of f that give t. *)
Definition hits (f t : list bool) : list (list nat) :=
  filter (fun ks => if bools_dec (fisher_yates ks f) t then true else false) (all_picks (length f)).
Lemma hits_in f t ks : In ks (hits f t) <-> picks_ok (length f) ks /\ fisher_yates ks f = t.
Proof.
  unfold hits. rewrite filter_In, all_picks_in. destruct (bools_dec _ _); intuition congruence.
Qed.
Definition count (b : bool) (l : list bool) : nat := length (filter (Bool.eqb b) l).
Lemma count_perm b l l' : Permutation l l' -> count b l = count b l'.
Proof.
  unfold count. induction 1 as [|x l l' HP IH|x y l|l l' l'' H1 I1 H2 I2]; cbn; try congruence.
  - destruct (Bool.eqb b x); cbn; congruence.
  - destruct (Bool.eqb b x), (Bool.eqb b y); reflexivity.
Qed.
Lemma filter_map_len {A B} (f : A -> B) p (l : list A) : length (filter p (map f l)) = length (filter (fun x => p (f x)) l).
Proof. induction l as [|x l IH]; cbn; [reflexivity|]. destruct (p (f x)); cbn; congruence. Qed.
Lemma filter_flat_len {A B} (f : A -> list B) p (l : list A) : length (filter p (flat_map f l)) = fold_right (fun x n => length (filter p (f x)) + n) 0 l.
Proof. induction l as [|x l IH]; cbn; [reflexivity|]. rewrite filter_app, app_length, IH. reflexivity. Qed.
Lemma sum_bound (g : nat -> nat) (p : nat -> bool) c l : (forall k, In k l -> g k <= if p k then c else 0) ->
  fold_right (fun k n => g k + n) 0 l <= length (filter p l) * c.
Proof.
  induction l as [|k l IH]; intros Hg; cbn; [lia|]. pose proof (Hg k (or_introl eq_refl)) as H1. specialize (IH (fun k H => Hg k (or_intror H))).
  destruct (p k); cbn [length]; [rewrite Nat.mul_succ_l|]; lia.
Qed.
Lemma nth_filter_count b (l : list bool) : forall m, length (filter (fun k => Bool.eqb b (nth (k - m) l (negb b))) (seq m (length l))) = count b l.
Proof.
  unfold count. induction l as [|x l IH]; intros m; cbn [length seq filter]; [reflexivity|].
  rewrite Nat.sub_diag. cbn [nth]. rewrite (filter_ext_in _ (fun k => Bool.eqb b (nth (k - S m) l (negb b)))).
  - destruct (Bool.eqb b x); cbn [length]; rewrite IH; reflexivity.
  - intros k Hk. apply in_seq in Hk. replace (k - m) with (S (k - S m)) by lia. reflexivity.
Qed.
Lemma fact_pos n : 0 < fact n. Proof. apply lt_O_fact. Qed.
Lemma hits_bound t : forall f, length f = length t -> length (hits f t) <= fact (count true t) * fact (count false t).
Proof.
  induction t as [|b t IH]; intros f HL.
  { destruct f; [|discriminate]. cbn. lia. }
  destruct (hits f (b :: t)) as [|ks0 hs] eqn:E0; [cbn; lia|].
  assert (HP : Permutation f (b :: t)).
  { assert (Hin : In ks0 (hits f (b :: t))) by (rewrite E0; left; reflexivity). apply hits_in in Hin. destruct Hin as [H1 H2].
    rewrite <- H2. symmetry. apply fy_perm, H1. }
  rewrite <- E0. clear ks0 hs E0. destruct f as [|x f]; [discriminate|].
  assert (HB : length (hits (x :: f) (b :: t)) <= count b (x :: f) * (fact (count true t) * fact (count false t))).
  { unfold hits. cbn [length all_picks]. rewrite filter_flat_len.
    rewrite <- (nth_filter_count b (x :: f) 0). cbn [length].
    apply (sum_bound _ (fun k => Bool.eqb b (nth (k - 0) (x :: f) (negb b)))).
    intros k Hk. apply in_seq in Hk. rewrite filter_map_len, Nat.sub_0_r. cbn [fisher_yates].
    assert (HE : nth_error (exchange k 0 (x :: f)) 0 = nth_error (x :: f) k) by (apply exchange_head; cbn; lia).
    pose proof (exchange_length k 0 (x :: f)) as HEL.
    destruct (exchange k 0 (x :: f)) as [|y u]; [discriminate|]. cbn in HE, HEL.
    assert (Hu : length u = length f) by lia. assert (HL' : length u = length t) by (cbn in HL; lia).
    assert (Ey : nth k (x :: f) (negb b) = y) by (erewrite nth_error_nth; [reflexivity|symmetry; exact HE]). rewrite Ey. clear Ey HE.
    destruct (Bool.eqb b y) eqn:Eb.
    - apply Bool.eqb_prop in Eb. subst y. specialize (IH u HL'). unfold hits in IH. rewrite Hu in IH.
      rewrite (filter_ext _ (fun ks => if bools_dec (fisher_yates ks u) t then true else false)); [exact IH|].
      intros ks. cbv beta. destruct (bools_dec (b :: fisher_yates ks u) (b :: t)), (bools_dec (fisher_yates ks u) t); congruence.
    - rewrite (filter_ext _ (fun _ => false)); [|intros ks; destruct (bools_dec _ _) as [E|E]; [injection E as E _; rewrite E, Bool.eqb_reflx in Eb; discriminate|reflexivity]].
      clear. induction (all_picks (length f)); cbn; lia. }
  rewrite (count_perm b _ _ HP) in HB. eapply Nat.le_trans; [exact HB|].
  unfold count. destruct b; cbn [filter Bool.eqb length].
  - rewrite (Nat.mul_assoc (S _)). apply Nat.mul_le_mono_r. cbn [fact]. lia.
  - rewrite (Nat.mul_comm (fact _) (fact (length (filter (Bool.eqb false) t)))), (Nat.mul_assoc (S _)), (Nat.mul_comm (fact (length (filter (Bool.eqb true) t)))). apply Nat.mul_le_mono_r. cbn [fact]. lia.
Qed.
Lemma fact_split m z : fact (S m) * fact (S z) <= fact (S m + z).
Proof.
  induction m as [|m IH]; [cbn [fact Nat.add]; lia|].
  change (fact (S (S m))) with (S (S m) * fact (S m)). change (fact (S (S m) + z)) with (S (S m + z) * fact (S m + z)).
  rewrite <- Nat.mul_assoc. apply Nat.mul_le_mono; [lia|exact IH].
Qed.
Lemma count_len l : count true l + count false l = length l.
Proof. unfold count. induction l as [|[] l IH]; cbn [filter Bool.eqb length] in *; lia. Qed.
Lemma count_in b l : In b l -> 0 < count b l.
Proof. intros Hin. unfold count. destruct (filter (Bool.eqb b) l) eqn:E; [|cbn; lia]. assert (X : In b (filter (Bool.eqb b) l)) by (apply filter_In; split; [exact Hin|apply Bool.eqb_reflx]). rewrite E in X. destruct X. Qed.
(** At most one shuffle in n gives t, if t has both a one and a zero. *)
Lemma hits_few f t : length f = length t -> In true t -> In false t ->
  length f * length (hits f t) <= length (all_picks (length f)).
Proof.
  intros HL H1 H0. apply count_in in H1, H0. pose proof (hits_bound t f HL) as HB. pose proof (count_len t) as HC.
  rewrite all_picks_length. destruct (count true t) as [|m]; [lia|]. destruct (count false t) as [|z]; [lia|].
  pose proof (fact_split m z) as HF. replace (length f) with (S (S m + z)) by lia. change (fact (S (S m + z))) with (S (S m + z) * fact (S m + z)).
  apply Nat.mul_le_mono_l. lia.
Qed.
