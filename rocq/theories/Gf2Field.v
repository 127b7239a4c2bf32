(** GF(2)[x] modulo a polynomial; certificates that the quotient is a field. *)
From Coq Require Import Ring Setoid Morphisms.
From Verif Require Import Base Gf2 Gf2Proofs.
Local Open Scope N_scope.
Local Open Scope gf2_scope.

Definition cong (f a b : N) : Prop := exists k, a +! b = k ** f.
(** Every polynomial that is not a multiple of f has an inverse modulo f. *)
Definition invertible (f a : N) : Prop := exists b, cong f (a ** b) 1.
Definition is_field (f : N) : Prop := forall a, ~ cong f a 0 -> invertible f a.

Section Q.
  Variable f : N.
  Notation "a ~ b" := (cong f a b) (at level 70).
  Lemma cong_refl a : a ~ a. Proof. exists 0. rewrite clmul_0_l. apply N.lxor_nilpotent. Qed.
  Lemma cong_sym a b : a ~ b -> b ~ a. Proof. intros [k E]. exists k. rewrite <- E. apply N.lxor_comm. Qed.
  Lemma cong_trans a b c : a ~ b -> b ~ c -> a ~ c.
  Proof. intros [k E] [l E']. exists (k +! l). replace (a +! c) with ((a +! b) +! (b +! c)) by (rewrite N.lxor_assoc, <- (N.lxor_assoc b b), N.lxor_nilpotent, N.lxor_0_l; reflexivity). rewrite E, E'. ring. Qed.
  Global Instance cong_equiv : Equivalence (cong f).
  Proof. split; red; [apply cong_refl|apply cong_sym|apply cong_trans]. Qed.
  Global Instance cong_xor : Proper (cong f ==> cong f ==> cong f) N.lxor.
  Proof. intros a a' [k E] b b' [l E']. exists (k +! l). rewrite xor4, E, E'. ring. Qed.
  Global Instance cong_mul : Proper (cong f ==> cong f ==> cong f) clmul.
  Proof.
    intros a a' [k E] b b' [l E']. exists (k ** b +! a' ** l).
    transitivity ((a +! a') ** b +! a' ** (b +! b')); [|rewrite E, E'; ring].
    rewrite clmul_dist_l, clmul_dist_r. rewrite N.lxor_assoc, <- (N.lxor_assoc (a' ** b)), N.lxor_nilpotent, N.lxor_0_l. reflexivity.
  Qed.
  Lemma cong_ring : ring_theory 0 1 N.lxor clmul N.lxor (fun a => a) (cong f).
  Proof.
    constructor; intros; try (match goal with |- _ ?a ?b => replace a with b by ring; apply cong_refl end); try apply cong_refl.
    rewrite N.lxor_nilpotent. apply cong_refl.
  Qed.
  Lemma cong_ext : ring_eq_ext N.lxor clmul (fun a => a) (cong f).
  Proof. constructor; [exact cong_xor|exact cong_mul|]. intros a b E. exact E. Qed.
  Lemma cong_mod a : f <> 0 -> a ~ clmod a f.
  Proof.
    intros Hf. destruct (cldiv_spec a f Hf) as (E & _). exists (cldiv a f). rewrite E at 1. rewrite N.lxor_assoc, N.lxor_nilpotent, N.lxor_0_r. reflexivity.
  Qed.
  Lemma cong_eq a b : N.size a < N.size f -> N.size b < N.size f -> a ~ b -> a = b.
  Proof.
    intros Ha Hb [k E]. destruct (N.eq_dec k 0) as [->|Hk].
    - rewrite clmul_0_l in E. apply N.lxor_eq, E.
    - exfalso. assert (Hf : f <> 0) by (intros ->; cbn in Ha; lia). pose proof (size_clmul k f Hk Hf) as S. rewrite <- E in S.
      assert (N.size (a +! b) <= N.size f - 1) by (apply size_le, lxor_lt; apply size_le; lia).
      pose proof (proj1 (size_0 k)). lia.
  Qed.
  Lemma clmod_small a : N.size a < N.size f -> clmod a f = a.
  Proof.
    intros Ha. assert (Hf : f <> 0) by (intros ->; cbn in Ha; lia). symmetry. apply cong_eq; [exact Ha|apply cldiv_spec, Hf|apply cong_mod, Hf].
  Qed.
  Lemma clmod_xor a b : f <> 0 -> clmod (a +! b) f = clmod a f +! clmod b f.
  Proof.
    intros Hf. assert (S : forall x, N.size (clmod x f) < N.size f) by (intros; apply cldiv_spec, Hf). apply cong_eq; [apply S| |].
    - assert (N.size (clmod a f +! clmod b f) <= N.size f - 1); [apply size_le, lxor_lt; apply size_le; pose proof (S a); pose proof (S b); lia|]. pose proof (S a). lia.
    - rewrite <- cong_mod by exact Hf. apply cong_xor; apply cong_mod, Hf.
  Qed.
End Q.

(** ** Additive maps *)
Fixpoint lapply (l : list N) (v : N) : N :=
  match l with [] => 0 | c :: l => N.lxor (if N.odd v then c else 0) (lapply l (N.div2 v)) end.
Lemma odd_lxor a b : N.odd (a +! b) = xorb (N.odd a) (N.odd b).
Proof. rewrite <- !N.bit0_odd. apply N.lxor_spec. Qed.
Lemma div2_lxor a b : N.div2 (a +! b) = N.div2 a +! N.div2 b.
Proof. rewrite !N.div2_spec. apply N.shiftr_lxor. Qed.
Lemma lapply_xor l a b : lapply l (a +! b) = lapply l a +! lapply l b.
Proof.
  revert a b. induction l as [|c l IH]; intros a b; [reflexivity|]. cbn [lapply]. rewrite odd_lxor, div2_lxor, IH, xor4.
  f_equal. destruct (N.odd a), (N.odd b); cbn [xorb]; rewrite ?N.lxor_0_l, ?N.lxor_0_r, ?N.lxor_nilpotent; reflexivity.
Qed.
Lemma lapply_0 l : lapply l 0 = 0.
Proof. induction l as [|c l IH]; [reflexivity|]. cbn. exact IH. Qed.
Lemma additive_zero (h : N -> N) n : (forall a b, h (a +! b) = h a +! h b) -> (forall k, (k < n)%nat -> h (2 ^ N.of_nat k) = 0) ->
  forall v, v < 2 ^ N.of_nat n -> h v = 0.
Proof.
  intros Ha. assert (H0 : h 0 = 0) by (pose proof (Ha 0 0) as E; change (0 +! 0) with 0 in E; rewrite N.lxor_nilpotent in E; exact E).
  induction n as [|n IH]; intros Hk v Hv; [cbn in Hv; replace v with 0 by lia; exact H0|].
  destruct (N.testbit v (N.of_nat n)) eqn:E.
  - replace v with ((v +! 2 ^ N.of_nat n) +! 2 ^ N.of_nat n) by (rewrite N.lxor_assoc, N.lxor_nilpotent, N.lxor_0_r; reflexivity).
    rewrite Ha, (Hk n) by lia. rewrite N.lxor_0_r. apply IH; [intros; apply Hk; lia|].
    apply lt_pow_bits. intros k Hge. rewrite N.lxor_spec, N.pow2_bits_eqb. destruct (N.eqb_spec (N.of_nat n) k) as [<-|Hne]; [rewrite E; reflexivity|].
    rewrite xorb_false_r. apply (proj1 (lt_pow_bits v _) Hv). lia.
  - apply IH; [intros; apply Hk; lia|]. apply lt_pow_bits. intros k Hge. destruct (N.eq_dec k (N.of_nat n)) as [->|]; [exact E|].
    apply (proj1 (lt_pow_bits v _) Hv). lia.
Qed.

(** ** The certificate *)
Definition sq (a : N) : N := a ** a.
Fixpoint fr (n : nat) (a : N) : N := match n with O => a | S n => sq (fr n a) end.
Fixpoint sq_iter (f : N) (n : nat) (a : N) : N := match n with O => a | S n => sq_iter f n (clmod (clmul a a) f) end.
Definition certified (f : N) (d : nat) (cert : list N) : bool :=
  (N.size f =? N.of_nat d + 1) && (sq_iter f d 2 =? 2) &&
  forallb (fun k => lapply cert (N.lxor (clmod (clmul (2 ^ N.of_nat k) (2 ^ N.of_nat k)) f) (2 ^ N.of_nat k)) =?
                    (if Nat.eqb k 0 then 0 else 2 ^ N.of_nat k)) (seq 0 d).
Section C.
  Variables (f : N) (d : nat) (cert : list N).
  Hypothesis HC : certified f d cert = true.
  Notation "a ~ b" := (cong f a b) (at level 70).
  Add Ring gfq : (cong_ring f) (setoid (cong_equiv f) (cong_ext f)).

  Let Hsize : N.size f = N.of_nat d + 1.
  Proof using HC. unfold certified in HC. apply andb_prop in HC. destruct HC as [H1 _]. apply andb_prop in H1. apply N.eqb_eq, H1. Qed.
  Let Hf : f <> 0.
  Proof using HC Hsize. intros E. rewrite E in Hsize. cbn in Hsize. lia. Qed.

  Lemma sq_add a b : sq (a +! b) ~ sq a +! sq b.
  Proof using.
    unfold sq. transitivity ((a ** a +! b ** b) +! (a ** b +! a ** b)); [ring|]. rewrite N.lxor_nilpotent, N.lxor_0_r. reflexivity.
  Qed.
  Global Instance sq_proper : Proper (cong f ==> cong f) sq.
  Proof using. intros a b E. unfold sq. rewrite E. reflexivity. Qed.
  Lemma fr_proper n a b : a ~ b -> fr n a ~ fr n b.
  Proof using. intros E. induction n as [|n IH]; [exact E|]. cbn. rewrite IH. reflexivity. Qed.
  Lemma fr_add n a b : fr n (a +! b) ~ fr n a +! fr n b.
  Proof using. induction n as [|n IH]; [reflexivity|]. cbn. rewrite IH. apply sq_add. Qed.
  Lemma fr_mul n a b : fr n (a ** b) ~ fr n a ** fr n b.
  Proof using. induction n as [|n IH]; [reflexivity|]. cbn. rewrite IH. unfold sq. ring. Qed.
  Lemma fr_1 n : fr n 1 = 1. Proof using. induction n as [|n IH]; [reflexivity|]. cbn. rewrite IH. reflexivity. Qed.
  Lemma fr_0 n : fr n 0 = 0. Proof using. induction n as [|n IH]; [reflexivity|]. cbn. rewrite IH. reflexivity. Qed.
  Lemma fr_shift n a : fr n (sq a) = sq (fr n a).
  Proof using. induction n as [|n IH]; [reflexivity|]. cbn. rewrite IH. reflexivity. Qed.
  Lemma sq_iter_cong n a : sq_iter f n a ~ fr n a.
  Proof using Hf. revert a. induction n as [|n IH]; intros a; [reflexivity|]. cbn [sq_iter]. rewrite IH. cbn. rewrite <- fr_shift. apply fr_proper. symmetry. apply cong_mod, Hf. Qed.
  Lemma fr_all a : fr d a ~ a.
  Proof using HC Hf.
    assert (X : fr d 2 ~ 2).
    { rewrite <- sq_iter_cong. unfold certified in HC. apply andb_prop in HC. destruct HC as [H1 _]. apply andb_prop in H1. destruct H1 as [_ H1]. apply N.eqb_eq in H1. rewrite H1. reflexivity. }
    assert (D : forall b, N.double b = 2 ** b) by (intros b; change 2 with (N.double 1); rewrite clmul_double_l, clmul_1_l; reflexivity).
    induction a as [|a IH|a IH] using N.binary_ind; [rewrite fr_0; reflexivity| |].
    - rewrite D, fr_mul, X, IH. reflexivity.
    - rewrite succ_double_lxor, D, fr_add, fr_mul, X, IH, fr_1. reflexivity.
  Qed.
  Lemma fixed_points v : (0 < d)%nat -> N.size v < N.size f -> sq v ~ v -> v = 0 \/ v = 1.
  Proof using HC Hsize Hf.
    intros Hd Sv E. assert (E1 : clmod (sq v) f = v) by (apply (cong_eq f); [apply cldiv_spec, Hf|exact Sv|rewrite <- cong_mod by exact Hf; exact E]).
    set (h := fun v => lapply cert (clmod (sq v) f +! v) +! lapply (map (fun k => if Nat.eqb k 0 then 0 else 2 ^ N.of_nat k) (seq 0 d)) v).
    assert (Hadd : forall a b, h (a +! b) = h a +! h b).
    { intros a b. unfold h. assert (S2 : clmod (sq (a +! b)) f = clmod (sq a) f +! clmod (sq b) f).
      { rewrite <- clmod_xor by exact Hf. apply (cong_eq f); [apply cldiv_spec, Hf|apply cldiv_spec, Hf|]. rewrite <- !cong_mod by exact Hf. apply sq_add. }
      rewrite S2, (xor4 (clmod (sq a) f)), (lapply_xor cert (_ +! a)), (lapply_xor (map _ _) a). apply xor4. }
    (* the second summand of h clears bit 0 *)
    assert (HL : forall n s w, w < 2 ^ N.of_nat n -> lapply (map (fun k => if Nat.eqb k 0 then 0 else 2 ^ N.of_nat k) (seq (S s) n)) w = N.shiftl w (N.of_nat (S s))).
    { induction n as [|n IH]; intros s w Hw; [cbn in Hw; replace w with 0 by lia; rewrite N.shiftl_0_l; reflexivity|].
      change (map _ (seq (S s) (S n))) with (2 ^ N.of_nat (S s) :: map (fun k => if Nat.eqb k 0 then 0 else 2 ^ N.of_nat k) (seq (S (S s)) n)). cbn [lapply].
      rewrite IH. 2:{ rewrite N.div2_div. apply N.div_lt_upper_bound; [lia|]. rewrite <- N.pow_succ_r'. replace (N.succ (N.of_nat n)) with (N.of_nat (S n)) by lia. exact Hw. }
      rewrite <- (N.shiftl_1_l (N.of_nat (S s))). replace (if N.odd w then N.shiftl 1 (N.of_nat (S s)) else 0) with (N.shiftl (N.b2n (N.odd w)) (N.of_nat (S s))) by (destruct (N.odd w); [reflexivity|apply N.shiftl_0_l]).
      replace (N.shiftl (N.div2 w) (N.of_nat (S (S s)))) with (N.shiftl (N.double (N.div2 w)) (N.of_nat (S s))).
      2:{ rewrite N.double_spec. replace (2 * N.div2 w) with (N.shiftl (N.div2 w) 1) by (rewrite N.shiftl_mul_pow2; lia). rewrite N.shiftl_shiftl. f_equal. lia. }
      rewrite <- N.shiftl_lxor. f_equal. destruct w as [|[p|p|]]; reflexivity. }
    assert (Z0 : h v = 0).
    { apply (additive_zero h d Hadd).
      - intros k Hk. unfold h. unfold certified in HC. apply andb_prop in HC. destruct HC as [_ H2]. rewrite forallb_forall in H2.
        specialize (H2 k). rewrite N.eqb_eq in H2. fold (sq (2 ^ N.of_nat k)) in H2. rewrite H2 by (apply in_seq; lia).
        assert (L2 : lapply (map (fun k => if Nat.eqb k 0 then 0 else 2 ^ N.of_nat k) (seq 0 d)) (2 ^ N.of_nat k) = if Nat.eqb k 0 then 0 else 2 ^ N.of_nat k); [|rewrite L2; apply N.lxor_nilpotent].
        destruct d as [|d']; [lia|]. cbn [seq map Nat.eqb lapply]. replace (if N.odd (2 ^ N.of_nat k) then 0 else 0) with 0 by (destruct (N.odd _); reflexivity). rewrite N.lxor_0_l.
        rewrite HL. 2:{ destruct k as [|k]; [cbn; apply N.neq_0_lt_0, N.pow_nonzero; discriminate|]. replace (N.of_nat (S k)) with (N.succ (N.of_nat k)) by lia. rewrite N.pow_succ_r', N.div2_double. apply N.pow_lt_mono_r; lia. }
        destruct k as [|k]; [reflexivity|]. cbn [Nat.eqb]. replace (N.of_nat (S k)) with (N.succ (N.of_nat k)) at 1 by lia. rewrite N.pow_succ_r', N.div2_double, N.shiftl_mul_pow2. 
        replace (N.of_nat (S k)) with (N.of_nat k + N.of_nat 1) by lia. rewrite N.pow_add_r. reflexivity.
      - apply size_le. lia. }
    unfold h in Z0. rewrite E1, N.lxor_nilpotent, lapply_0, N.lxor_0_l in Z0. destruct d as [|d']; [lia|]. cbn [seq map Nat.eqb lapply] in Z0.
    replace (if N.odd v then 0 else 0) with 0 in Z0 by (destruct (N.odd v); reflexivity). rewrite N.lxor_0_l, HL in Z0.
    2:{ rewrite N.div2_div. apply N.div_lt_upper_bound; [lia|]. rewrite <- N.pow_succ_r'. replace (N.succ (N.of_nat d')) with (N.of_nat (S d')) by lia. apply size_le. lia. }
    apply N.shiftl_eq_0_iff in Z0. destruct v as [|[p|p|]]; auto; discriminate.
  Qed.

  (** a^(2^k - 1) *)
  Fixpoint ones (a : N) (k : nat) : N := match k with O => 1 | S k => a ** sq (ones a k) end.
  Lemma ones_spec a k : a ** ones a k ~ fr k a.
  Proof using. induction k as [|k IH]; [reflexivity|]. cbn [ones fr]. rewrite <- IH. unfold sq. ring. Qed.
  Lemma ones_inverse a : ~ cong f a 0 -> (0 < d)%nat -> cong f (a ** sq (ones a (d - 1))) 1.
  Proof using HC Hsize Hf.
    intros Ha Hd. change (a ** sq (ones a (d - 1))) with (ones a (S (d - 1))). replace (S (d - 1)) with d by lia.
    set (u := ones a d). assert (E : a ** u ~ a) by (unfold u; rewrite ones_spec; apply fr_all).
    assert (I : sq u ~ u).
    { assert (Eu : u = a ** sq (ones a (d - 1))) by (unfold u; replace d with (S (d - 1)) at 1 by lia; reflexivity).
      unfold sq at 1. rewrite Eu at 2. transitivity ((a ** u) ** sq (ones a (d - 1))); [ring|]. rewrite E, <- Eu. reflexivity. }
    destruct (fixed_points (clmod u f)) as [H0|H1].
    - exact Hd.
    - apply cldiv_spec, Hf.
    - rewrite <- cong_mod by exact Hf. exact I.
    - exfalso. apply Ha. rewrite <- E. rewrite (cong_mod f u Hf), H0. rewrite clmul_0_r. reflexivity.
    - rewrite (cong_mod f u Hf), H1. reflexivity.
  Qed.
  Lemma certified_field : (0 < d)%nat -> is_field f.
  Proof using HC Hsize Hf. intros Hd a Ha. exists (sq (ones a (d - 1))). apply ones_inverse; assumption. Qed.
End C.
