(** Polynomials over Z/2^K modulo 2: the ring homomorphism to GF(2)[x]. *)
From Coq Require Import Ring Setoid Morphisms Nnat.
From Verif Require Import Base Ring RingProofs Gf2 Gf2Proofs Poly PolyProofs PolyRing PolyDiv PolyRem.
Local Open Scope list_scope.

Definition par (p : list Z) : N := fold_right (fun c u => N.lxor (N.b2n (Z.odd c)) (N.double u)) 0%N p.
Lemma par_cons c p : par (c :: p) = N.lxor (N.b2n (Z.odd c)) (N.double (par p)). Proof. reflexivity. Qed.
Lemma par_bit p i : N.testbit (par p) (N.of_nat i) = Z.odd (nth i p 0).
Proof.
  revert i. induction p as [|c p IH]; intros i; [destruct i; reflexivity|]. rewrite par_cons, N.lxor_spec. destruct i as [|i].
  - cbn [nth]. destruct (Z.odd c); cbn; destruct (par p); reflexivity.
  - cbn [nth]. replace (N.of_nat (S i)) with (N.succ (N.of_nat i)) by lia. rewrite <- IH. rewrite N.double_spec, N.testbit_even_succ by lia. destruct (Z.odd c); cbn [N.b2n]; [|rewrite N.bits_0; apply xorb_false_l].
    replace (N.testbit 1 (N.succ (N.of_nat i))) with false; [destruct (N.testbit (par p) (N.of_nat i)); reflexivity|]. destruct i; reflexivity.
Qed.
Lemma par_ext p q : (forall i, Z.odd (nth i p 0) = Z.odd (nth i q 0)) -> par p = par q.
Proof. intros H. apply N.bits_inj. intros n. rewrite <- (N2Nat.id n), !par_bit. apply H. Qed.
Lemma par_size p : (N.size (par p) <= N.of_nat (length p))%N.
Proof.
  apply size_le, lt_pow_bits. intros k Hk. rewrite <- (N2Nat.id k), par_bit, nth_overflow by lia. reflexivity.
Qed.
Section Par.
  Variable K : Z.
  Hypothesis HK : 0 < K.
  Notation Zk := (zk_ring_ok K HK).
  Notation peq := (peq (zk_ops K) (zeq K)).
  Infix "=p=" := peq (at level 70).
  Lemma odd_mod x : Z.odd (x mod 2 ^ K) = Z.odd x.
  Proof.
    rewrite (Z.div_mod x (2 ^ K)) at 2 by (apply Z.pow_nonzero; lia). rewrite Z.odd_add, Z.odd_mul.
    replace (Z.odd (2 ^ K)) with false by (rewrite Z.odd_pow by lia; reflexivity). rewrite andb_false_l. symmetry. apply xorb_false_l.
  Qed.
  Lemma zeq_odd a b : zeq K a b -> Z.odd a = Z.odd b.
  Proof. intros H. rewrite <- (odd_mod a), H. apply odd_mod. Qed.
  Lemma par_peq p q : p =p= q -> par p = par q.
  Proof. intros H. apply par_ext. intros i. apply zeq_odd, H. Qed.
  Lemma par_add p q : par (p_add (zk_ops K) p q) = N.lxor (par p) (par q).
  Proof.
    apply N.bits_inj. intros n. rewrite N.lxor_spec, <- (N2Nat.id n), !par_bit. pose proof (zeq_odd _ _ (co_add (zk_ops K) (zeq K) (inr K) Zk p q (N.to_nat n))) as X. cbn [oadd zk_ops o0] in X. rewrite X. unfold radd. rewrite odd_mod. apply Z.odd_add.
  Qed.
  Lemma par_sub p q : par (p_sub (zk_ops K) p q) = N.lxor (par p) (par q).
  Proof.
    apply N.bits_inj. intros n. rewrite N.lxor_spec, <- (N2Nat.id n), !par_bit. pose proof (zeq_odd _ _ (co_sub (zk_ops K) (zeq K) (inr K) Zk p q (N.to_nat n))) as X. cbn [osub zk_ops o0] in X. rewrite X. unfold rsub. rewrite odd_mod. apply Z.odd_sub.
  Qed.
  Lemma par_row a p : par (map (fun b => omul (zk_ops K) a b) p) = if Z.odd a then par p else 0%N.
  Proof.
    induction p as [|b p IH]; [destruct (Z.odd a); reflexivity|]. cbn [map]. rewrite !par_cons, IH. cbn [omul zk_ops]. unfold rmul. rewrite odd_mod, Z.odd_mul.
    destruct (Z.odd a); reflexivity.
  Qed.
  Lemma par_conv p q : par (p_conv (zk_ops K) p q) = clmul (par p) (par q).
  Proof.
    induction p as [|a p IH]; [symmetry; apply clmul_0_l|]. cbn [p_conv]. rewrite par_add, par_row, !par_cons, IH. cbn [o0 zk_ops]. change (Z.odd 0) with false.
    rewrite clmul_dist_l, clmul_double_l. destruct (Z.odd a); cbn [N.b2n]; [rewrite clmul_1_l|rewrite clmul_0_l]; rewrite ?N.lxor_0_l; reflexivity.
  Qed.
  Lemma par_mul p q : par (p_mul (zk_ops K) p q) = clmul (par p) (par q).
  Proof. rewrite <- par_conv. apply par_peq, (mul_conv (zk_ops K) (zeq K) (inr K) Zk). Qed.
  (** Even polynomials. *)
  Lemma par_even p : par p = 0%N -> exists t, p =p= p_mul (zk_ops K) t [2].
  Proof.
    intros E. exists (map (fun c => c / 2) p). intros i. cbn [o0 zk_ops].
    assert (Ei : Z.odd (nth i p 0) = false) by (rewrite <- par_bit, E; apply N.bits_0).
    etransitivity; [|exact (scale_peq K HK (map (fun c => c / 2) p) 2 i)]. symmetry.
    etransitivity; [apply (co_scale (zk_ops K) (zeq K) (inr K) Zk)|]. cbn [omul zk_ops o0].
    assert (M : nth i (map (fun c => c / 2) p) 0 = nth i p 0 / 2) by exact (map_nth (fun c => c / 2) p 0 i). rewrite M.
    unfold zeq, rmul. rewrite Zmod_mod. f_equal. rewrite <- Z.negb_even in Ei. apply negb_false_iff, Z.even_spec in Ei. destruct Ei as [k ->].
    rewrite (Z.mul_comm 2 k), Z.div_mul by lia. lia.
  Qed.
  (** ** Conversions *)
  Lemma to_gf2p64_ok p : K < 64 -> (length p <= 64)%nat -> to_gf2p64 K p = Ok (par p).
  Proof.
    intros HK6 L. unfold to_gf2p64. replace (K <? 64) with true by lia. cbn [negb]. f_equal.
    induction p as [|c p IH]; [reflexivity|]. cbn [rev]. rewrite fold_left_app. cbn [fold_left]. rewrite IH by (cbn in L; lia). rewrite par_cons.
    assert (B : (par p < 2 ^ 63)%N) by (apply size_le; pose proof (par_size p); cbn [length] in L; lia).
    rewrite N.shiftl_mul_pow2, N.mod_small by lia. rewrite N.mul_comm. change (2 ^ 1 * par p)%N with (2 * par p)%N. rewrite <- N.double_spec.
    destruct (Z.odd c); cbn [N.b2n]; [|rewrite N.lor_0_r; reflexivity].
    destruct (par p); reflexivity.
  Qed.
  Lemma bits_wf l v : Forall (inr K) (map (fun i => if N.testbit v (N.of_nat i) then 1 else 0) l).
  Proof.
    apply Forall_forall. intros x Hx. apply in_map_iff in Hx. destruct Hx as (i & <- & _). destruct (N.testbit v (N.of_nat i)); [apply (rk_wf1 _ _ _ Zk)|apply (rk_wf0 _ _ _ Zk)].
  Qed.
End Par.
Lemma bits_nth n v i : (v < 2 ^ N.of_nat n)%N -> nth i (map (fun i => if N.testbit v (N.of_nat i) then 1 else 0) (seq 0 n)) 0 = if N.testbit v (N.of_nat i) then 1 else 0.
Proof.
  intros Hv. destruct (Nat.ltb_spec i n) as [Hi|Hi].
  - rewrite (nth_indep _ 0 (if N.testbit v (N.of_nat n) then 1 else 0)) by (rewrite map_length, seq_length; exact Hi).
    rewrite (map_nth (fun i => if N.testbit v (N.of_nat i) then 1 else 0)), seq_nth by exact Hi. reflexivity.
  - rewrite nth_overflow by (rewrite map_length, seq_length; exact Hi). rewrite (proj1 (lt_pow_bits v _) Hv) by lia. reflexivity.
Qed.
Lemma bits_par n v : (v < 2 ^ N.of_nat n)%N -> par (map (fun i => if N.testbit v (N.of_nat i) then 1 else 0) (seq 0 n)) = v.
Proof.
  intros Hv. apply N.bits_inj. intros k. rewrite <- (N2Nat.id k), par_bit, bits_nth by exact Hv. destruct (N.testbit v (N.of_nat (N.to_nat k))); reflexivity.
Qed.
Lemma poly_from_u64_ok K v : 0 < K < 64 -> (v < 2 ^ 64)%N -> exists p, poly_from_u64 K v = Ok p /\ par p = v /\ Forall (inr K) p.
Proof.
  intros [HK HK6] Hv. unfold poly_from_u64. replace (K <? 64) with true by lia. cbn [negb]. eexists. split; [reflexivity|]. split.
  - rewrite (par_peq K HK _ _ (shrink_peq K _)). apply bits_par. exact Hv.
  - apply (shrink_wf K HK), bits_wf, HK.
Qed.
