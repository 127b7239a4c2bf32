(** Laws of GF(2^64); irreducibility of the moduli; inverses in the Galois rings. *)
From Coq Require Import Ring Setoid Morphisms.
From Verif Require Import Base Ring RingProofs Gf2 Gf2Proofs Gf2Field Gf2Inv Poly PolyProofs PolyRing PolyDiv PolyRem PolyPar GfRing Galois GaloisSpec GaloisSound GaloisInterp.
Local Open Scope N_scope.
(** The coefficient of x^n in a product. *)
Definition clcoef (a b : N) (n : nat) : bool :=
  fold_right xorb false (map (fun i => N.testbit a (N.of_nat i) && N.testbit b (N.of_nat (n - i)))%bool (seq 0 (S n))).
Lemma clcoef_S a b n : clcoef a b (S n) = xorb (N.testbit a 0 && N.testbit b (N.of_nat (S n))) (fold_right xorb false (map (fun i => N.testbit a (N.of_nat (S i)) && N.testbit b (N.of_nat (n - i)))%bool (seq 0 (S n)))).
Proof. unfold clcoef. rewrite <- cons_seq. cbn [map fold_right]. f_equal. rewrite <- seq_shift, map_map. reflexivity. Qed.
Lemma split_odd a : a = N.lxor (if N.odd a then 1 else 0) (N.double (N.div2 a)).
Proof. destruct a as [|[p|p|]]; reflexivity. Qed.
Lemma clmul_step a b : clmul a b = N.lxor (if N.odd a then b else 0) (N.double (clmul (N.div2 a) b)).
Proof. rewrite (split_odd a) at 1. rewrite clmul_dist_l, clmul_double_l. destruct (N.odd a); [rewrite clmul_1_l|rewrite clmul_0_l]; reflexivity. Qed.
Lemma clmul_bit b n : forall a, N.testbit (clmul a b) (N.of_nat n) = clcoef a b n.
Proof.
  induction n as [|n IH]; intros a; rewrite clmul_step, N.lxor_spec, N.double_spec.
  - change (clcoef a b 0) with (xorb (N.testbit a 0 && N.testbit b 0) false). change (N.of_nat 0) with 0. rewrite N.testbit_even_0, (N.bit0_odd a). destruct (N.odd a); [reflexivity|]. rewrite N.bits_0. reflexivity.
  - rewrite clcoef_S, Nnat.Nat2N.inj_succ, N.double_bits_succ, IH. f_equal; [rewrite N.bit0_odd; destruct (N.odd a); [reflexivity|apply N.bits_0]|].
    unfold clcoef. f_equal. apply map_ext. intros i. rewrite Nnat.Nat2N.inj_succ, N.div2_spec, N.shiftr_spec by apply N.le_0_l. rewrite N.add_1_r. reflexivity.
Qed.
Lemma gf_laws a b c : gf_wf a -> gf_wf b -> gf_wf c ->
  gf_mul a b = gf_mul b a /\ gf_mul a (gf_mul b c) = gf_mul (gf_mul a b) c /\ gf_mul a (gf_add b c) = gf_add (gf_mul a b) (gf_mul a c) /\ gf_mul 1 a = a /\ gf_wf (gf_mul a b) /\ gf_wf (gf_add a b).
Proof.
  intros Wa Wb Wc. pose proof gf_ring_ok as R. pose proof (rk_ring _ _ _ R) as RT. cbn [oadd omul o0 o1 gf_ops] in RT.
  assert (Wadd : forall x y, gf_wf x -> gf_wf y -> gf_wf (gf_add x y)) by (intros x y; apply (rk_wfadd _ _ _ R)).
  split; [apply gf_eq_eq; auto using gf_mul_wf; apply (Rmul_comm RT)|]. split; [apply gf_eq_eq; auto using gf_mul_wf; apply (Rmul_assoc RT)|].
  split. { apply gf_eq_eq; auto using gf_mul_wf. pose proof (rk_equiv _ _ _ R) as Q. transitivity (gf_mul (gf_add b c) a); [apply (Rmul_comm RT)|]. transitivity (gf_add (gf_mul b a) (gf_mul c a)); [apply (Rdistr_l RT)|]. apply (Radd_ext (rk_ext _ _ _ R)); apply (Rmul_comm RT). }
  split; [apply gf_eq_eq; auto using gf_mul_wf; apply (Rmul_1_l RT)|]. auto using gf_mul_wf.
Qed.
(** A product of GF(2) polynomials that gives a modulus has a trivial factor. *)
Lemma field_irreducible f a b : is_field f -> f <> 0 -> clmul a b = f -> a = 1 \/ b = 1.
Proof.
  intros HF Hf E. assert (Ha : a <> 0) by (intros ->; rewrite clmul_0_l in E; congruence). assert (Hb : b <> 0) by (intros ->; rewrite clmul_0_r in E; congruence).
  destruct (N.eq_dec (N.size b) 1) as [Sb|Sb]; [right; apply size_one, Sb|left]. pose proof (size_pos b Hb) as Pb. pose proof (size_clmul a b Ha Hb) as S. rewrite E in S.
  assert (La : N.size a < N.size f) by lia. assert (Na : ~ cong f a 0). { intros C. apply Ha. apply (cong_eq f a 0); [lia|cbn [N.size]; lia|exact C]. }
  destruct (HF a Na) as [c [k Hc]].
  pose proof (size_pos a Ha) as Pa. apply size_one. destruct (N.lt_ge_cases (N.size b) (N.size f)) as [Lb|Lb]; [exfalso|lia].
  apply Hb. apply (cong_eq f b 0); [lia|cbn [N.size]; lia|]. exists (N.lxor (clmul k b) c). rewrite N.lxor_0_r.
  rewrite clmul_dist_l. rewrite <- (clmul_assoc k b f), (clmul_comm b f), clmul_assoc, <- Hc. rewrite clmul_dist_l, clmul_1_l. rewrite <- E, (clmul_comm a c), <- (clmul_assoc c a b).
  rewrite (N.lxor_comm _ b), N.lxor_assoc, N.lxor_nilpotent, N.lxor_0_r. reflexivity.
Qed.
Lemma irreducible_ok d : (40 <= d <= 63)%nat -> exists v, irreducible d = Ok v /\ N.size v = N.of_nat d + 1 /\ forall a b, clmul a b = v -> a = 1 \/ b = 1.
Proof.
  intros Hd. assert (X : exists v, irreducible d = Ok v).
  { unfold irreducible. replace (Nat.ltb d 40) with false by (symmetry; apply Nat.ltb_ge; lia). destruct (nth_error irreducibles (d - 40)) as [v|] eqn:E; [eauto|]. apply nth_error_None in E. change (length irreducibles) with 24%nat in E. lia. }
  destruct X as [v E]. destruct (irreducible_field d v E) as (HF & S & _). exists v. split; [exact E|]. split; [exact S|]. intros a b. apply field_irreducible; [exact HF|]. intros ->. cbn in S. lia.
Qed.
Lemma gf_reduction a b : gf_wf (gf_mul a b) /\ (exists k, clmul a b = N.lxor (clmul k (2 ^ 64 + 2 ^ 4 + 2 ^ 3 + 2 + 1)) (gf_mul a b)) /\
  forall c k, gf_wf c -> clmul a b = N.lxor (clmul k (2 ^ 64 + 2 ^ 4 + 2 ^ 3 + 2 + 1)) c -> c = gf_mul a b.
Proof.
  change (2 ^ 64 + 2 ^ 4 + 2 ^ 3 + 2 + 1) with GF_MODULUS. split; [apply gf_mul_wf|]. split.
  - exists (cldiv (clmul a b) GF_MODULUS). apply (cldiv_spec (clmul a b) GF_MODULUS gf_mod_nz).
  - intros c k Wc E. apply gf_eq_eq; [exact Wc|apply gf_mul_wf|]. apply (cong_trans GF_MODULUS c (clmul a b)).
    + apply cong_sym. exists k. rewrite E, N.lxor_assoc, N.lxor_nilpotent. apply N.lxor_0_r.
    + apply (cong_mod GF_MODULUS), gf_mod_nz.
Qed.
Lemma gf_is_field a b c : gf_wf a -> gf_wf b -> gf_wf c ->
  gf_mul a b = gf_mul b a /\ gf_mul a (gf_mul b c) = gf_mul (gf_mul a b) c /\ gf_mul a (gf_add b c) = gf_add (gf_mul a b) (gf_mul a c) /\
  gf_mul 1 a = a /\ gf_add a a = 0 /\ (gf_mul a b = 0 -> a = 0 \/ b = 0) /\
  (a <> 0 -> exists v, gf_inverse a = Ok v /\ gf_wf v /\ gf_mul a v = 1) /\ gf_inverse 0 = Err EPanic.
Proof.
  intros Wa Wb Wc. destruct (gf_laws a b c Wa Wb Wc) as (L1 & L2 & L3 & L4 & _ & _). do 4 (split; [assumption|]). split; [apply N.lxor_nilpotent|].
  split; [|split; [apply gf_inverse_ok, Wa|reflexivity]]. intros E. destruct (N.eq_dec a 0) as [Ha|Ha]; [left; exact Ha|right].
  destruct (gf_inverse_ok a Wa Ha) as (v & _ & Wv & Ev). destruct (gf_laws v a b Wv Wa Wb) as (V1 & V2 & _). destruct (gf_laws b b b Wb Wb Wb) as (_ & _ & _ & B1 & _).
  rewrite <- B1, <- Ev, (proj1 (gf_laws a v v Wa Wv Wv)), <- V2, E. unfold gf_mul. rewrite clmul_0_r. apply clmod_small. rewrite gf_mod_size. reflexivity.
Qed.
Lemma moduli d : ((40 <= d <= 63)%nat -> exists v, irreducible d = Ok v /\ 2 ^ N.of_nat d <= v < 2 ^ (N.of_nat d + 1) /\ forall a b, clmul a b = v -> a = 1 \/ b = 1) /\
  (~ (40 <= d <= 63)%nat -> irreducible d = Err EPanic).
Proof.
  split.
  - intros Hd. destruct (irreducible_ok d Hd) as (v & E & S & I). exists v. split; [exact E|]. split; [|exact I]. split; [|apply size_le; lia].
    destruct (N.lt_ge_cases v (2 ^ N.of_nat d)) as [C|C]; [|exact C]. apply size_le in C. lia.
  - intros Hd. unfold irreducible. destruct (Nat.ltb_spec d 40); [reflexivity|]. replace (nth_error irreducibles (d - 40)) with (@None N); [reflexivity|].
    symmetry. apply nth_error_None. change (length irreducibles) with 24%nat. lia.
Qed.
Close Scope N_scope.
Section Inv.
  Variable K : Z.
  Hypothesis HS : In K small_widths.
  Notation HW := (small_in K HS).
  Notation HK := (widths_pos K HW).
  Variables (d : nat) (f : list Z).
  Hypothesis Hf : irreducible_poly d = Ok f.
  Lemma galois_inverse a : Forall (inr K) a -> (length a <= d)%nat -> (exists i, Z.odd (nth i a 0) = true) ->
    exists v, mod_inverse K a f = Ok v /\ Forall (inr K) v /\ p_rem K (p_mul (zk_ops K) a v) f = Ok [1].
  Proof using All.
    intros Wa La (i & Hi). destruct (mod_inverse_ok K HS d f Hf a Wa La) as (v & Ev & E & Wv).
    - intros P. pose proof (par_bit a i) as B. rewrite P in B. rewrite N.bits_0 in B. congruence.
    - exists v. split; [exact Ev|]. split; [exact Wv|]. destruct (f_split K HS d f Hf) as (Ef & Ll & _ & _ & _ & R).
      assert (W1 : Forall (inr K) [1]) by (constructor; [pose proof (small_lt K HS); unfold inr; split; [lia|]; change 1 with (2 ^ 0) at 1; apply Z.pow_lt_mono_r; lia|constructor]).
      assert (E1 : p_rem K (p_mul (zk_ops K) a v) f = p_rem K [1] f).
      { apply (rem_iff K HS d f Hf); [apply (rk_wfmul _ _ _ (galois_ok K HS d f)); assumption|exact W1|exact E]. }
      rewrite E1. rewrite Ef. unfold p_rem, long_division. rewrite (degree_last K (low d f) 1) by discriminate. rewrite nth_error_app2, Nat.sub_diag by lia. cbn [nth_error].
      assert (HO : exists y, inverse K 1 = Some (Ok y)) by (destruct (inverse_odd K 1 HW) as (y & Ey & _); [inversion W1; assumption|reflexivity|eauto]). destruct HO as [y Ey]. rewrite Ey.
      rewrite app_length, Ll. cbn [length]. replace (1 + 1 - (d + 1))%nat with 0%nat by lia. reflexivity.
  Qed.
End Inv.
