(** Evaluation points of mul_proof.rs and dot_proof.rs, and their Lagrange polynomials. *)
From Coq Require Import Ring Setoid Morphisms Nnat.
From Verif Require Import Base Ring RingProofs Gf2 Gf2Proofs Gf2Field Gf2Inv Poly PolyProofs PolyRing PolyDiv PolyRem PolyPar Galois GaloisSpec.
Local Open Scope list_scope.


Lemma pos_bits_par p : par (pos_bits p) = Npos p.
Proof. induction p as [p IH|p IH|]; cbn [pos_bits]; rewrite ?par_cons, ?IH; reflexivity. Qed.
Lemma pos_bits_len p : length (pos_bits p) = Pos.to_nat (Pos.size p).
Proof. induction p as [p IH|p IH|]; cbn [pos_bits length Pos.size]; rewrite ?IH, ?Pos2Nat.inj_succ; reflexivity. Qed.
Lemma point_par x : par (point_bits x) = N.of_nat x.
Proof. unfold point_bits. destruct (N.of_nat x) as [|p]; [reflexivity|]. apply pos_bits_par. Qed.
Lemma point_len x : N.of_nat (length (point_bits x)) = N.size (N.of_nat x).
Proof. unfold point_bits. destruct (N.of_nat x) as [|p]; [reflexivity|]. rewrite pos_bits_len. cbn. rewrite positive_nat_N. reflexivity. Qed.
Lemma point_wf K x : 0 < K -> Forall (inr K) (point_bits x).
Proof.
  intros HK. assert (2 <= 2 ^ K) by (change 2 with (2 ^ 1) at 1; apply Z.pow_le_mono_r; lia). unfold point_bits. destruct (N.of_nat x) as [|p]; [constructor|].
  induction p as [p IH|p IH|]; cbn [pos_bits]; constructor; try assumption; try constructor; unfold inr; lia.
Qed.
Lemma size_mono a b : (a <= b)%N -> (N.size a <= N.size b)%N.
Proof. intros H. apply size_le. assert (b < 2 ^ N.size b)%N by (apply size_le; lia). lia. Qed.
Lemma mul_points_nth m i : (i < m + 1)%nat -> nth i (mul_points (m + 1)) [] = point_bits i.
Proof. intros Hi. unfold mul_points. rewrite (nth_indep _ [] (point_bits 0)) by (rewrite map_length, seq_length; lia). rewrite map_nth, seq_nth by lia. reflexivity. Qed.
Lemma mul_points_len m : length (mul_points (m + 1)) = (m + 1)%nat.
Proof. unfold mul_points. rewrite map_length, seq_length. reflexivity. Qed.

Section Zero.
  Variable K : Z.
  Hypothesis HS : In K small_widths.
  Notation HW := (small_in K HS).
  Notation HK := (widths_pos K HW).
  Variables (d : nat) (f : list Z).
  Hypothesis Hf : irreducible_poly d = Ok f.
  Notation req := (req K d f).
  Lemma galois_dec p : Forall (inr K) p -> req p [] \/ ~ req p [].
  Proof using HS Hf.
    intros W. destruct (f_split K HS d f Hf) as (_ & Ll & _ & _ & _ & R). destruct (geq_dec K HW (low d f) ltac:(lia) p [] W ltac:(constructor)); [left|right]; assumption.
  Qed.
  Lemma galois_zero u v u' v' : Forall (inr K) u -> Forall (inr K) v -> p_rem K u f = Ok u' -> p_rem K v f = Ok v' ->
    req (oadd (pz_ops K) u v) (o0 (pz_ops K)) -> oz (pz_ops K) (oadd (pz_ops K) u' v') = true.
  Proof using HS Hf.
    intros Wu Wv Eu Ev H. destruct (f_split K HS d f Hf) as (Ef & Ll & _ & _ & _ & R).
    destruct (rem_ok K HS d f Hf u Wu) as (u0 & E0 & C0 & W0). rewrite Eu in E0. injection E0 as <-. destruct (rem_ok K HS d f Hf v Wv) as (v0 & E1 & C1 & W1). rewrite Ev in E1. injection E1 as <-.
    destruct (rem_canonical K HS d f Hf u u' Wu Eu) as (_ & L0). destruct (rem_canonical K HS d f Hf v v' Wv Ev) as (_ & L1).
    assert (P : peq (zk_ops K) (zeq K) (p_add (zk_ops K) u' v') []).
    { apply (small_eq K HW (low d f)); [rewrite p_add_len; lia|cbn; lia|].
      pose proof (Radd_ext (rk_ext _ _ _ (galois_ok K HS d f)) u u' C0 v v' C1) as X. pose proof (rk_equiv _ _ _ (galois_ok K HS d f)) as EQ.
      transitivity (oadd (pz_ops K) u v); [symmetry; exact X|exact H]. }
    apply (iszero_iff K). intros i. apply (inr_eq K).
    - apply (nth_inr K HK). apply (rk_wfadd _ _ _ (galois_ok K HS d f)); assumption.
    - apply (rk_wf0 _ _ _ (zk_ring_ok K HK)).
    - etransitivity; [exact (P i)|]. destruct i; reflexivity.
  Qed.
End Zero.
Section Points.
  Variable K : Z.
  Hypothesis HS : In K small_widths.
  Notation HW := (small_in K HS).
  Notation HK := (widths_pos K HW).
  Variables (d m : nat) (f : list Z).
  Hypothesis Hf : irreducible_poly d = Ok f.
  Hypothesis Hm : (N.size (N.of_nat m) <= N.of_nat d)%N.
  Notation req := (req K d f).
  Lemma points_wf : Forall (Forall (inr K)) (mul_points (m + 1)).
  Proof using HS. unfold mul_points. apply Forall_forall. intros x Hx. apply in_map_iff in Hx. destruct Hx as (i & <- & _). apply point_wf, HK. Qed.
  Lemma points_sep : separated (pz_ops K) req (Forall (inr K)) (fun v => mod_inverse K v f) (mul_points (m + 1)).
  Proof using HS Hf Hm.
    intros i j Hi Hj Hne. rewrite mul_points_len in *. cbn [o0 osub pz_ops pops omul o1]. rewrite !mul_points_nth by lia.
    apply (mod_inverse_ok K HS d f Hf).
    - apply (rk_wfsub _ _ _ (galois_ok K HS d f)); apply point_wf, HK.
    - rewrite p_sub_len. pose proof (point_len i) as Li. pose proof (point_len j) as Lj. pose proof (size_mono (N.of_nat i) (N.of_nat m) ltac:(lia)). pose proof (size_mono (N.of_nat j) (N.of_nat m) ltac:(lia)).
      clear - Li Lj H H0 Hm. lia.
    - rewrite (par_sub K HK), !point_par. intros E. apply N.lxor_eq in E. lia.
  Qed.
  Lemma gr_lagrange_ok : exists lag, gr_lagrange K (mul_points (m + 1)) f = Ok lag /\ lagrange_ok (pz_ops K) req (Forall (inr K)) (mul_points (m + 1)) lag.
  Proof using HS Hf Hm.
    exact (lagrange_polys_ok (pz_ops K) req (Forall (inr K)) (galois_ok K HS d f) (fun v => mod_inverse K v f) (mul_points (m + 1)) points_sep points_wf (fun c => p_rem K c f) (rem_ok K HS d f Hf)).
  Qed.
End Points.
