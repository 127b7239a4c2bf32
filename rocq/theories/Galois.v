(** The Galois rings of mul_proof.rs and dot_proof.rs: inverses by Hensel lifting, Lagrange polynomials. *)
From Coq Require Import Ring Setoid Morphisms Nnat.
From Verif Require Import Base Ring RingProofs Gf2 Gf2Proofs Gf2Field Gf2Inv Poly PolyProofs PolyRing PolyDiv PolyRem PolyPar.
Local Open Scope list_scope.

Definition bits_of (v : N) (n : nat) : list Z := map (fun i => if N.testbit v (N.of_nat i) then 1 else 0) (seq 0 n).
Lemma irreducible_poly_monic d f : irreducible_poly d = Ok f ->
  exists v, irreducible d = Ok v /\ f = bits_of v d ++ [1] /\ par f = v /\ (40 <= d <= 63)%nat.
Proof.
  unfold irreducible_poly. destruct (irreducible d) as [v|e] eqn:E; [|discriminate]. cbn [rbind]. intros H. injection H as <-. exists v.
  destruct (irreducible_field d v E) as (_ & S & R). split; [reflexivity|]. split; [|split; [|exact R]].
  - change (bits_of v (Datatypes.S d) = bits_of v d ++ [1]). unfold bits_of. rewrite seq_S, map_app. cbn [map Nat.add]. f_equal. f_equal.
    assert (v <> 0%N) by (intros ->; cbn in S; lia). pose proof (bit_top v H) as B. rewrite S in B. replace (N.of_nat d + 1 - 1)%N with (N.of_nat d) in B by lia. rewrite B. reflexivity.
  - apply (bits_par (Datatypes.S d) v). apply size_le. lia.
Qed.
Definition small_widths : list Z := [8; 16; 32].
Lemma small_in K : In K small_widths -> In K [8; 16; 32; 64]. Proof. cbn. tauto. Qed.
Lemma small_lt K : In K small_widths -> 0 < K < 64. Proof. cbn. lia. Qed.

Section SubSub.
  Context {A : Type} (O : rops A) (rq : A -> A -> Prop) (wf : A -> Prop).
  Hypothesis HO : ring_ok O rq wf.
  Add Ring base_ring7 : (rk_ring _ _ _ HO) (setoid (rk_equiv _ _ _ HO) (rk_ext _ _ _ HO)).
  Lemma sub_sub a b : rq (osub O a (osub O a b)) b. Proof. ring. Qed.
  Lemma sub_zero a : rq (osub O a a) (o0 O). Proof. ring. Qed.
  Lemma sub_zero_eq a b : rq (osub O a b) (o0 O) -> rq a b.
  Proof. intros E. pose proof (rk_equiv _ _ _ HO) as Q. transitivity (oadd O (osub O a b) b); [ring|]. transitivity (oadd O (o0 O) b); [apply (Radd_ext (rk_ext _ _ _ HO)); [exact E|reflexivity]|ring]. Qed.
End SubSub.

Section Galois.
  Variable K : Z.
  Hypothesis HS : In K small_widths.
  Notation HW := (small_in K HS).
  Notation HK := (widths_pos K HW).
  Variables (d : nat) (f : list Z).
  Hypothesis Hf : irreducible_poly d = Ok f.
  Definition low : list Z := firstn d f.
  Lemma f_split : f = low ++ [1] /\ length low = d /\ Forall (inr K) low /\ is_field (par f) /\ N.size (par f) = (N.of_nat d + 1)%N /\ (40 <= d <= 63)%nat.
  Proof using Hf HS.
    destruct (irreducible_poly_monic d f Hf) as (v & Ev & E & P & R). destruct (irreducible_field d v Ev) as (F & S & _).
    assert (L : length (bits_of v d) = d) by (unfold bits_of; rewrite map_length, seq_length; reflexivity).
    assert (El : low = bits_of v d) by (unfold low; rewrite E, firstn_app, L, Nat.sub_diag, <- L at 1; rewrite firstn_all, app_nil_r; reflexivity).
    rewrite P, El. repeat (split; [first [assumption | apply (bits_wf K HK)]|]). exact R.
  Qed.
  (** Equality of classes. *)
  Definition req : list Z -> list Z -> Prop := geq K low.
  Lemma galois_ok : ring_ok (pz_ops K) req (Forall (inr K)).
  Proof using HS. exact (gr_ok K HW low). Qed.
  Infix "==" := req (at level 70).
  Local Instance peq_equiv7 : Equivalence (peq (zk_ops K) (zeq K)) := rk_equiv _ _ _ (poly_ring_ok (zk_ops K) (zeq K) (inr K) (zk_ring_ok K HK)).
  Local Instance req_equiv6 : Equivalence req := rk_equiv _ _ _ galois_ok.
  Local Instance add_proper6 : Proper (req ==> req ==> req) (p_add (zk_ops K)) := Radd_ext (rk_ext _ _ _ galois_ok).
  Local Instance mul_proper6 : Proper (req ==> req ==> req) (p_mul (zk_ops K)) := Rmul_ext (rk_ext _ _ _ galois_ok).
  Local Instance neg_proper6 : Proper (req ==> req) (p_neg (zk_ops K)) := Ropp_ext (rk_ext _ _ _ galois_ok).
  Local Instance sub_proper6 : Proper (req ==> req ==> req) (p_sub (zk_ops K)) := sub_proper (pz_ops K) req (Forall (inr K)) galois_ok.
  Lemma galois_ring : ring_theory [] (p_one (zk_ops K)) (p_add (zk_ops K)) (p_mul (zk_ops K)) (p_sub (zk_ops K)) (p_neg (zk_ops K)) req.
  Proof using HS. exact (rk_ring _ _ _ galois_ok). Qed.
  Lemma galois_ext : ring_eq_ext (p_add (zk_ops K)) (p_mul (zk_ops K)) (p_neg (zk_ops K)) req.
  Proof using HS. exact (rk_ext _ _ _ galois_ok). Qed.
  Add Ring galois_ring' : galois_ring (setoid req_equiv6 galois_ext).
  Notation "p +p q" := (p_add (zk_ops K) p q) (at level 50, left associativity).
  Notation "p -p q" := (p_sub (zk_ops K) p q) (at level 50, left associativity).
  Notation "p *p q" := (p_mul (zk_ops K) p q) (at level 40, left associativity).
  Notation one := (p_one (zk_ops K)).

  Lemma rem_ok p : Forall (inr K) p -> exists r, p_rem K p f = Ok r /\ p == r /\ Forall (inr K) r.
  Proof using HS Hf.
    intros W. destruct f_split as (E & L & Wl & _ & _ & R). destruct (p_rem_ok K HW low ltac:(lia) p W) as (r & Er & C & Wr & _). rewrite <- E in Er. exists r. auto.
  Qed.
  Lemma rem_canonical p r : Forall (inr K) p -> p_rem K p f = Ok r -> p_shrink (zk_ops K) r = r /\ (length r <= d)%nat.
  Proof using HS Hf.
    intros W Er. destruct f_split as (E & L & Wl & _ & _ & R). destruct (p_rem_ok K HW low ltac:(lia) p W) as (r' & Er' & C & Wr & Lr & S). rewrite <- E, Er in Er'. injection Er' as <-.
    split; [exact S|lia].
  Qed.
  (** Classes modulo 2 as well. *)
  Lemma par_req p p' : p == p' -> cong (par f) (par p) (par p').
  Proof using HS Hf.
    intros [k E]. destruct f_split as (Ef & _). rewrite <- Ef in E. exists (par k). rewrite <- (par_sub K HK), <- (par_mul K HK). apply (par_peq K HK). exact E.
  Qed.
  Lemma par_even_req p : cong (par f) (par p) 0 -> exists t, p == t *p [2].
  Proof using HS Hf.
    intros [k E]. rewrite N.lxor_0_r in E. destruct f_split as (Ef & _).
    pose (q := bits_of k (N.to_nat (N.size k))).
    assert (Q : par q = k) by (apply bits_par; apply size_le; lia).
    destruct (par_even K HK (p -p (q *p f))) as [t Ht]; [rewrite (par_sub K HK), (par_mul K HK), Q, E; apply N.lxor_nilpotent|].
    exists t. transitivity (p -p (q *p f)).
    - exists q. rewrite <- Ef. change (peq (zk_ops K) (zeq K) (p -p (p -p (q *p f))) (q *p f)).
      exact (sub_sub _ _ _ (poly_ring_ok (zk_ops K) (zeq K) (inr K) (zk_ring_ok K HK)) p (q *p f)).
    - apply (geq_of K HW). exact Ht.
  Qed.
  (** ** Inverses *)
  Lemma mod_inverse_inner_ok a : Forall (inr K) a -> (length a <= d)%nat -> par a <> 0%N -> forall n, (0 < n)%nat ->
    exists v t, mod_inverse_inner K a f n = Ok v /\ Forall (inr K) v /\ a *p v == one +p (t *p [2 ^ Z.of_nat n]).
  Proof using HS Hf.
    intros Wa La Ha n Hn. destruct f_split as (Ef & Ll & Wl & HF & Sf & R). pose proof (small_lt K HS) as HKb.
    assert (Lf : (length f <= 64)%nat) by (rewrite Ef, app_length; cbn; lia).
    destruct n as [|n]; [lia|]. clear Hn. induction n as [|n IH].
    - cbn [mod_inverse_inner]. rewrite (to_gf2p64_ok K a), (to_gf2p64_ok K f) by lia. cbn [rbind].
      pose proof (par_size a) as Sa.
      destruct (inv_mod_ok (par f) (par a) HF ltac:(lia) Ha ltac:(lia)) as (C & S).
      destruct (poly_from_u64_ok K (inv_mod (par a) (par f)) HKb) as (v & Ev & Pv & Wv); [apply size_le; lia|].
      destruct (par_even_req (a *p v -p one)) as [t Ht].
      { rewrite (par_sub K HK), (par_mul K HK), Pv. change (par one) with 1%N. rewrite <- (N.lxor_nilpotent 1). apply cong_xor; [exact C|reflexivity]. }
      exists v, t. split; [exact Ev|]. split; [exact Wv|]. change (2 ^ Z.of_nat 1) with 2. rewrite <- Ht. ring.
    - destruct IH as (v & t & E & Wv & C). change (mod_inverse_inner K a f (S (S n))) with (rbind (mod_inverse_inner K a f (S n)) (fun v =>
        rbind (p_rem K (p_sub (zk_ops K) (p_mul (zk_ops K) v a) [1]) f) (fun r =>
        p_rem K (p_sub (zk_ops K) v (p_mul (zk_ops K) r v)) f))).
      rewrite E. cbn [rbind]. destruct (rem_ok ((v *p a) -p [1])) as (r & Er & Cr & Wr).
      { apply (rk_wfsub _ _ _ galois_ok); [apply (rk_wfmul _ _ _ galois_ok); assumption|apply (rk_wf1 _ _ _ galois_ok)]. }
      rewrite Er. cbn [rbind]. destruct (rem_ok (v -p (r *p v))) as (v' & Ev & Cv & Wv').
      { apply (rk_wfsub _ _ _ galois_ok); [assumption|apply (rk_wfmul _ _ _ galois_ok); assumption]. }
      exists v'. exists (p_neg (zk_ops K) (t *p t *p [2 ^ Z.of_nat n])). split; [exact Ev|]. split; [exact Wv'|].
      rewrite <- Cv, <- Cr. change [1] with one.
      transitivity ((a *p v) *p ((one +p one) -p (a *p v))); [ring|]. rewrite C.
      assert (P : [2 ^ Z.of_nat (S n)] *p [2 ^ Z.of_nat (S n)] == [2 ^ Z.of_nat n] *p [2 ^ Z.of_nat (S (S n))]).
      { apply (geq_of K HW). etransitivity; [symmetry; apply (const_mul K HK)|]. etransitivity; [|apply (const_mul K HK)]. unfold rmul. rewrite <- !Z.pow_add_r by lia.
        replace (Z.of_nat (S n) + Z.of_nat (S n)) with (Z.of_nat n + Z.of_nat (S (S n))) by lia. reflexivity. }
      transitivity (one -p (t *p t *p ([2 ^ Z.of_nat (S n)] *p [2 ^ Z.of_nat (S n)]))); [ring|]. rewrite P. ring.
  Qed.
  Theorem mod_inverse_ok a : Forall (inr K) a -> (length a <= d)%nat -> par a <> 0%N ->
    exists v, mod_inverse K a f = Ok v /\ a *p v == one /\ Forall (inr K) v.
  Proof using HS Hf.
    intros Wa La Ha. pose proof (small_lt K HS) as HKb. destruct (mod_inverse_inner_ok a Wa La Ha (Z.to_nat K)) as (v & t & E & Wv & C); [lia|].
    exists v. split; [exact E|]. split; [|exact Wv]. rewrite C. rewrite Z2Nat.id by lia.
    assert (Z0 : [2 ^ K] == []). { apply (geq_of K HW). intros [|[|i]]; try reflexivity. cbn [nth]. unfold zeq. rewrite Z_mod_same_full. symmetry. apply Zmod_0_l. }
    rewrite Z0. ring.
  Qed.
End Galois.
