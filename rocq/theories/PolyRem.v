(** Remainders modulo a monic polynomial over Z/2^K; the classes form a ring with a canonical representative. *)
From Coq Require Import Ring Setoid Morphisms.
From Verif Require Import Base Ring RingProofs Poly PolyProofs PolyRing PolyDiv.
Local Open Scope list_scope.

Lemma widths_pos K : In K [8; 16; 32; 64] -> 0 < K. Proof. cbn. lia. Qed.
Lemma inverse_one K : In K [8; 16; 32; 64] -> exists y, inverse K 1 = Some (Ok y) /\ inr K y /\ rmul K 1 y = 1.
Proof. intros HK. apply inverse_odd; [exact HK| |reflexivity]. unfold inr. assert (0 < K) by (apply widths_pos, HK). assert (2 ^ 1 <= 2 ^ K) by (apply Z.pow_le_mono_r; lia). change (2 ^ 1) with 2 in *. lia. Qed.

Section Rem.
  Variable K : Z.
  Hypothesis HW : In K [8; 16; 32; 64].
  Notation HK := (widths_pos K HW).
  Notation Zk := (zk_ring_ok K HK).
  Notation PR := (poly_ring_ok (zk_ops K) (zeq K) (inr K) Zk).
  Notation peq := (peq (zk_ops K) (zeq K)).
  Infix "=p=" := peq (at level 70).
  Variable q : list Z.
  (** A monic modulus. *)
  Notation f := (q ++ [1]).
  Hypothesis Hq : Forall (inr K) q.
  Definition geq : list Z -> list Z -> Prop := qeq (pops (zk_ops K)) peq f.
  Lemma gr_ok : ring_ok (pops (zk_ops K)) geq (Forall (inr K)).
  Proof using HW. exact (quotient_ring_ok (pops (zk_ops K)) peq (Forall (inr K)) PR f). Qed.
  Local Instance geq_equiv : Equivalence geq := rk_equiv _ _ _ gr_ok.
  Local Instance peq_equiv6 : Equivalence peq := rk_equiv _ _ _ PR.
  Local Instance padd_proper6 : Proper (peq ==> peq ==> peq) (p_add (zk_ops K)) := Radd_ext (rk_ext _ _ _ PR).
  Local Instance pmul_proper6 : Proper (peq ==> peq ==> peq) (p_mul (zk_ops K)) := Rmul_ext (rk_ext _ _ _ PR).
  Local Instance psub_proper6 : Proper (peq ==> peq ==> peq) (p_sub (zk_ops K)) := sub_proper (pops (zk_ops K)) peq (Forall (inr K)) PR.
  Add Ring pz_ring6 : (pz_ring K HK) (setoid peq_equiv6 (pz_ext K HK)).
  Lemma geq_of a b : a =p= b -> geq a b.
  Proof using HW. apply (qeq_of (pops (zk_ops K)) peq (Forall (inr K)) PR). Qed.
  Lemma small_eq r r' : (length r <= length q)%nat -> (length r' <= length q)%nat -> geq r r' -> r =p= r'.
  Proof using HW.
    intros L L' [k E]. change (p_sub (zk_ops K) r r' =p= p_mul (zk_ops K) k f) in E.
    assert (Z : k =p= []) by (apply (monic_small K HK q k _ E); rewrite p_sub_len; lia).
    rewrite Z in E. transitivity (p_add (zk_ops K) (p_sub (zk_ops K) r r') r'); [ring|]. rewrite E. ring.
  Qed.
  Lemma shrink_idem p : Forall (inr K) p -> p_shrink (zk_ops K) (p_shrink (zk_ops K) p) = p_shrink (zk_ops K) p.
  Proof using HW. intros W. apply (shrink_unique K HK); [apply (shrink_wf K HK), W|exact W|apply shrink_peq]. Qed.
  Hypothesis Hpos : (0 < length q)%nat.
  Lemma p_rem_ok p : Forall (inr K) p ->
    exists r, p_rem K p f = Ok r /\ geq p r /\ Forall (inr K) r /\ (length r <= length q)%nat /\ p_shrink (zk_ops K) r = r.
  Proof using HW Hpos.
    intros Wp. destruct (inverse_one K HW) as (y & Ey & _ & Hy).
    destruct (long_division_ok K HK p q 1 y Wp ltac:(lia) Ey) as (quo & rem & E & D & L & W1 & W2); [unfold zeq; rewrite Hy; reflexivity|].
    exists (p_shrink (zk_ops K) rem). unfold p_rem. rewrite E. split; [reflexivity|]. split; [|split; [apply (shrink_wf K HK), W2|split; [|apply shrink_idem, W2]]].
    - exists quo. change (p_sub (zk_ops K) p (p_shrink (zk_ops K) rem) =p= p_mul (zk_ops K) quo f). rewrite (shrink_peq K rem), D. ring.
    - pose proof (shrink_len K rem). lia.
  Qed.
  Lemma p_rem_unique p p' : Forall (inr K) p -> Forall (inr K) p' -> geq p p' -> p_rem K p f = p_rem K p' f.
  Proof using HW Hpos.
    intros Wp Wp' E. destruct (p_rem_ok p Wp) as (r & -> & C & W & L & S). destruct (p_rem_ok p' Wp') as (r' & -> & C' & W' & L' & S'). f_equal.
    rewrite <- S, <- S'. apply (shrink_unique K HK); [exact W|exact W'|]. apply small_eq; [exact L|exact L'|]. rewrite <- C, E. exact C'.
  Qed.
  Lemma geq_dec p p' : Forall (inr K) p -> Forall (inr K) p' -> {geq p p'} + {~ geq p p'}.
  Proof using HW Hpos.
    intros Wp Wp'. destruct (p_rem K p f) as [r|e] eqn:E; [|exfalso; destruct (p_rem_ok p Wp) as (r & E' & _); congruence].
    destruct (p_rem K p' f) as [r'|e] eqn:E'; [|exfalso; destruct (p_rem_ok p' Wp') as (r' & E'' & _); congruence].
    destruct (list_eq_dec Z.eq_dec r r') as [Er|Er].
    - left. destruct (p_rem_ok p Wp) as (r0 & E0 & C & _). destruct (p_rem_ok p' Wp') as (r1 & E1 & C' & _). assert (r0 = r1) by congruence. subst r1. rewrite C. symmetry. exact C'.
    - right. intros H. apply Er. pose proof (p_rem_unique p p' Wp Wp' H). congruence.
  Qed.
End Rem.
