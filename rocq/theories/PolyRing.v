(** Polynomials over a ring form a ring (up to trailing zeros), and so do their classes modulo one of them. *)
From Coq Require Import Ring Setoid Morphisms.
From Verif Require Import Base Ring Poly PolyProofs.
Local Open Scope list_scope.

Section PolyRing.
  Context {A : Type} (O : rops A) (req : A -> A -> Prop) (wf : A -> Prop).
  Hypothesis HO : ring_ok O req wf.
  Local Instance req_equiv4 : Equivalence req := rk_equiv _ _ _ HO.
  Local Instance add_proper4 : Proper (req ==> req ==> req) (oadd O) := Radd_ext (rk_ext _ _ _ HO).
  Local Instance mul_proper4 : Proper (req ==> req ==> req) (omul O) := Rmul_ext (rk_ext _ _ _ HO).
  Local Instance neg_proper4 : Proper (req ==> req) (oneg O) := Ropp_ext (rk_ext _ _ _ HO).
  Local Instance sub_proper4 : Proper (req ==> req ==> req) (osub O) := sub_proper O req wf HO.
  Add Ring base_ring4 : (rk_ring _ _ _ HO) (setoid (rk_equiv _ _ _ HO) (rk_ext _ _ _ HO)).
  Infix "==" := req (at level 70).
  Notation "0" := (o0 O). Notation "1" := (o1 O).
  Infix "+" := (oadd O). Infix "*" := (omul O). Infix "-" := (osub O).
  (** Coefficient i. *)
  Notation co p i := (nth i p (o0 O)).
  Definition peq (p q : list A) : Prop := forall i, co p i == co q i.
  Infix "=p=" := peq (at level 70).
  Global Instance peq_equiv : Equivalence peq.
  Proof. split; [intros p i; reflexivity|intros p q H i; symmetry; apply H|intros p q r H1 H2 i; rewrite (H1 i); apply H2]. Qed.

  Lemma co_nil i : co [] i = 0. Proof. destruct i; reflexivity. Qed.
  Lemma co_add p q i : co (p_add O p q) i == co p i + co q i.
  Proof.
    revert q i. induction p as [|a p IH]; intros q i.
    - cbn [p_add]. rewrite co_nil. revert i. induction q as [|b q IHq]; intros [|i]; cbn [map nth]; try ring. rewrite IHq. ring.
    - destruct q as [|b q], i as [|i]; cbn [p_add nth]; try ring. apply IH.
  Qed.
  Lemma co_sub p q i : co (p_sub O p q) i == co p i - co q i.
  Proof.
    revert q i. induction p as [|a p IH]; intros q i.
    - cbn [p_sub]. rewrite co_nil. revert i. induction q as [|b q IHq]; intros [|i]; cbn [map nth]; try ring. rewrite IHq. ring.
    - destruct q as [|b q], i as [|i]; cbn [p_sub nth]; try ring. apply IH.
  Qed.
  Lemma co_neg p i : co (p_neg O p) i == oneg O (co p i).
  Proof. revert i. unfold p_neg. induction p as [|a p IH]; intros [|i]; cbn [map nth]; try ring. apply IH. Qed.
  Lemma co_scale p y i : co (p_scale O p y) i == co p i * y.
  Proof. revert i. unfold p_scale. induction p as [|a p IH]; intros [|i]; cbn [map nth]; try ring. apply IH. Qed.
  Lemma co_row p y i : co (map (fun b => y * b) p) i == y * co p i.
  Proof. revert i. induction p as [|a p IH]; intros [|i]; cbn [map nth]; try ring. apply IH. Qed.
  Lemma co_cons a p i : co (a :: p) i = match i with Datatypes.O => a | S i => co p i end. Proof. destruct i; reflexivity. Qed.

  Instance p_add_proper : Proper (peq ==> peq ==> peq) (p_add O).
  Proof. intros p p' Hp q q' Hq i. rewrite !co_add, (Hp i), (Hq i). reflexivity. Qed.
  Instance p_sub_proper : Proper (peq ==> peq ==> peq) (p_sub O).
  Proof. intros p p' Hp q q' Hq i. rewrite !co_sub, (Hp i), (Hq i). reflexivity. Qed.
  Instance p_neg_proper : Proper (peq ==> peq) (p_neg O).
  Proof. intros p p' Hp i. rewrite !co_neg, (Hp i). reflexivity. Qed.
  Instance p_scale_proper : Proper (peq ==> req ==> peq) (p_scale O).
  Proof. intros p p' Hp y y' Hy i. rewrite !co_scale, (Hp i), Hy. reflexivity. Qed.
  Instance cons_proper : Proper (req ==> peq ==> peq) cons.
  Proof. intros a a' Ha p p' Hp [|i]; cbn [nth]; [exact Ha|apply Hp]. Qed.

  (** Multiplication, row by row. *)
  Notation row a q := (map (fun b => a * b) q).
  Instance row_proper : Proper (req ==> peq ==> peq) (fun a q => row a q).
  Proof. intros a a' Ha q q' Hq i. rewrite !co_row, Ha, (Hq i). reflexivity. Qed.
  Lemma conv_nil_r p : p_conv O p [] =p= [].
  Proof. induction p as [|a p IH]; [reflexivity|]. cbn [p_conv map]. intros [|i]; rewrite co_add, co_cons, !co_nil; [ring|]. rewrite (IH i), co_nil. ring. Qed.
  Lemma conv_zero p q : p =p= [] -> p_conv O p q =p= [].
  Proof.
    intros H. induction p as [|a p IH]; [reflexivity|]. assert (Ha : a == 0) by apply (H 0%nat). assert (Hp : p =p= []) by (intros i; rewrite co_nil; apply (H (S i))).
    cbn [p_conv]. intros i. rewrite co_add, co_row, Ha, co_cons, co_nil. destruct i as [|i]; [ring|]. rewrite (IH Hp i), co_nil. ring.
  Qed.
  Lemma conv_proper_l p p' q : p =p= p' -> p_conv O p q =p= p_conv O p' q.
  Proof.
    revert p'. induction p as [|a p IH]; intros p' H; [symmetry; apply conv_zero; symmetry; exact H|].
    destruct p' as [|a' p']; [apply conv_zero, H|]. assert (Ha : a == a') by apply (H 0%nat). assert (Hp : p =p= p') by (intros i; apply (H (S i))).
    cbn [p_conv]. rewrite (IH p' Hp). intros i. rewrite !co_add, !co_row, Ha. reflexivity.
  Qed.
  Lemma conv_cons_r p b q : p_conv O p (b :: q) =p= p_add O (p_scale O p b) (0 :: p_conv O p q).
  Proof.
    induction p as [|a p IH]; [intros [|i]; rewrite co_add, co_cons, ?co_nil; cbn [p_scale map p_conv]; rewrite ?co_nil; ring|].
    cbn [p_conv]. rewrite IH. intros [|i]; rewrite !co_add, co_row, co_scale, !co_cons; [ring|]. rewrite !co_add, co_scale, co_row. ring.
  Qed.
  Lemma conv_comm p q : p_conv O p q =p= p_conv O q p.
  Proof.
    revert q. induction p as [|a p IH]; intros q; [symmetry; apply conv_nil_r|]. rewrite conv_cons_r. cbn [p_conv]. rewrite (IH q).
    intros i. rewrite !co_add, co_row, co_scale. ring.
  Qed.
  Lemma conv_proper_r p q q' : q =p= q' -> p_conv O p q =p= p_conv O p q'.
  Proof. intros H. rewrite (conv_comm p q), (conv_comm p q'). apply conv_proper_l, H. Qed.
  Instance conv_proper : Proper (peq ==> peq ==> peq) (p_conv O).
  Proof. intros p p' Hp q q' Hq. rewrite (conv_proper_l p p' q Hp). apply conv_proper_r, Hq. Qed.
  Lemma conv_add_l p p' q : p_conv O (p_add O p p') q =p= p_add O (p_conv O p q) (p_conv O p' q).
  Proof.
    revert p'. induction p as [|a p IH]; intros p'.
    - transitivity (p_conv O p' q); [apply conv_proper_l; intros i; rewrite co_add, co_nil; ring|]. intros i. rewrite co_add. cbn [p_conv]. rewrite co_nil. ring.
    - destruct p' as [|a' p']; cbn [p_add p_conv].
      + intros i. rewrite !co_add, co_nil. ring.
      + rewrite (IH p'). intros [|i]; rewrite !co_add, !co_row, !co_cons; [ring|]. rewrite !co_add. ring.
  Qed.
  Lemma conv_row a p q : p_conv O (row a p) q =p= row a (p_conv O p q).
  Proof.
    induction p as [|b p IH]; [reflexivity|]. cbn [map p_conv]. rewrite IH. intros [|i]; rewrite co_add, !co_row, !co_add, co_row, !co_cons; [ring|]. rewrite co_row. ring.
  Qed.
  Lemma conv_shift p q : p_conv O (0 :: p) q =p= 0 :: p_conv O p q.
  Proof. cbn [p_conv]. intros i. rewrite co_add, co_row. ring. Qed.
  Lemma conv_assoc p q r : p_conv O (p_conv O p q) r =p= p_conv O p (p_conv O q r).
  Proof. induction p as [|a p IH]; [reflexivity|]. cbn [p_conv]. rewrite conv_add_l, conv_row, conv_shift, IH. reflexivity. Qed.
  Lemma conv_one p : p_conv O [1] p =p= p.
  Proof. cbn [p_conv]. intros [|i]; rewrite co_add, co_row, co_cons, ?co_nil; ring. Qed.
  Lemma iszero_peq p : p_iszero O p = true -> p =p= [].
  Proof.
    induction p as [|a p IH]; intros E; [reflexivity|]. unfold p_iszero in E. cbn in E. apply andb_prop in E. destruct E as [E1 E2].
    intros [|i]; cbn [nth]; [apply (rk_zero _ _ _ HO), E1|]. rewrite (IH E2 i), co_nil. reflexivity.
  Qed.
  Lemma mul_conv p q : p_mul O p q =p= p_conv O p q.
  Proof.
    unfold p_mul. destruct (p_iszero O p) eqn:E1; cbn [orb]; [symmetry; apply conv_zero, iszero_peq, E1|].
    destruct (p_iszero O q) eqn:E2; [symmetry; rewrite (iszero_peq q E2); apply conv_nil_r|]. reflexivity.
  Qed.
  Lemma poly_ring_ok : ring_ok (pops O) peq (Forall wf).
  Proof.
    constructor.
    - apply peq_equiv.
    - constructor; cbn [pops o0 o1 oadd osub omul oneg].
      + intros p i. rewrite co_add, co_nil. ring.
      + intros p q i. rewrite !co_add. ring.
      + intros p q r i. rewrite !co_add. ring.
      + intros p. rewrite mul_conv. apply conv_one.
      + intros p q. rewrite !mul_conv. apply conv_comm.
      + intros p q r. rewrite !mul_conv. rewrite conv_assoc. reflexivity.
      + intros p q r. rewrite !mul_conv. apply conv_add_l.
      + intros p q i. rewrite co_sub, co_add, co_neg. ring.
      + intros p i. rewrite co_add, co_neg, co_nil. ring.
    - constructor; cbn [pops o0 o1 oadd osub omul oneg].
      + apply p_add_proper.
      + intros p p' Hp q q' Hq. rewrite !mul_conv, Hp, Hq. reflexivity.
      + apply p_neg_proper.
    - intros p E. apply iszero_peq, E.
    - constructor.
    - constructor; [apply (rk_wf1 _ _ _ HO)|constructor].
    - apply (wf_p_add O req wf HO).
    - apply (wf_p_sub O req wf HO).
    - apply (wf_p_mul O req wf HO).
    - apply (wf_p_neg O req wf HO).
  Qed.
End PolyRing.

(** ** Classes modulo f *)
Section Quotient.
  Context {A : Type} (O : rops A) (req : A -> A -> Prop) (wf : A -> Prop).
  Hypothesis HO : ring_ok O req wf.
  Local Instance req_equiv5 : Equivalence req := rk_equiv _ _ _ HO.
  Local Instance add_proper5 : Proper (req ==> req ==> req) (oadd O) := Radd_ext (rk_ext _ _ _ HO).
  Local Instance mul_proper5 : Proper (req ==> req ==> req) (omul O) := Rmul_ext (rk_ext _ _ _ HO).
  Local Instance neg_proper5 : Proper (req ==> req) (oneg O) := Ropp_ext (rk_ext _ _ _ HO).
  Local Instance sub_proper5 : Proper (req ==> req ==> req) (osub O) := sub_proper O req wf HO.
  Add Ring base_ring5 : (rk_ring _ _ _ HO) (setoid (rk_equiv _ _ _ HO) (rk_ext _ _ _ HO)).
  Infix "==" := req (at level 70).
  Infix "+" := (oadd O). Infix "*" := (omul O). Infix "-" := (osub O).
  Variable f : A.
  Definition qeq (a b : A) : Prop := exists k, a - b == k * f.
  Lemma qeq_of a b : a == b -> qeq a b.
  Proof. intros E. exists (o0 O). rewrite E. ring. Qed.
  Lemma qeq_equiv : Equivalence qeq.
  Proof.
    split.
    - intros a. apply qeq_of. reflexivity.
    - intros a b [k E]. exists (oneg O k). transitivity (oneg O (a - b)); [ring|]. rewrite E. ring.
    - intros a b c [k E] [h E']. exists (k + h). transitivity ((a - b) + (b - c)); [ring|]. rewrite E, E'. ring.
  Qed.
  Lemma quotient_ring_ok : ring_ok O qeq wf.
  Proof.
    pose proof (rk_ring _ _ _ HO) as R. constructor; try apply HO.
    - apply qeq_equiv.
    - constructor; intros; apply qeq_of; first [apply R].
    - constructor.
      + intros a a' [k E] b b' [h E']. exists (k + h). transitivity ((a - a') + (b - b')); [ring|]. rewrite E, E'. ring.
      + intros a a' [k E] b b' [h E']. exists (k * b + a' * h). transitivity ((a - a') * b + a' * (b - b')); [ring|]. rewrite E, E'. ring.
      + intros a a' [k E]. exists (oneg O k). transitivity (oneg O (a - a')); [ring|]. rewrite E. ring.
    - intros a E. apply qeq_of, (rk_zero _ _ _ HO), E.
  Qed.
End Quotient.
