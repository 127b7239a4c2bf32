(** The circuits of the three proof systems are polynomials of degree two. *)
From Coq Require Import Ring Setoid Morphisms.
From Verif Require Import Base Ring Poly PolyProofs Dzkp DzkpProofs.
Local Open Scope list_scope.

Section Circuits.
  Context {A : Type} (O : rops A) (req : A -> A -> Prop) (wf : A -> Prop).
  Hypothesis HO : ring_ok O req wf.
  Local Instance req_equiv2 : Equivalence req := rk_equiv _ _ _ HO.
  Local Instance add_proper2 : Proper (req ==> req ==> req) (oadd O) := Radd_ext (rk_ext _ _ _ HO).
  Local Instance mul_proper2 : Proper (req ==> req ==> req) (omul O) := Rmul_ext (rk_ext _ _ _ HO).
  Local Instance sub_proper2 : Proper (req ==> req ==> req) (osub O) := sub_proper O req wf HO.
  Add Ring base_ring2 : (rk_ring _ _ _ HO) (setoid (rk_equiv _ _ _ HO) (rk_ext _ _ _ HO)).
  Infix "==" := req (at level 70).
  Notation ev := (p_eval O).

  Lemma nth_ev fs i x : nth i (map (fun p => ev p x) fs) (o0 O) = ev (nth i fs []) x.
  Proof. exact (map_nth (fun p => ev p x) fs [] i). Qed.
  Lemma nth_req f g i : Forall2 req f g -> nth i f (o0 O) == nth i g (o0 O).
  Proof. intros H. revert i. induction H; intros [|i]; cbn; try reflexivity; auto. Qed.
  Lemma nth_wf2 f i : Forall wf f -> wf (nth i f (o0 O)).
  Proof. intros H. revert i. induction H; intros [|i]; cbn; auto; apply (rk_wf0 _ _ _ HO). Qed.
  Lemma nth_pwf fs m i : Forall (Forall wf) fs -> Forall (fun p => length p <= S m)%nat fs ->
    Forall wf (nth i fs []) /\ (length (nth i fs []) <= S m)%nat.
  Proof.
    intros H1 H2. destruct (nth_in_or_default i fs []) as [Hin|Hd]; [|rewrite Hd; split; [constructor|cbn; lia]].
    rewrite Forall_forall in H1, H2. split; auto.
  Qed.

  Lemma c_mul_ok : cf_ok O req wf c_mul.
  Proof.
    constructor.
    - intros fs x. unfold c_mul. cbn [pops o0 oadd osub omul]. rewrite !nth_ev.
      rewrite (ev_sub O req wf HO), !(ev_add O req wf HO), !(ev_mul O req wf HO). reflexivity.
    - intros f g H. unfold c_mul. rewrite !(nth_req f g _ H). reflexivity.
    - intros f H. unfold c_mul.
      repeat first [apply (rk_wfsub _ _ _ HO) | apply (rk_wfadd _ _ _ HO) | apply (rk_wfmul _ _ _ HO) | apply nth_wf2; exact H].
    - intros fs m H1 H2. unfold c_mul. cbn [pops o0 oadd osub omul]. pose proof (fun i => proj1 (nth_pwf fs m i H1 H2)) as W. pose proof (fun i => proj2 (nth_pwf fs m i H1 H2)) as L. split.
      + repeat first [apply (wf_p_sub O req wf HO) | apply (wf_p_add O req wf HO) | apply (wf_p_mul O req wf HO) | apply W].
      + rewrite p_sub_len, !p_add_len. pose proof (p_mul_len_le O m m _ _ (L 0%nat) (L 2%nat)). pose proof (p_mul_len_le O m m _ _ (L 0%nat) (L 3%nat)).
        pose proof (p_mul_len_le O m m _ _ (L 1%nat) (L 2%nat)). pose proof (L 4%nat). pose proof (L 5%nat). lia.
  Qed.

  Lemma c_dot_ok dot : cf_ok O req wf (c_dot dot).
  Proof.
    constructor.
    - intros fs x. unfold c_dot. cbn [pops o0 oadd osub omul].
      assert (G : forall is p a, ev p x == a ->
        ev (fold_left (fun r i => p_add O r (p_add O (p_add O (p_mul O (nth i fs []) (nth (2 * dot + i) fs [])) (p_mul O (nth i fs []) (nth (3 * dot + i) fs []))) (p_mul O (nth (dot + i) fs []) (nth (2 * dot + i) fs [])))) is p) x
        == fold_left (fun r i => let y k := nth k (map (fun p => ev p x) fs) (o0 O) in
             oadd O r (oadd O (oadd O (omul O (y i) (y (2 * dot + i)%nat)) (omul O (y i) (y (3 * dot + i)%nat))) (omul O (y (dot + i)%nat) (y (2 * dot + i)%nat)))) is a).
      { induction is as [|i is IH]; intros p a E; cbn [fold_left]; [exact E|]. apply IH. cbv zeta. rewrite !nth_ev.
        rewrite !(ev_add O req wf HO), !(ev_mul O req wf HO), E. reflexivity. }
      apply G. rewrite !nth_ev. apply (ev_sub O req wf HO).
    - intros f g H. unfold c_dot.
      assert (G : forall is a b, a == b ->
        fold_left (fun r i => oadd O r (oadd O (oadd O (omul O (nth i f (o0 O)) (nth (2 * dot + i) f (o0 O))) (omul O (nth i f (o0 O)) (nth (3 * dot + i) f (o0 O)))) (omul O (nth (dot + i) f (o0 O)) (nth (2 * dot + i) f (o0 O))))) is a
        == fold_left (fun r i => oadd O r (oadd O (oadd O (omul O (nth i g (o0 O)) (nth (2 * dot + i) g (o0 O))) (omul O (nth i g (o0 O)) (nth (3 * dot + i) g (o0 O)))) (omul O (nth (dot + i) g (o0 O)) (nth (2 * dot + i) g (o0 O))))) is b).
      { induction is as [|i is IH]; intros a b E; cbn [fold_left]; [exact E|]. apply IH. rewrite E, !(nth_req f g _ H). reflexivity. }
      apply G. rewrite !(nth_req f g _ H). reflexivity.
    - intros f H. unfold c_dot. pose proof (fun i => nth_wf2 f i H) as W.
      assert (G : forall is a, wf a -> wf (fold_left (fun r i => oadd O r (oadd O (oadd O (omul O (nth i f (o0 O)) (nth (2 * dot + i) f (o0 O))) (omul O (nth i f (o0 O)) (nth (3 * dot + i) f (o0 O)))) (omul O (nth (dot + i) f (o0 O)) (nth (2 * dot + i) f (o0 O))))) is a)).
      { induction is as [|i is IH]; intros a E; cbn [fold_left]; [exact E|]. apply IH.
        repeat first [apply (rk_wfsub _ _ _ HO) | apply (rk_wfadd _ _ _ HO) | apply (rk_wfmul _ _ _ HO) | apply W | exact E]. }
      apply G. apply (rk_wfsub _ _ _ HO); apply W.
    - intros fs m H1 H2. unfold c_dot. cbn [pops o0 oadd osub omul]. pose proof (fun i => proj1 (nth_pwf fs m i H1 H2)) as W. pose proof (fun i => proj2 (nth_pwf fs m i H1 H2)) as L.
      assert (G : forall is p, Forall wf p /\ (length p <= S (m + m))%nat ->
        let q := fold_left (fun r i => p_add O r (p_add O (p_add O (p_mul O (nth i fs []) (nth (2 * dot + i) fs [])) (p_mul O (nth i fs []) (nth (3 * dot + i) fs []))) (p_mul O (nth (dot + i) fs []) (nth (2 * dot + i) fs [])))) is p in
        Forall wf q /\ (length q <= S (m + m))%nat).
      { induction is as [|i is IH]; intros p [Wp Lp]; cbn [fold_left]; [split; assumption|]. apply IH. split.
        - repeat first [apply (wf_p_add O req wf HO) | apply (wf_p_mul O req wf HO) | apply W | exact Wp].
        - rewrite !p_add_len. pose proof (p_mul_len_le O m m _ _ (L i) (L (2 * dot + i)%nat)). pose proof (p_mul_len_le O m m _ _ (L i) (L (3 * dot + i)%nat)).
          pose proof (p_mul_len_le O m m _ _ (L (dot + i)%nat) (L (2 * dot + i)%nat)). lia. }
      apply G. split; [apply (wf_p_sub O req wf HO); apply W|]. rewrite p_sub_len. pose proof (L (4 * dot)%nat). pose proof (L (4 * dot + 1)%nat). lia.
  Qed.
End Circuits.
