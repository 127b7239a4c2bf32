(** Polynomials over any commutative ring (with an equality that may be coarser than Leibniz equality):
    evaluation, Lagrange polynomials, interpolation. *)
From Coq Require Import Ring Setoid Morphisms.
From Verif Require Import Base Ring Poly.
Local Open Scope list_scope.

Record ring_ok {A : Type} (O : rops A) (req : A -> A -> Prop) (wf : A -> Prop) : Prop := {
  rk_equiv : Equivalence req;
  rk_ring : ring_theory (o0 O) (o1 O) (oadd O) (omul O) (osub O) (oneg O) req;
  rk_ext : ring_eq_ext (oadd O) (omul O) (oneg O) req;
  rk_zero : forall a, oz O a = true -> req a (o0 O);
  rk_wf0 : wf (o0 O); rk_wf1 : wf (o1 O);
  rk_wfadd : forall a b, wf a -> wf b -> wf (oadd O a b);
  rk_wfsub : forall a b, wf a -> wf b -> wf (osub O a b);
  rk_wfmul : forall a b, wf a -> wf b -> wf (omul O a b);
  rk_wfneg : forall a, wf a -> wf (oneg O a) }.

Lemma Forall2_len {A B} (R : A -> B -> Prop) l l' : Forall2 R l l' -> length l = length l'.
Proof. induction 1; cbn; congruence. Qed.

Section PolyProofs.
  Context {A : Type} (O : rops A) (req : A -> A -> Prop) (wf : A -> Prop).
  Hypothesis HO : ring_ok O req wf.
  Local Instance req_equiv : Equivalence req := rk_equiv _ _ _ HO.
  Local Instance add_proper : Proper (req ==> req ==> req) (oadd O) := Radd_ext (rk_ext _ _ _ HO).
  Local Instance mul_proper : Proper (req ==> req ==> req) (omul O) := Rmul_ext (rk_ext _ _ _ HO).
  Local Instance neg_proper : Proper (req ==> req) (oneg O) := Ropp_ext (rk_ext _ _ _ HO).
  Local Instance sub_proper : Proper (req ==> req ==> req) (osub O).
  Proof. intros a a' Ea b b' Eb. rewrite !(Rsub_def (rk_ring _ _ _ HO)), Ea, Eb. reflexivity. Qed.
  Add Ring base_ring : (rk_ring _ _ _ HO) (setoid (rk_equiv _ _ _ HO) (rk_ext _ _ _ HO)).
  Infix "==" := req (at level 70).
  Notation "0" := (o0 O). Notation "1" := (o1 O).
  Infix "+" := (oadd O). Infix "*" := (omul O). Infix "-" := (osub O).
  Notation ev := (p_eval O).

  Lemma ev_nil x : ev [] x = 0. Proof. reflexivity. Qed.
  Lemma ev_cons c p x : ev (c :: p) x = ev p x * x + c.
  Proof. unfold p_eval. cbn [rev]. rewrite fold_left_app. reflexivity. Qed.
  Lemma ev_proper p q x y : Forall2 req p q -> x == y -> ev p x == ev q y.
  Proof. intros H E. induction H as [|a b p q Hab _ IH]; [reflexivity|]. rewrite !ev_cons, IH, Hab, E. reflexivity. Qed.
  Lemma ev_map f p x : (forall a, f a == a) -> ev (map f p) x == ev p x.
  Proof. intros Hf. induction p as [|a p IH]; [reflexivity|]. cbn [map]. rewrite !ev_cons, IH, Hf. reflexivity. Qed.
  Lemma ev_add p q x : ev (p_add O p q) x == ev p x + ev q x.
  Proof.
    revert q. induction p as [|a p IH]; intros q.
    - cbn [p_add]. rewrite ev_map by (intros; ring). cbn. ring.
    - destruct q as [|b q]; cbn [p_add]; rewrite ?ev_cons, ?ev_nil; [ring|]. rewrite IH. ring.
  Qed.
  Lemma ev_sub p q x : ev (p_sub O p q) x == ev p x - ev q x.
  Proof.
    revert q. induction p as [|a p IH]; intros q.
    - cbn [p_sub]. transitivity (oneg O (ev q x)); [|rewrite ev_nil; ring]. induction q as [|b q IHq]; [cbn; ring|]. cbn [map]. rewrite !ev_cons, IHq. ring.
    - destruct q as [|b q]; cbn [p_sub]; rewrite ?ev_cons, ?ev_nil; [ring|]. rewrite IH. ring.
  Qed.
  Lemma ev_scale p y x : ev (p_scale O p y) x == ev p x * y.
  Proof. unfold p_scale. induction p as [|a p IH]; [cbn; ring|]. cbn [map]. rewrite !ev_cons, IH. ring. Qed.
  Lemma ev_row p y x : ev (map (fun b => y * b) p) x == y * ev p x.
  Proof. induction p as [|a p IH]; [cbn; ring|]. cbn [map]. rewrite !ev_cons, IH. ring. Qed.
  Lemma ev_conv p q x : ev (p_conv O p q) x == ev p x * ev q x.
  Proof. induction p as [|a p IH]; [cbn; ring|]. cbn [p_conv]. rewrite ev_add, ev_row, !ev_cons, IH. ring. Qed.
  Lemma ev_iszero p x : p_iszero O p = true -> ev p x == 0.
  Proof. induction p as [|a p IH]; [reflexivity|]. unfold p_iszero. cbn [forallb]. intros E. apply andb_prop in E. destruct E as [E1 E2]. rewrite ev_cons, (rk_zero _ _ _ HO a E1), IH by exact E2. ring. Qed.
  Lemma ev_mul p q x : ev (p_mul O p q) x == ev p x * ev q x.
  Proof.
    unfold p_mul. destruct (p_iszero O p) eqn:E1; cbn [orb]; [rewrite (ev_iszero p x E1), ev_nil; ring|].
    destruct (p_iszero O q) eqn:E2; [rewrite (ev_iszero q x E2), ev_nil; ring|]. apply ev_conv.
  Qed.
  Lemma ev_one x : ev (p_one O) x == 1. Proof. unfold p_one. rewrite ev_cons, ev_nil. ring. Qed.
  Lemma ev_lin c v x : ev (p_scale O [oneg O c; 1] v) x == (x - c) * v.
  Proof. rewrite ev_scale, !ev_cons, ev_nil. ring. Qed.

  (** ** Lengths and well-formed coefficients *)
  Notation wfp := (Forall wf).
  Lemma p_add_len p q : length (p_add O p q) = Nat.max (length p) (length q).
  Proof. revert q. induction p as [|a p IH]; intros [|b q]; cbn [p_add length map]; rewrite ?map_length; try reflexivity. rewrite IH. reflexivity. Qed.
  Lemma p_sub_len p q : length (p_sub O p q) = Nat.max (length p) (length q).
  Proof. revert q. induction p as [|a p IH]; intros [|b q]; cbn [p_sub length map]; rewrite ?map_length; try reflexivity. rewrite IH. reflexivity. Qed.
  Lemma p_scale_len p y : length (p_scale O p y) = length p. Proof. apply map_length. Qed.
  Lemma p_conv_len p q : q <> [] -> length (p_conv O p q) = match p with [] => Datatypes.O | _ => (length p + length q - 1)%nat end.
  Proof.
    intros Hq. induction p as [|a p IH]; [reflexivity|]. cbn [p_conv]. rewrite p_add_len, map_length. cbn [length]. rewrite IH.
    assert (1 <= length q)%nat by (destruct q; [contradiction|cbn; lia]). destruct p; cbn [length]; lia.
  Qed.
  Lemma p_mul_len p q : (length (p_mul O p q) <= length p + length q - 1)%nat.
  Proof.
    unfold p_mul. destruct (p_iszero O p) eqn:E1; [cbn; lia|]. destruct q as [|b q]; [cbn; lia|]. destruct (p_iszero O (b :: q)); [cbn; lia|].
    cbn [orb]. rewrite p_conv_len by discriminate. destruct p; cbn [length]; lia.
  Qed.
  Lemma p_mul_len_le a b p q : (length p <= S a)%nat -> (length q <= S b)%nat -> (length (p_mul O p q) <= S (a + b))%nat.
  Proof. intros Hp Hq. pose proof (p_mul_len p q). lia. Qed.
  Lemma wf_map (f : A -> A) p : (forall a, wf a -> wf (f a)) -> wfp p -> wfp (map f p).
  Proof. intros Hf H. induction H; cbn; constructor; auto. Qed.
  Lemma wf_p_add p q : wfp p -> wfp q -> wfp (p_add O p q).
  Proof.
    revert q. induction p as [|a p IH]; intros q Hp Hq; cbn [p_add]; [apply wf_map; [intros; apply (rk_wfadd _ _ _ HO); [apply (rk_wf0 _ _ _ HO)|assumption]|exact Hq]|].
    destruct q as [|b q]; [exact Hp|]. inversion_clear Hp. inversion_clear Hq. constructor; [apply (rk_wfadd _ _ _ HO); assumption|apply IH; assumption].
  Qed.
  Lemma wf_p_sub p q : wfp p -> wfp q -> wfp (p_sub O p q).
  Proof.
    revert q. induction p as [|a p IH]; intros q Hp Hq; cbn [p_sub]; [apply wf_map; [intros; apply (rk_wfsub _ _ _ HO); [apply (rk_wf0 _ _ _ HO)|assumption]|exact Hq]|].
    destruct q as [|b q]; [exact Hp|]. inversion_clear Hp. inversion_clear Hq. constructor; [apply (rk_wfsub _ _ _ HO); assumption|apply IH; assumption].
  Qed.
  Lemma wf_p_scale p y : wfp p -> wf y -> wfp (p_scale O p y).
  Proof. intros Hp Hy. apply wf_map; [intros; apply (rk_wfmul _ _ _ HO); assumption|exact Hp]. Qed.
  Lemma wf_p_neg p : wfp p -> wfp (p_neg O p).
  Proof. intros Hp. apply wf_map; [intros; apply (rk_wfneg _ _ _ HO); assumption|exact Hp]. Qed.
  Lemma wf_p_conv p q : wfp p -> wfp q -> wfp (p_conv O p q).
  Proof.
    intros Hp Hq. induction Hp as [|a p Ha Hp IH]; [constructor|]. cbn [p_conv]. apply wf_p_add.
    - apply wf_map; [intros; apply (rk_wfmul _ _ _ HO); assumption|exact Hq].
    - constructor; [apply (rk_wf0 _ _ _ HO)|exact IH].
  Qed.
  Lemma wf_p_mul p q : wfp p -> wfp q -> wfp (p_mul O p q).
  Proof. intros Hp Hq. unfold p_mul. destruct (_ || _); [constructor|]. apply wf_p_conv; assumption. Qed.
  Lemma wf_p_eval p x : wfp p -> wf x -> wf (ev p x).
  Proof. intros Hp Hx. induction Hp as [|a p Ha _ IH]; [apply (rk_wf0 _ _ _ HO)|]. rewrite ev_cons. apply (rk_wfadd _ _ _ HO); [|exact Ha]. apply (rk_wfmul _ _ _ HO); assumption. Qed.

  (** ** Lagrange polynomials *)
  Variable inv : A -> res A.
  (** The points are pairwise different modulo every maximal ideal: differences can be inverted. *)
  Definition separated (xs : list A) : Prop :=
    forall i j, (i < length xs)%nat -> (j < length xs)%nat -> i <> j ->
      exists v, inv (nth j xs 0 - nth i xs 0) = Ok v /\ (nth j xs 0 - nth i xs 0) * v == 1 /\ wf v.
  Section L.
    Variable xs : list A.
    Hypothesis Hxs : separated xs.
    Hypothesis Hwf : wfp xs.
    Notation X i := (nth i xs 0).
    Lemma wf_nth i : wf (X i).
    Proof using Hwf HO. destruct (nth_in_or_default i xs 0) as [H|H]; [|rewrite H; apply (rk_wf0 _ _ _ HO)]. rewrite Forall_forall in Hwf. apply Hwf, H. Qed.
    Lemma lagrange_loop j is p0 : (j < length xs)%nat -> (forall i, In i is -> i < length xs)%nat -> wfp p0 -> (1 <= length p0)%nat ->
      exists p, fold_left (fun acc i => rbind acc (fun poly => if Nat.eqb i j then Ok poly
          else rbind (inv (X j - X i)) (fun v => Ok (p_mul O (p_scale O [oneg O (X i); 1] v) poly)))) is (Ok p0) = Ok p /\
        ev p (X j) == ev p0 (X j) /\ (forall x, ev p0 x == 0 -> ev p x == 0) /\ (forall i, In i is -> i <> j -> ev p (X i) == 0) /\
        wfp p /\ (length p <= length p0 + length (filter (fun i => negb (Nat.eqb i j)) is))%nat.
    Proof using Hxs Hwf HO.
      intros Hj. revert p0. induction is as [|i is IH]; intros p0 Hi Hp0 Hl; cbn [fold_left rbind].
      - exists p0. split; [reflexivity|]. split; [reflexivity|]. split; [intros x E; exact E|]. split; [intros ? []|]. split; [exact Hp0|cbn; lia].
      - cbn [filter]. destruct (Nat.eqb_spec i j) as [->|Hne].
        + destruct (IH p0) as (p & E & E1 & E2 & E3 & E4 & E5); [intros; apply Hi; right; assumption|exact Hp0|exact Hl|].
          exists p. split; [exact E|]. split; [exact E1|]. split; [exact E2|]. split; [intros k [<-|Hk] Hkj; [contradiction|apply E3; assumption]|]. split; [exact E4|cbn [negb]; exact E5].
        + destruct (Hxs i j) as (v & Ev & Ev1 & Wv); [apply Hi; left; reflexivity|exact Hj|exact Hne|]. rewrite Ev. cbn [rbind].
          set (p1 := p_mul O (p_scale O [oneg O (X i); 1] v) p0).
          assert (V : forall x, ev p1 x == (x - X i) * v * ev p0 x) by (intros x; unfold p1; rewrite ev_mul, ev_lin; reflexivity).
          assert (W1 : wfp p1).
          { unfold p1. apply wf_p_mul; [|exact Hp0]. apply wf_p_scale; [|exact Wv]. repeat constructor; [apply (rk_wfneg _ _ _ HO), wf_nth|apply (rk_wf1 _ _ _ HO)]. }
          destruct (length p1) as [|n1] eqn:L1.
          * (* the product has no coefficients: everything stays zero *)
            assert (Z : p1 = []) by (apply length_zero_iff_nil, L1). rewrite Z.
            assert (Hz : forall is' acc, acc = [] -> (forall k, In k is' -> k < length xs)%nat ->
               exists p, fold_left (fun acc i => rbind acc (fun poly => if Nat.eqb i j then Ok poly
                  else rbind (inv (X j - X i)) (fun v => Ok (p_mul O (p_scale O [oneg O (X i); 1] v) poly)))) is' (Ok acc) = Ok p /\ p = []).
            { induction is' as [|k is' IH']; intros acc Ha Hk; cbn [fold_left rbind]; [exists acc; auto|]. destruct (Nat.eqb_spec k j); [apply IH'; [exact Ha|intros; apply Hk; right; assumption]|].
              destruct (Hxs k j) as (v' & E' & _); [apply Hk; left; reflexivity|exact Hj|assumption|]. rewrite E'. cbn [rbind]. apply IH'; [|intros; apply Hk; right; assumption].
              rewrite Ha. unfold p_mul, p_iszero. cbn [forallb]. rewrite orb_true_r. reflexivity. }
            destruct (Hz is [] eq_refl) as (p & Ep & Ep0); [intros; apply Hi; right; assumption|]. exists p. rewrite Ep0 in *. split; [exact Ep|].
            assert (Z1 : forall x, (x - X i) * v * ev p0 x == 0) by (intros x; rewrite <- V, Z; reflexivity).
            split; [|split; [intros; reflexivity|split; [intros; reflexivity|split; [constructor|cbn; lia]]]].
            rewrite ev_nil. symmetry. transitivity ((X j - X i) * v * ev p0 (X j)); [rewrite Ev1; ring|apply Z1].
          * destruct (IH p1) as (p & E & E1 & E2 & E3 & E4 & E5); [intros; apply Hi; right; assumption|exact W1|lia|].
            exists p. split; [exact E|]. split; [rewrite E1, V, Ev1; ring|]. split; [intros x Hx; apply E2; rewrite V, Hx; ring|].
            split; [|split; [exact E4|]].
            -- intros k [<-|Hk] Hkj; [apply E2; rewrite V; ring|apply E3; assumption].
            -- cbn [negb length]. pose proof (p_mul_len (p_scale O [oneg O (X i); 1] v) p0) as L. fold p1 in L. rewrite p_scale_len in L. cbn [length] in L. lia.
    Qed.
    Lemma filter_seq_len j n : (j < n)%nat -> length (filter (fun i => negb (Nat.eqb i j)) (seq 0 n)) = (n - 1)%nat.
    Proof using.
      intros Hj. assert (G : forall s n, (s <= j < s + n)%nat -> length (filter (fun i => negb (Nat.eqb i j)) (seq s n)) = (n - 1)%nat).
      { clear n Hj. intros s n. revert s. induction n as [|n IH]; intros s Hs; [lia|]. cbn [seq filter]. destruct (Nat.eqb_spec s j) as [->|Hne]; cbn [negb length].
        - replace (filter (fun i => negb (i =? j)%nat) (seq (S j) n)) with (seq (S j) n); [rewrite seq_length; lia|]. symmetry.
          assert (F : forall l, (forall i, In i l -> i <> j) -> filter (fun i => negb (i =? j)%nat) l = l).
          { induction l as [|x l IHl]; intros Hl; [reflexivity|]. cbn. destruct (Nat.eqb_spec x j) as [->|_]; [exfalso; apply (Hl j); [left; reflexivity|reflexivity]|]. cbn. f_equal. apply IHl. intros i Hi. apply Hl. right. exact Hi. }
          apply F. intros i Hi. apply in_seq in Hi. lia.
        - rewrite IH by lia. lia. }
      apply (G 0%nat n). lia.
    Qed.
    Lemma lagrange_poly_ok j : (j < length xs)%nat ->
      exists p, lagrange_poly O inv xs j = Ok p /\ ev p (X j) == 1 /\ (forall i, (i < length xs)%nat -> i <> j -> ev p (X i) == 0) /\ wfp p /\ (length p <= length xs)%nat.
    Proof using Hxs Hwf HO.
      intros Hj. destruct (lagrange_loop j (seq 0 (length xs)) (p_one O) Hj) as (p & E & E1 & _ & E3 & E4 & E5).
      - intros i Hi. apply in_seq in Hi. lia.
      - constructor; [apply (rk_wf1 _ _ _ HO)|constructor].
      - cbn; lia.
      - exists p. split; [exact E|]. split; [rewrite E1; apply ev_one|]. split; [intros i Hi Hne; apply E3; [apply in_seq; lia|exact Hne]|]. split; [exact E4|].
        rewrite filter_seq_len in E5 by exact Hj. cbn [length p_one] in E5. lia.
    Qed.

    Variable red : A -> res A.
    Hypothesis Hred : forall a, wf a -> exists b, red a = Ok b /\ a == b /\ wf b.
    Lemma mapM_red p : wfp p -> exists q, mapM_res red p = Ok q /\ Forall2 req p q /\ wfp q.
    Proof using Hred.
      induction 1 as [|a p Ha _ (q & E & H1 & H2)]; [exists []; split; [reflexivity|split; constructor]|]. destruct (Hred a Ha) as (b & Eb & Hab & Wb).
      exists (b :: q). cbn. rewrite Eb. cbn. rewrite E. cbn. split; [reflexivity|split; constructor; assumption].
    Qed.
    (** What the Lagrange polynomials are for. *)
    Definition lagrange_ok (lag : list (list A)) : Prop :=
      length lag = length xs /\
      (forall j i, (j < length xs)%nat -> (i < length xs)%nat -> ev (nth j lag []) (X i) == if Nat.eqb i j then 1 else 0) /\
      Forall wfp lag /\ Forall (fun p => length p <= length xs)%nat lag.
    Lemma mapM_res_nth {B C} (f : B -> res C) (l : list B) (P : B -> C -> Prop) : (forall b, In b l -> exists c, f b = Ok c /\ P b c) ->
      exists l', mapM_res f l = Ok l' /\ Forall2 P l l'.
    Proof using.
      induction l as [|b l IH]; intros H; [exists []; split; [reflexivity|constructor]|]. destruct (H b) as (c & E & Hc); [left; reflexivity|].
      destruct IH as (l' & E' & H'); [intros; apply H; right; assumption|]. exists (c :: l'). cbn. rewrite E. cbn. rewrite E'. cbn. split; [reflexivity|constructor; assumption].
    Qed.
    Lemma lagrange_polys_ok : exists lag, lagrange_polys O inv red xs = Ok lag /\ lagrange_ok lag.
    Proof using Hxs Hwf HO Hred.
      unfold lagrange_polys.
      destruct (mapM_res_nth (fun j => rbind (lagrange_poly O inv xs j) (mapM_res red)) (seq 0 (length xs))
        (fun j p => ev p (X j) == 1 /\ (forall i, (i < length xs)%nat -> i <> j -> ev p (X i) == 0) /\ wfp p /\ (length p <= length xs)%nat)) as (lag & E & H).
      - intros j Hj. apply in_seq in Hj. destruct (lagrange_poly_ok j) as (p & Ep & H1 & H2 & H3 & H4); [lia|]. rewrite Ep. cbn [rbind].
        destruct (mapM_red p H3) as (q & Eq & Hq & Wq). exists q. split; [exact Eq|].
        split; [rewrite <- (ev_proper p q (X j) (X j) Hq ltac:(reflexivity)); exact H1|].
        split; [intros i Hi Hne; rewrite <- (ev_proper p q (X i) (X i) Hq ltac:(reflexivity)); apply H2; assumption|].
        split; [exact Wq|]. rewrite <- (Forall2_len _ _ _ Hq). exact H4.
      - exists lag. split; [exact E|]. pose proof (Forall2_len _ _ _ H) as L. rewrite seq_length in L.
        assert (N : forall j, (j < length xs)%nat -> ev (nth j lag []) (X j) == 1 /\ (forall i, (i < length xs)%nat -> i <> j -> ev (nth j lag []) (X i) == 0) /\ wfp (nth j lag []) /\ (length (nth j lag []) <= length xs)%nat).
        { intros j Hj. assert (F2 : forall s l, Forall2 (fun j p => ev p (X j) == 1 /\ (forall i, (i < length xs)%nat -> i <> j -> ev p (X i) == 0) /\ wfp p /\ (length p <= length xs)%nat) (seq s (length l)) l ->
             forall k, (k < length l)%nat -> ev (nth k l []) (X (s + k)%nat) == 1 /\ (forall i, (i < length xs)%nat -> i <> (s + k)%nat -> ev (nth k l []) (X i) == 0) /\ wfp (nth k l []) /\ (length (nth k l []) <= length xs)%nat).
          { intros s l. revert s. induction l as [|p l IH]; intros s HF k Hk; [cbn in Hk; lia|]. cbn [length seq] in HF. inversion HF as [|? ? ? ? Hp HF']; subst.
            destruct k as [|k]; [rewrite Nat.add_0_r; exact Hp|]. cbn [nth]. replace (s + S k)%nat with (S s + k)%nat by lia. apply IH; [exact HF'|cbn in Hk; lia]. }
          apply (F2 0%nat lag); [rewrite <- L; exact H|lia]. }
        split; [lia|]. split; [|split].
        + intros j i Hj Hi. destruct (N j Hj) as (N1 & N2 & _). destruct (Nat.eqb_spec i j) as [->|Hne]; [exact N1|apply N2; assumption].
        + apply Forall_forall. intros p Hp. destruct (In_nth _ _ [] Hp) as (k & Hk & <-). apply N. lia.
        + apply Forall_forall. intros p Hp. destruct (In_nth _ _ [] Hp) as (k & Hk & <-). apply N. lia.
    Qed.
  End L.

  (** ** Interpolation *)
  Fixpoint lsum (lag : list (list A)) (ys : list A) (x : A) : A :=
    match lag, ys with p :: lag, y :: ys => ev p x * y + lsum lag ys x | _, _ => 0 end.
  Lemma interpolate_fold lag : forall ys acc x,
    ev (fold_left (fun res py => p_add O res (p_scale O (fst py) (snd py))) (combine lag ys) acc) x == ev acc x + lsum lag ys x.
  Proof.
    induction lag as [|p lag IH]; intros [|y ys] acc x; cbn [combine fold_left lsum]; try ring. rewrite IH, ev_add, ev_scale. cbn [fst snd]. ring.
  Qed.
  Lemma interpolate_ok lag ys : length ys = length lag ->
    exists p, interpolate O ys lag = Ok p /\ forall x, ev p x == lsum lag ys x.
  Proof.
    intros L. unfold interpolate. rewrite L, Nat.eqb_refl. cbn [negb]. eexists. split; [reflexivity|]. intros x. rewrite interpolate_fold, ev_nil. ring.
  Qed.
  Lemma interpolate_wf lag ys p n : interpolate O ys lag = Ok p -> Forall (Forall wf) lag -> Forall wf ys -> Forall (fun q => length q <= n)%nat lag ->
    Forall wf p /\ (length p <= n)%nat.
  Proof.
    unfold interpolate. destruct (negb _); [discriminate|]. intros E. injection E as <-. intros H1 H2 H3.
    assert (G : forall acc, Forall wf acc -> (length acc <= n)%nat ->
      Forall wf (fold_left (fun res py => p_add O res (p_scale O (fst py) (snd py))) (combine lag ys) acc) /\
      (length (fold_left (fun res py => p_add O res (p_scale O (fst py) (snd py))) (combine lag ys) acc) <= n)%nat).
    { revert ys H2. induction H1 as [|q lag Hq _ IH]; intros ys H2 acc Ha Hl; [cbn; auto|]. destruct ys as [|y ys]; [cbn; auto|]. cbn [combine fold_left fst snd].
      inversion_clear H2. inversion_clear H3. apply IH; auto; [apply wf_p_add; [exact Ha|apply wf_p_scale; assumption]|]. rewrite p_add_len, p_scale_len. lia. }
    apply G; [constructor|cbn; lia].
  Qed.
  Lemma lsum_add lag ys zs x : length ys = length zs -> lsum lag (map2 (oadd O) ys zs) x == lsum lag ys x + lsum lag zs x.
  Proof.
    revert ys zs. induction lag as [|p lag IH]; intros ys zs L; [cbn; ring|]. destruct ys as [|y ys], zs as [|z zs]; try discriminate; cbn [map2 lsum]; [ring|].
    rewrite IH by (injection L; auto). ring.
  Qed.
  Lemma lsum_proper lag ys zs x : Forall2 req ys zs -> lsum lag ys x == lsum lag zs x.
  Proof. intros H. revert lag. induction H as [|y z ys zs Hyz _ IH]; intros [|p lag]; cbn [lsum]; try reflexivity. rewrite IH, Hyz. reflexivity. Qed.
  (** Interpolation takes the prescribed values. *)
  Lemma lsum_point xs lag ys k : lagrange_ok xs lag -> length ys = length xs -> (k < length xs)%nat -> lsum lag ys (nth k xs 0) == nth k ys 0.
  Proof.
    intros (L & HE & _) Ly Hk.
    assert (G : forall s lag' ys', length lag' = length ys' -> (forall j, (j < length lag')%nat -> ev (nth j lag' []) (nth k xs 0) == if Nat.eqb k (s + j) then 1 else 0) ->
      lsum lag' ys' (nth k xs 0) == if (Nat.leb s k && Nat.ltb k (s + length ys'))%bool then nth (k - s) ys' 0 else 0).
    { intros s lag'. revert s. induction lag' as [|p lag' IH]; intros s ys' Ll Hj; destruct ys' as [|y ys']; try discriminate; cbn [lsum].
      - cbn [length]. rewrite Nat.add_0_r. destruct (Nat.leb_spec s k), (Nat.ltb_spec k s); cbn [andb]; try reflexivity; lia.
      - rewrite (IH (S s)); [|injection Ll; auto|intros j Hj'; rewrite (Hj (S j)) by (cbn; lia); replace (s + S j)%nat with (S s + j)%nat by lia; reflexivity].
        pose proof (Hj 0%nat ltac:(cbn; lia)) as H0. cbn [nth] in H0. rewrite H0, Nat.add_0_r. cbn [length].
        destruct (Nat.eqb_spec k s) as [->|Hne].
        + replace (Nat.leb s s && Nat.ltb s (s + S (length ys')))%bool with true by (symmetry; apply andb_true_intro; split; [apply Nat.leb_refl|apply Nat.ltb_lt; lia]).
          replace (Nat.leb (S s) s) with false by (symmetry; apply Nat.leb_gt; lia). cbn [andb]. rewrite Nat.sub_diag. cbn [nth]. ring.
        + destruct (Nat.leb_spec (S s) k) as [Hle|Hgt].
          * replace (Nat.leb s k) with true by (symmetry; apply Nat.leb_le; lia). cbn [andb]. replace (S s + length ys')%nat with (s + S (length ys'))%nat by lia.
            destruct (Nat.ltb k (s + S (length ys'))); [|ring]. replace (k - s)%nat with (S (k - S s)) by lia. cbn [nth]. ring.
          * replace (Nat.leb s k) with false by (symmetry; apply Nat.leb_gt; lia). cbn [andb]. ring. }
    rewrite (G 0%nat lag ys); [|lia|intros j Hj; apply HE; lia]. rewrite Nat.sub_0_r. cbn [Nat.leb andb]. replace (Nat.ltb k (0 + length ys)) with true by (symmetry; apply Nat.ltb_lt; lia). reflexivity.
  Qed.
End PolyProofs.
