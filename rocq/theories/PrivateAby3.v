(** Every interactive gate of the semi-honest engine hides what it sends behind randomness the receiver
    does not know. *)
From Verif Require Import Base Ring RingProofs BitArith Prog Sched Rel Rng Net BinTrait Iris Aby3 ShareSpec Aby3Proofs SlicedProofs ViewSpec Private PrivateOps.

Definition okS (K : Z) (s : share) : Prop := inr K (sa s) /\ inr K (sb s).
Definition okL (K : Z) (n : nat) (l : list share) : Prop := length l = n /\ Forall (okS K) l.

(** ** Masks: a value combined with a share of zero *)
Record maskop (K : Z) (op mk : Z -> Z -> Z) : Prop := {
  mo_mk : forall x y, inr K x -> inr K y -> inr K (mk x y);
  mo_in : forall c x y, inr K c -> inr K x -> inr K y -> inr K (op c (mk x y));
  mo_onto : forall c x u, inr K c -> inr K x -> inr K u -> exists y, inr K y /\ op c (mk x y) = u;
  mo_inj : forall c x y y', inr K c -> inr K x -> inr K y -> inr K y' -> op c (mk x y) = op c (mk x y') -> y = y' }.
Lemma mod_add_inj K a b c : 0 <= K -> inr K b -> inr K c -> (a + b) mod 2 ^ K = (a + c) mod 2 ^ K -> b = c.
Proof.
  intros HK Hb Hc H. pose proof (pow2_pos K HK) as P. assert (E : b mod 2 ^ K = c mod 2 ^ K).
  { replace b with ((a + b) - a) by lia. replace c with ((a + c) - a) by lia. rewrite Zminus_mod, H, <- Zminus_mod. reflexivity. }
  rewrite !Z.mod_small in E by assumption. exact E.
Qed.
Lemma maskop_add K : 0 <= K -> maskop K (radd K) (rsub K).
Proof.
  intros HK. constructor.
  - intros. apply inr_mod, HK.
  - intros. apply inr_mod, HK.
  - intros c x u Hc Hx Hu. exists (rsub K (radd K c x) u). split; [apply inr_mod, HK|].
    transitivity (u mod 2 ^ K); [|apply Z.mod_small, Hu]. modring.
  - intros c x y y' Hc Hx Hy Hy' H. symmetry. apply (mod_add_inj K (c + x - y - y')); [exact HK|exact Hy'|exact Hy|].
    transitivity (radd K c (rsub K x y)); [modring|]. rewrite H. modring.
Qed.
Lemma maskop_xor K : 0 <= K -> maskop K rxor rxor.
Proof.
  intros HK. unfold rxor. constructor.
  - intros. apply inr_lxor; auto.
  - intros. repeat apply inr_lxor; auto.
  - intros c x u Hc Hx Hu. exists (Z.lxor (Z.lxor c x) u). split; [repeat apply inr_lxor; auto|]. bitsolve.
  - intros c x y y' _ _ _ _ H. assert (E : forall z, z = Z.lxor (Z.lxor c x) (Z.lxor c (Z.lxor x z))) by (intros; bitsolve).
    rewrite (E y), (E y'), H. reflexivity.
Qed.
Section MaskL.
  Context (K : Z) (op mk : Z -> Z -> Z) (HM : maskop K op mk).
  Definition maskL (C x y : list Z) : list Z := map2 op C (map2 mk x y).
  Lemma fits_cons c a l : fits K (S c) (a :: l) <-> inr K a /\ fits K c l.
  Proof using. unfold fits. cbn [length]. split; [intros [H1 H2]; inversion H2; subst; auto|intros [H1 [H2 H3]]; split; [lia|constructor; assumption]]. Qed.
  Lemma fits_inv c l : fits K (S c) l -> exists a t, l = a :: t /\ inr K a /\ fits K c t.
  Proof using. intros H. destruct l as [|a t]; [destruct H; discriminate|]. apply fits_cons in H. destruct H. exists a, t. auto. Qed.
  Lemma fits_nil l : fits K 0 l -> l = [].
  Proof using. intros [H _]. destruct l; [reflexivity|discriminate]. Qed.
  Lemma maskL_fits c : forall C x y, fits K c C -> fits K c x -> fits K c y -> fits K c (maskL C x y).
  Proof using HM.
    induction c as [|c IH]; intros C x y HC Hx Hy.
    - apply fits_nil in HC. subst C. split; [reflexivity|constructor].
    - apply fits_inv in HC, Hx, Hy. destruct HC as (? & ? & -> & ? & ?), Hx as (? & ? & -> & ? & ?), Hy as (? & ? & -> & ? & ?).
      apply fits_cons. split; [apply (mo_in _ _ _ HM); assumption|apply IH; assumption].
  Qed.
  Lemma maskL_onto c : forall C x u, fits K c C -> fits K c x -> fits K c u -> exists y, fits K c y /\ maskL C x y = u.
  Proof using HM.
    induction c as [|c IH]; intros C x u HC Hx Hu.
    - apply fits_nil in HC, Hu. subst C u. exists []. split; [split; [reflexivity|constructor]|reflexivity].
    - apply fits_inv in HC, Hx, Hu. destruct HC as (c0 & C0 & -> & Hc & HC), Hx as (x0 & x1 & -> & Hx & Hx'), Hu as (u0 & u1 & -> & Hu & Hu').
      destruct (mo_onto _ _ _ HM c0 x0 u0 Hc Hx Hu) as (y0 & Hy0 & E0). destruct (IH C0 x1 u1 HC Hx' Hu') as (y1 & Hy1 & E1).
      exists (y0 :: y1). split; [apply fits_cons; auto|]. unfold maskL in *. cbn [map2]. rewrite E0, E1. reflexivity.
  Qed.
  Lemma maskL_inj c : forall C x y y', fits K c C -> fits K c x -> fits K c y -> fits K c y' -> maskL C x y = maskL C x y' -> y = y'.
  Proof using HM.
    induction c as [|c IH]; intros C x y y' HC Hx Hy Hy' H.
    - apply fits_nil in Hy, Hy'. congruence.
    - apply fits_inv in HC, Hx, Hy, Hy'. destruct HC as (c0 & C0 & -> & Hc & HC), Hx as (x0 & x1 & -> & Hx & Hx'), Hy as (u0 & u1 & -> & Hu & Hu'), Hy' as (v0 & v1 & -> & Hv & Hv').
      unfold maskL in *. cbn [map2] in H. injection H as H1 H2. f_equal; [eapply (mo_inj _ _ _ HM); [| | | |exact H1]; assumption|].
      eapply IH; [| | | |exact H2]; assumption.
  Qed.
End MaskL.

Section Gates.
  Variable i : pid.
  Notation MT := (M (prf tape)).

  (** ** Masked exchanges are private *)
  Lemma pp_exchange {T A} K op mk c enc out (D : T -> Prop) (f : pid -> T -> MT A) (C : pid -> T -> list Z) (E : A -> Prop) :
    0 <= K -> maskop K op mk ->
    (forall j x, D x -> fits K c (C j x)) ->
    (forall j x u v, D x -> exists kk, f j x (Prf tape u v) = Send (next j) (enc (maskL op mk (C j x) (vals K c u) (vals K c v))) (Recv (prev j) kk) /\
       forall l, fits K c l -> kk (enc l) = Ret (Prf tape (skipn (sz K c) u) (skipn (sz K c) v), out (maskL op mk (C j x) (vals K c u) (vals K c v)) l)) ->
    (forall l l', fits K c l -> fits K c l' -> enc l = enc l' -> l = l') ->
    (forall l l', fits K c l -> fits K c l' -> E (out l l')) ->
    ppriv i D f (fun _ r => E r).
  Proof.
    intros HK HM HC Hf Henc HE. exists (sz K c), 1%nat. intros X X' HX HX' HXX.
    assert (HP : forall Y, (forall j, D (Y j)) -> exchange K c enc out (fun j => f j (Y j)) (fun j => maskL op mk (C j (Y j)))).
    { intros Y HY. split; [intros j u v; apply Hf, HY|]. intros j x y Hx Hy. apply maskL_fits; auto. }
    eapply coup_mono; [|apply (exchange_coup i K c enc out _ _ _ _ HK (HP X HX) (HP X' HX') Henc)].
    - intros R R' [H1 H2]. split; intros j; [destruct (H1 j) as (l & l' & F1 & F2 & ->)|destruct (H2 j) as (l & l' & F1 & F2 & ->)]; apply HE; assumption.
    - intros x y. rewrite HXX. reflexivity.
    - intros x u Hx Hu. apply (maskL_onto K); auto.
    - intros x y y' Hx Hy Hy' H. eapply (maskL_inj K op mk HM); [| | | |exact H]; auto.
  Qed.

  (** *** One value *)
  Definition gen (K : Z) (mk : Z -> Z -> Z) : MT Z := bindM (gen_rands tape K) (fun ab => retM (mk (fst ab) (snd ab))).
  Lemma gen_tape K mk u v : 0 <= K -> gen K mk (Prf tape u v) = Ret (Prf tape (skipn (Z.to_nat K) u) (skipn (Z.to_nat K) v), mk (val1 K u) (val1 K v)).
  Proof. intros HK. unfold gen, bindM, gen_rands. cbn [my_prf next_prf]. rewrite !draw_tape by exact HK. reflexivity. Qed.
  Lemma bindM_ret_l {S A B} (p : M S A) (g : A -> M S B) s s' a : p s = Ret (s', a) -> bindM p g s = g a s'.
  Proof. intros H. unfold bindM. rewrite H. reflexivity. Qed.
  Lemma sz1 K : sz K 1 = Z.to_nat K.
  Proof. unfold sz. lia. Qed.
  Lemma pp_one {T} K op mk (D : T -> Prop) (C : pid -> T -> Z) : In K widths -> maskop K op mk ->
    (forall j x, D x -> inr K (C j x)) ->
    ppriv i D (fun j x => bindM (gen K mk) (fun r => reshare tape j K (op (C j x) r))) (fun _ r => okS K r).
  Proof.
    intros HW HM HC. assert (HK : 0 <= K) by (pose proof (width_pos K HW); lia).
    apply (pp_exchange K op mk 1 (fun l => to_bytes K (hd 0 l)) (fun l l' => Share (hd 0 l) (hd 0 l')) D _ (fun j x => [C j x]) (okS K) HK HM).
    - intros j x Hx. split; [reflexivity|]. constructor; [apply HC, Hx|constructor].
    - intros j x u v Hx. eexists. split.
      + rewrite (bindM_ret_l _ _ _ _ _ (gen_tape K mk u v HK)). unfold reshare, bindM, liftM, send_and_receive_value, send_and_receive. cbn [bind]. reflexivity.
      + intros l Hl. apply fits_inv in Hl. destruct Hl as (a & t & -> & Ha & Ht). cbn [hd bind]. cbn beta.
        rewrite from_to_bytes by assumption. cbn [of_res bind fst snd]. rewrite sz1. reflexivity.
    - intros l l' Hl Hl' H. apply fits_inv in Hl, Hl'. destruct Hl as (a & t & -> & Ha & Ht), Hl' as (a' & t' & -> & Ha' & Ht').
      apply fits_nil in Ht, Ht'. subst t t'. cbn [hd] in H. pose proof (from_to_bytes K a HW Ha) as E. rewrite H, from_to_bytes in E by assumption. congruence.
    - intros l l' Hl Hl'. apply fits_inv in Hl, Hl'. destruct Hl as (a & t & -> & Ha & Ht), Hl' as (a' & t' & -> & Ha' & Ht'). split; assumption.
  Qed.

  (** *** Many values *)
  Lemma skipn_sz {A} K c (u : list A) : skipn (sz K c) (skipn (Z.to_nat K) u) = skipn (sz K (S c)) u.
  Proof. rewrite skipn_add. unfold sz. cbn [Nat.mul]. reflexivity. Qed.
  Lemma gens_tape {U V} K op mk (C : U -> V -> Z) (g : U -> V -> Z -> MT Z) : 0 <= K -> maskop K op mk -> forall (a : list U) (b : list V) u v,
    length b = length a ->
    (forall x y, In (x, y) (combine a b) -> forall r s, inr K r -> g x y r s = Ret (s, op (C x y) r)) ->
    mapM2 (fun x y => bindM (gen K mk) (g x y)) a b (Prf tape u v) =
    Ret (Prf tape (skipn (sz K (length a)) u) (skipn (sz K (length a)) v), maskL op mk (map2 C a b) (vals K (length a) u) (vals K (length a) v)).
  Proof.
    intros HK HM. induction a as [|x a IH]; intros [|y b] u v Hl Hg; try discriminate.
    - reflexivity.
    - cbn [mapM2]. unfold bindM at 1. rewrite (bindM_ret_l _ _ _ _ _ (gen_tape K mk u v HK)), Hg by (first [left; reflexivity|apply (mo_mk _ _ _ HM); apply val1_range, HK]). cbn [bind fst snd].
      unfold bindM at 1. rewrite (IH b); [|cbn in Hl; lia|intros x0 y0 H0; apply Hg; right; exact H0]. cbn [bind fst snd length retM].
      rewrite !skipn_sz. reflexivity.
  Qed.
  Lemma Forall2_rep {A B} (P : A -> B -> Prop) l l' : length l = length l' -> Forall (fun xy => P (fst xy) (snd xy)) (combine l l') -> Forall2 P l l'.
  Proof. revert l'. induction l as [|a l IH]; intros [|b l'] H HF; try discriminate; constructor; inversion HF; subst; auto. Qed.
  Lemma okL_shares K c l l' : fits K c l -> fits K c l' -> okL K c (map2 Share l l').
  Proof.
    revert l l'. induction c as [|c IH]; intros l l' Hl Hl'.
    - apply fits_nil in Hl. subst l. split; [reflexivity|constructor].
    - apply fits_inv in Hl, Hl'. destruct Hl as (a & t & -> & Ha & Ht), Hl' as (a' & t' & -> & Ha' & Ht').
      destruct (IH t t' Ht Ht') as [H1 H2]. split; [cbn [map2 length]; lia|]. constructor; [split; assumption|exact H2].
  Qed.
  Lemma pp_many {T U V} K op mk c (D : T -> Prop) (F : T -> list U) (H : T -> list V) (C : pid -> T -> U -> V -> Z) (g : pid -> T -> U -> V -> Z -> MT Z) :
    In K widths -> maskop K op mk ->
    (forall x, D x -> length (F x) = c /\ length (H x) = c) ->
    (forall j x a b, D x -> In (a, b) (combine (F x) (H x)) -> inr K (C j x a b) /\ forall r s, inr K r -> g j x a b r s = Ret (s, op (C j x a b) r)) ->
    ppriv i D (fun j x => bindM (mapM2 (fun a b => bindM (gen K mk) (g j x a b)) (F x) (H x)) (reshare_many tape j K)) (fun _ r => okL K c r).
  Proof.
    intros HW HM HL HC. assert (HK : 0 <= K) by (pose proof (width_pos K HW); lia).
    apply (pp_exchange K op mk c (ring_slice_to_bytes K) (fun l l' => map2 Share l l') D _ (fun j x => map2 (C j x) (F x) (H x)) (okL K c) HK HM).
    - intros j x Hx. destruct (HL x Hx) as [L1 L2]. pose proof (fun a b Hab => proj1 (HC j x a b Hx Hab)) as G. revert L1 L2 G. generalize (F x) (H x). clear.
      induction c as [|c IH]; intros l l' L1 L2 G; destruct l as [|a l], l' as [|b l']; try discriminate; [split; [reflexivity|constructor]|].
      cbn [map2]. apply fits_cons. split; [apply G; left; reflexivity|]. apply IH; [cbn in L1; lia|cbn in L2; lia|]. intros; apply G; right; assumption.
    - intros j x u v Hx. destruct (HL x Hx) as [L1 L2].
      assert (Hfit : forall u v, fits K c (maskL op mk (map2 (C j x) (F x) (H x)) (vals K c u) (vals K c v))).
      { intros u0 v0. apply maskL_fits; [exact HM| |apply vals_fits, HK|apply vals_fits, HK].
        pose proof (fun a b Hab => proj1 (HC j x a b Hx Hab)) as G. revert L1 L2 G. generalize (F x) (H x). clear.
        induction c as [|c IH]; intros l l' L1 L2 G; destruct l as [|a l], l' as [|b l']; try discriminate; [split; [reflexivity|constructor]|].
        cbn [map2]. apply fits_cons. split; [apply G; left; reflexivity|]. apply IH; [cbn in L1; lia|cbn in L2; lia|]. intros; apply G; right; assumption. }
      pose proof (gens_tape K op mk (C j x) (g j x) HK HM (F x) (H x) u v ltac:(congruence) (fun a b Hab => proj2 (HC j x a b Hx Hab))) as E.
      rewrite L1 in E. eexists. split.
      + rewrite (bindM_ret_l _ _ _ _ _ E). unfold reshare_many, bindM, liftM, send_slice_and_receive_iter, send_and_receive. cbn [bind]. reflexivity.
      + intros l [Ll Hl]. cbn [bind]. cbn beta. rewrite (proj1 (Hfit u v)), <- Ll.
        rewrite iter_roundtrip by assumption. cbn [of_res bind fst snd]. rewrite Ll. reflexivity.
    - intros l l' [Ll Hl] [Ll' Hl'] E. pose proof (iter_roundtrip K l HW Hl) as Q. rewrite E, Ll, <- Ll', iter_roundtrip in Q by assumption. congruence.
    - intros l l' Hl Hl'. apply okL_shares; assumption.
  Qed.

  (** ** The gates *)
  Notation pair2 Q := (fun z => Q (fst z) /\ Q (snd z)).
  Section Width.
    Context (K : Z) (HW : In K widths).
    Lemma HK0 : 0 <= K. Proof using HW. pose proof (width_pos K HW). lia. Qed.
    Lemma local_mul_in x y : inr K (local_mul K x y).
    Proof using HW. unfold local_mul, radd, rmul. apply inr_mod, HK0. Qed.
    Lemma local_and_in x y : okS K x -> okS K y -> inr K (local_and x y).
    Proof using HW. intros [? ?] [? ?]. unfold local_and, rxor, rand_. pose proof HK0. repeat first [apply inr_lxor|apply inr_land]; auto. Qed.

    Lemma pp_mul : ppriv i (fun _ : share * share => True) (fun j z => mul tape j K (fst z) (snd z)) (fun _ r => okS K r).
    Proof using HW.
      apply (pp_one K (radd K) (rsub K) _ (fun _ z => local_mul K (fst z) (snd z)) HW (maskop_add K HK0)).
      intros j z _. apply local_mul_in.
    Qed.
    Lemma pp_and : ppriv i (pair2 (okS K)) (fun j z => and_ tape j K (fst z) (snd z)) (fun _ r => okS K r).
    Proof using HW.
      apply (pp_one K rxor rxor _ (fun _ z => local_and (fst z) (snd z)) HW (maskop_xor K HK0)).
      intros j z [H1 H2]. apply local_and_in; assumption.
    Qed.
    Lemma pp_input p : ppriv i (inr K) (fun j x => input tape j K (if pid_eqb j p then Some x else None) (pid_num p)) (fun _ r => okS K r).
    Proof using HW.
      eapply pp_eq; [apply (pp_one K (radd K) (rsub K) (inr K) (fun j x => if pid_eqb j p then x else 0) HW (maskop_add K HK0))|].
      - intros j x Hx. destruct (pid_eqb j p); [exact Hx|]. pose proof (pow2_pos K HK0). unfold inr. lia.
      - intros j x [u v] Hx. unfold input. replace (3 <=? pid_num p) with false by (destruct p; reflexivity).
        unfold gen_zero_share. fold (gen K (rsub K)). rewrite !(bindM_ret_l _ _ _ _ _ (gen_tape K (rsub K) u v HK0)).
        assert (R0 : inr K (rsub K (val1 K u) (val1 K v))) by apply inr_mod, HK0.
        replace (pid_num p =? pid_num j) with (pid_eqb j p) by (destruct p, j; reflexivity).
        destruct (pid_eqb j p); unfold bindM at 1; unfold retM at 1; cbn [bind fst snd]; f_equal.
        + unfold radd. rewrite Z.add_comm. reflexivity.
        + unfold radd. rewrite Z.add_0_l. symmetry. apply Z.mod_small, R0.
    Qed.
    Lemma pp_mul_many c : ppriv i (fun z => length (fst z) = c /\ length (snd z) = c)
      (fun j z => mul_many tape j K (fst z) (snd z)) (fun _ r => okL K c r).
    Proof using HW.
      apply (pp_many K (radd K) (rsub K) c _ fst snd (fun _ _ => local_mul K) (fun _ _ x y r => retM (radd K (local_mul K x y) r)) HW (maskop_add K HK0)).
      - intros z Hz. exact Hz.
      - intros j z a b _ _. split; [apply local_mul_in|reflexivity].
    Qed.
    Lemma pp_and_many c : ppriv i (pair2 (okL K c)) (fun j z => and_many tape j K (fst z) (snd z)) (fun _ r => okL K c r).
    Proof using HW.
      eapply pp_eq; [apply (pp_many K rxor rxor c (pair2 (okL K c)) fst snd (fun _ _ => local_and) (fun _ _ x y r => retM (rxor (local_and x y) r)) HW (maskop_xor K HK0))|].
      - intros z [[H _] [H' _]]. auto.
      - intros j z a b [[_ H] [_ H']] Hab. split; [|reflexivity]. rewrite Forall_forall in H, H'.
        apply local_and_in; [apply H; eapply in_combine_l; exact Hab|apply H'; eapply in_combine_r; exact Hab].
      - intros j z s [[H _] [H' _]]. unfold and_many. rewrite H, H', Nat.eqb_refl. reflexivity.
    Qed.
    (** A sum started at the mask is the sum plus the mask. *)
    Lemma fold_start {U} (h : U -> Z) (q : U -> bool) l : forall c d,
      fold_left (fun c x => if q x then radd K c (h x) else c) l (radd K c d) =
      radd K (fold_left (fun c x => if q x then radd K c (h x) else c) l c) d.
    Proof using HW.
      induction l as [|x l IH]; intros c d; [reflexivity|]. cbn [fold_left]. destruct (q x); [|apply IH].
      rewrite <- IH. f_equal. modring.
    Qed.
    Lemma fold_in {U} (h : U -> Z) (q : U -> bool) l : forall c, inr K c -> inr K (fold_left (fun c x => if q x then radd K c (h x) else c) l c).
    Proof using HW. induction l as [|x l IH]; intros c Hc; [exact Hc|]. cbn [fold_left]. apply IH. destruct (q x); [apply inr_mod, HK0|exact Hc]. Qed.
    Lemma zero_in : inr K 0.
    Proof using HW. pose proof (pow2_pos K HK0). unfold inr. lia. Qed.
    Definition dsum (l : list (share * share)) : Z -> Z := fold_left (fun c xy => radd K c (local_mul K (fst xy) (snd xy))) l.
    Lemma dsum_start l r : inr K r -> dsum l r = radd K (dsum l 0) r.
    Proof using HW.
      intros Hr. pose proof (fold_start (fun xy => local_mul K (fst xy) (snd xy)) (fun _ => true) l 0 r) as E. cbn beta iota in E.
      unfold dsum. rewrite <- E. f_equal. unfold radd. rewrite Z.add_0_l. symmetry. apply Z.mod_small, Hr.
    Qed.
    Lemma dsum_in l : inr K (dsum l 0).
    Proof using HW. apply (fold_in (fun xy => local_mul K (fst xy) (snd xy)) (fun _ => true) l 0 zero_in). Qed.
    Lemma pp_dot c : ppriv i (fun z => length (fst z) = c /\ length (snd z) = c) (fun j z => dot tape j K (fst z) (snd z)) (fun _ r => okS K r).
    Proof using HW.
      eapply pp_eq; [apply (pp_one K (radd K) (rsub K) (fun z => length (fst z) = c /\ length (snd z) = c) (fun _ z => dsum (combine (fst z) (snd z)) 0) HW (maskop_add K HK0))|].
      - intros j z _. apply dsum_in.
      - intros j z [u v] [H H']. unfold dot. rewrite H, H', Nat.eqb_refl. cbn [negb]. unfold gen_zero_share. fold (gen K (rsub K)).
        rewrite !(bindM_ret_l _ _ _ _ _ (gen_tape K (rsub K) u v HK0)). rewrite <- dsum_start by apply inr_mod, HK0. reflexivity.
    Qed.
    Lemma pp_dot_many c : ppriv i (fun z => length (fst z) = c /\ length (snd z) = c /\ Forall2 (fun x y => length x = length y) (fst z) (snd z))
      (fun j z => dot_many tape j K (fst z) (snd z)) (fun _ r => okL K c r).
    Proof using HW.
      eapply pp_eq; [apply (pp_many K (radd K) (rsub K) c (fun z => length (fst z) = c /\ length (snd z) = c /\ Forall2 (fun x y => length x = length y) (fst z) (snd z))
          fst snd (fun _ _ x y => dsum (combine x y) 0)
          (fun _ _ x y r => if negb (Nat.eqb (length x) (length y)) then failM EInvalidSize
             else retM (fold_left (fun c xy => radd K c (local_mul K (fst xy) (snd xy))) (combine x y) r)) HW (maskop_add K HK0))|].
      - intros z (H & H' & _). auto.
      - intros j z a b (_ & _ & H) Hab. split; [apply dsum_in|]. intros r s Hr.
        assert (E : length a = length b). { clear - H Hab. induction H as [|x y l l' Hxy HF IH]; [destruct Hab|]. destruct Hab as [[= <- <-]|Hab]; auto. }
        rewrite E, Nat.eqb_refl. cbn [negb]. rewrite <- dsum_start by exact Hr. reflexivity.
      - intros j z s (H & H' & _). unfold dot_many. rewrite H, H', Nat.eqb_refl. reflexivity.
    Qed.
    Lemma pp_masked_dot_many c masks : length masks = c -> (forall m, In m masks -> exists bs, bits m = Ok bs) ->
      ppriv i (fun z => length (fst z) = IRIS_CODE_SIZE /\ length (snd z) = c /\ Forall (fun y => length y = IRIS_CODE_SIZE) (snd z))
        (fun j z => masked_dot_many tape j K (fst z) (snd z) masks) (fun _ r => okL K c r).
    Proof using HW.
      intros Hm Hb.
      pose (msum := fun (x : list share) (y : list share) (m : code) => fold_left (fun (c : Z) (xyb : share * share * bool) => if snd xyb then radd K c (local_mul K (fst (fst xyb)) (snd (fst xyb))) else c)
                       (combine (combine x y) (match bits m with Ok bs => bs | Err _ => [] end))).
      eapply pp_eq; [apply (pp_many K (radd K) (rsub K) c (fun z : list share * list (list share) => length (fst z) = IRIS_CODE_SIZE /\ length (snd z) = c /\ Forall (fun y => length y = IRIS_CODE_SIZE) (snd z))
          snd (fun _ => masks) (fun _ z y m => msum (fst z) y m 0)
          (fun _ z y mask r => if negb (Nat.eqb (length (fst z)) (length y)) then failM EInvalidSize
             else bindM (resM (bits mask)) (fun bs => retM (fold_left (fun (c : Z) (xyb : share * share * bool) => if snd xyb then radd K c (local_mul K (fst (fst xyb)) (snd (fst xyb))) else c)
                       (combine (combine (fst z) y) bs) r))) HW (maskop_add K HK0))|].
      - intros z (H & H' & _). auto.
      - intros j z y m (H1 & H2 & H3) Hab. split.
        + apply (fold_in (fun xyb => local_mul K (fst (fst xyb)) (snd (fst xyb))) (fun xyb => snd xyb) _ 0 zero_in).
        + intros r s Hr. assert (E : length y = IRIS_CODE_SIZE). { rewrite Forall_forall in H3. apply H3. eapply in_combine_l. exact Hab. }
          rewrite H1, E, Nat.eqb_refl. cbn [negb]. destruct (Hb m) as [bs Hbs]; [eapply in_combine_r; exact Hab|].
          unfold bindM, resM, liftM, retM, msum. rewrite Hbs. cbn [bind of_res fst snd]. f_equal. f_equal.
          pose proof (fold_start (fun xyb => local_mul K (fst (fst xyb)) (snd (fst xyb))) (fun xyb => snd xyb) (combine (combine (fst z) y) bs) 0 r) as Q. cbn beta in Q.
          rewrite <- Q. f_equal. unfold radd. rewrite Z.add_0_l. symmetry. apply Z.mod_small, Hr.
      - intros j z s (H & H' & _). unfold masked_dot_many. rewrite H, Nat.eqb_refl. reflexivity.
    Qed.
  End Width.
End Gates.
