(** Soundness of the proofs over Galois rings. *)
From Coq Require Import Ring Setoid Morphisms Nnat.
From Verif Require Import Base Ring RingProofs Gf2 Gf2Proofs Gf2Field Poly PolyProofs PolyRing PolyDiv PolyRem PolyPar Galois GaloisSpec GaloisPoints GaloisDzkp Swift3 Dzkp DzkpProofs DzkpSound DzkpSpec DzkpAnd.
Local Open Scope list_scope.

Lemma search_below (P : Z -> Prop) : (forall c, P c \/ ~ P c) -> forall B : nat, (exists c, 0 <= c < Z.of_nat B /\ P c) \/ (forall c, 0 <= c < Z.of_nat B -> ~ P c).
Proof.
  intros D. induction B as [|B [IH|IH]].
  - right. intros c Hc. lia.
  - left. destruct IH as (c & Hc & HP). exists c. split; [lia|exact HP].
  - destruct (D (Z.of_nat B)) as [HP|HP]; [left; exists (Z.of_nat B); split; [lia|exact HP]|]. right. intros c Hc. destruct (Z.eq_dec c (Z.of_nat B)) as [->|]; [exact HP|]. apply IH. lia.
Qed.
Lemma search_elements K d : forall P : list Z -> Prop, (forall t, P t \/ ~ P t) -> (exists t, element K d t /\ P t) \/ (forall t, element K d t -> ~ P t).
Proof.
  induction d as [|d IH]; intros P D.
  - destruct (D []) as [H|H]; [left; exists []; split; [split; [reflexivity|constructor]|exact H]|right]. intros t (L & _). destruct t; [exact H|discriminate].
  - destruct (search_below (fun c => exists t, element K d t /\ P (c :: t))) with (B := Z.to_nat (2 ^ K)) as [H|H].
    + intros c. destruct (IH (fun t => P (c :: t))) as [H|H]; [intros t; apply D|left; exact H|right]. intros (t & Et & Pt). exact (H t Et Pt).
    + left. destruct H as (c & Hc & t & (L & W) & HP). exists (c :: t). split; [|exact HP]. split; [cbn; congruence|]. constructor; [|exact W]. unfold inr. lia.
    + right. intros t (L & W) HP. destruct t as [|c t]; [discriminate|]. inversion_clear W as [|? ? Wc Wt]. apply (H c); [unfold inr in Wc; lia|]. exists t. split; [split; [cbn in L; lia|exact Wt]|exact HP].
Qed.
Lemma same_par p q : same_mod2 p q <-> par p = par q.
Proof.
  split; [intros H; apply par_ext, H|]. intros E i. rewrite <- !par_bit, E. reflexivity.
Qed.
Lemma replaced_wf {A} (P : A -> Prop) k x l : Forall P l -> P x -> Forall P (replaced k x l).
Proof.
  intros H Hx. unfold replaced. apply Forall_app. split; [|constructor; [exact Hx|]]; apply Forall_forall; intros y Hy; rewrite Forall_forall in H; apply H.
  - rewrite <- (firstn_skipn k l). apply in_or_app. left. exact Hy.
  - rewrite <- (firstn_skipn (S k) l). apply in_or_app. right. exact Hy.
Qed.
Lemma replaced_len {A} k (x : A) l : (k < length l)%nat -> length (replaced k x l) = length l.
Proof. intros H. unfold replaced. rewrite app_length. cbn [length]. rewrite firstn_length, skipn_length. lia. Qed.

Section GSound.
  Variable K : Z.
  Hypothesis HS : In K small_widths.
  Notation HW := (small_in K HS).
  Notation HK := (widths_pos K HW).
  Variables (m : nat) (f : list Z).
  Notation d := (mod_degree m).
  Hypothesis Hf : irreducible_poly d = Ok f.
  Notation req := (req K d f).
  Notation wf := (Forall (inr K)).
  Notation G := (galois_ok K HS d f).
  Notation O := (pz_ops K).
  Notation red := (fun c => p_rem K c f).
  Variable n : nat.
  Hypothesis Hn : (0 < n)%nat.
  Variable cf : forall B : Type, rops B -> list B -> B.
  Hypothesis Hcf : cf_ok O req wf cf.
  Variable l : nat.
  Local Instance req_equiv9 : Equivalence req := rk_equiv _ _ _ G.

  Lemma diff_unit p q : element K d p -> element K d q -> ~ same_mod2 p q -> unit O req (osub O p q).
  Proof using HS Hf.
    intros (Lp & Wp) (Lq & Wq) H. destruct (mod_inverse_ok K HS d f Hf (p_sub (zk_ops K) p q)) as (v & _ & E & _).
    - apply (rk_wfsub _ _ _ G); assumption.
    - rewrite p_sub_len, Lp, Lq, Nat.max_id. apply Nat.le_refl.
    - rewrite (par_sub K HK). intros E. apply H, same_par, N.lxor_eq, E.
    - exists v. exact E.
  Qed.
  Lemma same_dec p q : same_mod2 p q \/ ~ same_mod2 p q.
  Proof. destruct (N.eq_dec (par p) (par q)) as [E|E]; [left|right; intros H; apply E]; apply same_par; assumption. Qed.
  Lemma different_spread rs : Forall (element K d) rs -> different_mod2 rs -> spread O req rs.
  Proof using HS Hf.
    induction 1 as [|r rs Hr Hrs IH]; cbn; [auto|]. intros [D1 D2]. split; [|apply IH, D2]. apply Forall_forall. intros r' Hr'. rewrite Forall_forall in Hrs.
    apply diff_unit; [apply Hrs, Hr'|exact Hr|apply D1, Hr'].
  Qed.
  Lemma gsem_wf9 thetas rs : Forall wf thetas -> Forall (Forall wf) rs -> wf (gsem O cf thetas rs).
  Proof using HS Hcf.
    intros Wt Wr. revert thetas Wt. induction Wr as [|r rs Hr _ IH]; intros [|t ts] Wt; try constructor. cbn [gsem]. inversion_clear Wt.
    apply (rk_wfadd _ _ _ G); [|apply IH; assumption]. apply (rk_wfmul _ _ _ G); [apply (cf_wf _ _ _ _ Hcf), Hr|assumption].
  Qed.
  Theorem galois_sound V1 V2 thetas j k :
    shape n l m V1 -> shape n l m V2 -> wfi wf V1 -> wfi wf V2 -> polys K l thetas -> (j < l)%nat -> (k < m)%nat ->
    ~ req (cf (list Z) O (nth (j * m + k) (add_inputs O V1 V2) [])) [] ->
    exists bad, forall theta, element K d theta -> ~ same_mod2 theta bad ->
    forall p1 p2, gr_share K n l m p1 -> gr_share K n l m p2 ->
    let accepted betas r := elements K d m betas /\ element K d r /\ gr_check K f n cf l m V1 V2 (replaced j theta thetas) betas r p1 p2 = Ok tt in
    (forall rs, different_mod2 rs -> (forall r, In r rs -> exists betas, accepted betas r) -> (length rs <= 2 * m)%nat) \/
    (forall betas b b' r r', length betas = m -> accepted (replaced k b betas) r -> accepted (replaced k b' betas) r' -> same_mod2 b b').
  Proof using HS Hf Hn Hcf.
    intros HV1 HV2 WV1 WV2 (Lt & Wt) Hj Hk Herr. set (V := add_inputs O V1 V2) in *.
    assert (WV : wfi wf V).
    { unfold wfi, V, add_inputs. apply (IrisProofs.map2_Forall _ (Forall wf) (Forall wf)); auto. intros x y Hx Hy. apply (IrisProofs.map2_Forall _ wf wf wf); auto. apply (rk_wfadd _ _ _ G). }
    assert (Wc : Forall (Forall wf) (column l m V k)).
    { unfold column. apply Forall_forall. intros v Hv. apply in_map_iff in Hv. destruct Hv as (i & <- & _). unfold wfi in WV. rewrite Forall_forall in WV.
      destruct (nth_in_or_default (i * m + k) V []) as [H|H]; [apply WV, H|rewrite H; constructor]. }
    set (val := fun t => gsem O cf (replaced j t thetas) (column l m V k)).
    assert (Wval : forall t, wf t -> wf (val t)) by (intros t W; apply gsem_wf9; [apply replaced_wf; assumption|exact Wc]).
    assert (Hbad : exists bad, forall theta, element K d theta -> ~ same_mod2 theta bad -> ~ req (val theta) []).
    { destruct (search_elements K d (fun t => p_rem K (val t) f = Ok [0])) as [H|H].
      - intros t. destruct (p_rem K (val t) f) as [r|e]; [|right; discriminate]. destruct (list_eq_dec Z.eq_dec r [0]) as [->|N]; [left; reflexivity|right; congruence].
      - destruct H as (t0 & Ht0 & E0). exists t0. intros t Ht Hne Hz. destruct Ht0 as (L0 & W0). pose proof Ht as (L & W).
        destruct (rem_ok K HS d f Hf (val t0) (Wval t0 W0)) as (r & Er & Cr & _). rewrite E0 in Er. injection Er as <-.
        assert (Z0 : req (val t0) []). { rewrite Cr. apply (geq_of K HW). intros [|[|i]]; reflexivity. }
        refine (column_sound O req wf G cf l m V thetas t0 t j k Lt Hj Herr Z0 Hz _). apply diff_unit; [exact Ht|split; assumption|exact Hne].
      - exists []. intros t Ht _ Hz. apply (H t Ht). pose proof Ht as (L & W). destruct (f_split K HS d f Hf) as (Ef & Ll & _ & _ & _ & R).
        rewrite Ef. rewrite (p_rem_unique K HW (low d f) ltac:(lia) (val t) [] (Wval t W) ltac:(constructor) Hz). rewrite <- Ef.
        destruct (rem_ok K HS d f Hf [] ltac:(constructor)) as (r & Er & Cr & Wr). destruct (rem_canonical K HS d f Hf [] r ltac:(constructor) Er) as (Sr & Lr). rewrite Er. f_equal.
        rewrite <- Sr. change [0] with (p_shrink (zk_ops K) []). apply (shrink_unique K HK); [exact Wr|constructor|]. apply (small_eq K HW (low d f)); [lia|cbn; lia|symmetry; exact Cr]. }
    destruct Hbad as (bad & Hbad). exists bad. intros theta Ht Hne p1 p2 ((Lw1 & Ww1) & (La1 & Wa1)) ((Lw2 & Ww2) & (La2 & Wa2)) accepted.
    destruct (gr_lagrange_ok K HS d m f Hf (mod_degree_size m)) as (lag & El & Hl).
    assert (Wel : forall ps k', elements K d k' ps -> Forall wf ps) by (intros ps k' (_ & H); apply Forall_forall; intros x Hx; rewrite Forall_forall in H; apply H, Hx).
    assert (Hck : forall betas r, gr_check K f n cf l m V1 V2 (replaced j theta thetas) betas r p1 p2 = check O cf red n (mul_points (m + 1)) lag l m zlist_eqb V1 V2 (replaced j theta thetas) betas r p1 p2).
    { intros betas r. unfold gr_check, gr_verdicts, check. rewrite El. cbn [rbind]. unfold gr_verify_pi, gr_combine.
      destruct (verify_pi O red n l m betas r lag (mul_points (m + 1)) V1 p1); cbn [rbind]; [|reflexivity]. destruct (verify_pi O red n l m betas r lag (mul_points (m + 1)) V2 p2); reflexivity. }
    destruct (check_sound O req wf G cf red (rem_ok K HS d f Hf) n Hn Hcf (mul_points (m + 1)) lag (points_wf K HS m) Hl l m (mul_points_len m) zlist_eqb) with
      (V1 := V1) (V2 := V2) (thetas := replaced j theta thetas) (p1 := p1) (p2 := p2) (k := k) as [H|H]; auto.
    - intros a b E. apply zlist_eqb_eq in E. subst b. reflexivity.
    - apply (galois_dec K HS d f Hf).
    - rewrite replaced_len by lia. exact Lt.
    - apply replaced_wf; [exact Wt|apply Ht].
    - repeat split; assumption.
    - repeat split; assumption.
    - apply Hbad; assumption.
    - left. intros rs D Hacc. apply H.
      + apply different_spread; [|exact D]. apply Forall_forall. intros r Hr. destruct (Hacc r Hr) as (b & _ & Wr & _). exact Wr.
      + apply Forall_forall. intros r Hr. destruct (Hacc r Hr) as (b & Hb & Wr & E). exists b. split; [apply Hb|]. split; [eapply Wel, Hb|]. split; [apply Wr|]. rewrite <- Hck. exact E.
    - right. intros betas b b' r r' Lb (Hb1 & Wr & E) (Hb2 & Wr' & E'). destruct (same_dec b b') as [S|S]; [exact S|exfalso].
      assert (Wx : forall x y, Forall (element K d) (replaced k x y) -> element K d x) by (intros x y W; unfold replaced in W; apply Forall_app in W; destruct W as [_ W]; inversion_clear W; assumption).
      apply (H betas b b' r r' Lb).
      + split; [apply Hb1|]. split; [eapply Wel, Hb1|]. split; [apply Wr|]. etransitivity; [symmetry; apply Hck|exact E].
      + split; [apply Hb2|]. split; [eapply Wel, Hb2|]. split; [apply Wr'|]. etransitivity; [symmetry; apply Hck|exact E'].
      + apply diff_unit; [eapply Wx, Hb2|eapply Wx, Hb1|]. intros X. apply S. apply same_par. symmetry. apply same_par, X.
  Qed.
End GSound.
