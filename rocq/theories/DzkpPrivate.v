(** What the comparison of two verifiers reveals: the prover's random values hide the gates. *)
From Verif Require Import Base Ring Poly PolyProofs Dzkp IrisProofs DzkpProofs DzkpSound.
Local Open Scope list_scope.
From Coq Require Import Setoid Morphisms Ring.

Section Private.
  Context {A : Type} (O : rops A) (req : A -> A -> Prop) (wf : A -> Prop).
  Hypothesis HO : ring_ok O req wf.
  Local Instance req_equiv5 : Equivalence req := rk_equiv _ _ _ HO.
  Local Instance add_proper5 : Proper (req ==> req ==> req) (oadd O) := Radd_ext (rk_ext _ _ _ HO).
  Local Instance mul_proper5 : Proper (req ==> req ==> req) (omul O) := Rmul_ext (rk_ext _ _ _ HO).
  Local Instance neg_proper5 : Proper (req ==> req) (oneg O) := Ropp_ext (rk_ext _ _ _ HO).
  Local Instance sub_proper5 : Proper (req ==> req ==> req) (osub O) := sub_proper O req wf HO.
  Add Ring base_ring5 : (rk_ring _ _ _ HO) (setoid (rk_equiv _ _ _ HO) (rk_ext _ _ _ HO)).
  Infix "==" := req (at level 70).
  Notation "0" := (o0 O). Notation "1" := (o1 O).
  Infix "+" := (oadd O). Infix "*" := (omul O). Infix "-" := (osub O).
  Notation ev := (p_eval O).

  (** ** The Lagrange polynomial of the random value has no further roots *)
  Fixpoint prodr (rs : list A) (x : A) : A := match rs with [] => 1 | r :: rs => (x - r) * prodr rs x end.
  Lemma roots_factor rs : forall p, spread O req rs -> Forall (fun r => ev p r == 0) rs -> exists q, length q = (length p - length rs)%nat /\ forall x, ev p x == prodr rs x * ev q x.
  Proof.
    induction rs as [|r rs IH]; intros p S H.
    - exists p. split; [cbn; lia|]. intros x. cbn. ring.
    - destruct S as [S1 S2]. inversion_clear H as [|? ? Hr H']. destruct (IH (sdiv O p r) S2) as (q & Lq & Hq).
      + rewrite Forall_forall in *. intros r' Hr'. apply (unit_cancel O req wf HO (r' - r)); [apply S1, Hr'|].
        specialize (H' r' Hr'). rewrite (sdiv_ev O req wf HO p r), Hr in H'. transitivity ((r' - r) * ev (sdiv O p r) r' + 0); [ring|exact H'].
      + exists q. split; [rewrite Lq, sdiv_len; cbn; lia|]. intros x. rewrite (sdiv_ev O req wf HO p r), Hr, Hq. cbn [prodr]. ring.
  Qed.
  Lemma unit_mul a b : unit O req a -> unit O req b -> unit O req (a * b).
  Proof. intros [c Hc] [d Hd]. exists (c * d). transitivity ((a * c) * (b * d)); [ring|]. rewrite Hc, Hd. ring. Qed.
  Lemma unit_prodr rs x : Forall (fun r => unit O req (x - r)) rs -> unit O req (prodr rs x).
  Proof. induction 1 as [|r rs Hr _ IH]; [exists 1; cbn; ring|]. cbn [prodr]. apply unit_mul; assumption. Qed.
  Lemma lag0_unit xs lag r : lagrange_ok O req wf xs lag -> (0 < length xs)%nat -> spread O req (tl xs) -> Forall (fun x => unit O req (r - x)) (tl xs) ->
    unit O req (ev (nth 0 lag []) r).
  Proof.
    intros (Ll & HE & _ & Bl) Hx SP U. destruct xs as [|x0 xs]; [cbn in Hx; lia|]. cbn [tl] in *.
    destruct (roots_factor xs (nth 0 lag []) SP) as (q & Lq & Hq).
    { apply Forall_forall. intros x Hin. destruct (In_nth xs x 0 Hin) as (k & Hk & <-). rewrite (HE 0%nat (S k) ltac:(cbn; lia) ltac:(cbn; lia)). reflexivity. }
    assert (L1 : (length q <= 1)%nat).
    { rewrite Lq. assert (length (nth 0 lag []) <= length (x0 :: xs))%nat; [|cbn in *; lia]. destruct (nth_in_or_default 0 lag []) as [Hin|E]; [rewrite Forall_forall in Bl; apply Bl, Hin|rewrite E; cbn; lia]. }
    assert (C : forall x y, ev q x == ev q y). { intros x y. destruct q as [|c [|? ?]]; [reflexivity| |cbn in L1; lia]. rewrite !ev_cons, !ev_nil. ring. }
    assert (Uq : unit O req (ev q r)).
    { exists (prodr xs x0). rewrite (C r x0). transitivity (prodr xs x0 * ev q x0); [ring|]. rewrite <- Hq. rewrite (HE 0%nat 0%nat ltac:(cbn; lia) ltac:(cbn; lia)). reflexivity. }
    destruct (unit_mul _ _ (unit_prodr xs r U) Uq) as [c Hc]. exists c. rewrite (Hq r). exact Hc.
  Qed.

  Variable red : A -> res A.
  Hypothesis Hred : forall a, wf a -> exists b, red a = Ok b /\ a == b /\ wf b.
  Hypothesis Hcanon : forall a b, wf a -> wf b -> a == b -> red a = red b.
  Variable n : nat.
  Hypothesis Hn : (0 < n)%nat.
  Variable cf : forall B : Type, rops B -> list B -> B.
  Hypothesis Hcf : cf_ok O req wf cf.
  Variables (xs : list A) (lag : list (list A)).
  Hypothesis Hxs : Forall wf xs.
  Hypothesis Hlag : lagrange_ok O req wf xs lag.
  Variables (l m : nat).
  Hypothesis Hm : length xs = (m + 1)%nat.
  Notation rowval w V x := (fun ji => lsum O lag (point_values O l m w V (fst ji) (snd ji)) x).

  Lemma mapM_res_ext {B C} (f g : B -> res C) (ls : list B) : (forall b, In b ls -> f b = g b) -> mapM_res f ls = mapM_res g ls.
  Proof using. induction ls as [|b ls IH]; intros H; [reflexivity|]. cbn. rewrite (H b) by (left; reflexivity). rewrite IH by (intros; apply H; right; assumption). reflexivity. Qed.

  (** A verifier's message is determined by the values at the point, the proof's value there and the weighted sum. *)
  Lemma verify_ext betas r V V' p p' : wf r -> Forall wf betas -> length V = length V' -> wfi wf V -> wfi wf V' ->
    Forall wf (dp_w p) -> Forall wf (dp_a p) -> Forall wf (dp_w p') -> Forall wf (dp_a p') ->
    length (dp_w p) = length (dp_w p') -> length (dp_a p) = length (dp_a p') ->
    (forall ji, In ji (rows n l) -> rowval (dp_w p) V r ji == rowval (dp_w p') V' r ji) ->
    ev (dp_a p) r == ev (dp_a p') r -> bsum O betas (tl xs) (dp_a p) == bsum O betas (tl xs) (dp_a p') ->
    verify_pi O red n l m betas r lag xs V p = verify_pi O red n l m betas r lag xs V' p'.
  Proof.
    intros Wr Wb LV WV WV' Ww Wa Ww' Wa' Lw La HF HP HB. destruct Hlag as (Ll & _ & Wl & Bl). unfold verify_pi. rewrite LV, Lw, La.
    destruct (negb _ || _ || _ || _)%bool; [reflexivity|]. destruct (negb _ || _)%bool; [reflexivity|].
    rewrite (mapM_res_ext _ (fun ji => rbind (interpolate O (point_values O l m (dp_w p') V' (fst ji) (snd ji)) lag) (fun q => red (ev q r)))).
    - assert (Wt : Forall wf (tl xs)) by (destruct xs; [constructor|inversion_clear Hxs; assumption]).
      rewrite (Hcanon (power_sum O (dp_a p) r) (power_sum O (dp_a p') r)).
      + match goal with |- context [rbind (red (fold_left ?h1 ?l1 ?a1)) _] => rewrite (Hcanon (fold_left h1 l1 a1) (fold_left (fun b bc => b + power_sum O (dp_a p') (snd bc) * fst bc) (combine betas (tl xs)) 0)) end; [reflexivity|..].
        * apply (b_fold_wf O req wf HO); assumption.
        * apply (b_fold_wf O req wf HO); assumption.
        * rewrite !(b_fold_sem O req wf HO). exact HB.
      + apply (power_sum_wf O req wf HO); assumption.
      + apply (power_sum_wf O req wf HO); assumption.
      + rewrite !(power_sum_ev O req wf HO). exact HP.
    - intros ji Hji.
      destruct (interpolate_ok O req wf HO lag (point_values O l m (dp_w p) V (fst ji) (snd ji))) as (q & Eq & Hq); [rewrite point_values_length; lia|].
      destruct (interpolate_ok O req wf HO lag (point_values O l m (dp_w p') V' (fst ji) (snd ji))) as (q' & Eq' & Hq'); [rewrite point_values_length; lia|].
      rewrite Eq, Eq'. cbn [rbind].
      destruct (interpolate_wf O req wf HO lag _ q (m + 1) Eq Wl) as [Wq _]; [apply (point_values_wf O req wf HO); assumption|rewrite <- Hm; exact Bl|].
      destruct (interpolate_wf O req wf HO lag _ q' (m + 1) Eq' Wl) as [Wq' _]; [apply (point_values_wf O req wf HO); assumption|rewrite <- Hm; exact Bl|].
      apply Hcanon; [apply (wf_p_eval O req wf HO); assumption..|]. rewrite Hq, Hq'. apply HF, Hji.
  Qed.

  (** The contribution of the gates to a row. *)
  Definition gate_part (V : list (list A)) (x : A) (j i : nat) : A := lsum O (tl lag) (map (fun k => nth i (nth (j * m + k) V []) 0) (seq 0 m)) x.
  Lemma rowval_split w V x j i : lsum O lag (point_values O l m w V j i) x == ev (nth 0 lag []) x * nth (i * l + j) w 0 + gate_part V x j i.
  Proof. destruct Hlag as (Ll & _). unfold gate_part, point_values. destruct lag as [|p lag']; [cbn in Ll; lia|]. cbn [lsum tl nth]. reflexivity. Qed.
  Lemma gate_part_wf V x j i : wfi wf V -> wf x -> wf (gate_part V x j i).
  Proof.
    intros WV Wx. destruct Hlag as (_ & _ & Wl & _). unfold gate_part. assert (Wt : Forall (Forall wf) (tl lag)) by (destruct lag; [constructor|inversion_clear Wl; assumption]).
    generalize (seq 0 m) as ks. revert Wt. generalize (tl lag) as lg. induction lg as [|p lg IH]; intros Wt [|k ks]; cbn [map lsum]; try apply (rk_wf0 _ _ _ HO). inversion_clear Wt.
    apply (rk_wfadd _ _ _ HO); [|apply IH; assumption]. apply (rk_wfmul _ _ _ HO); [apply (wf_p_eval O req wf HO); assumption|]. apply (nth_wf O req wf HO).
    destruct (nth_in_or_default (j * m + k) V []) as [H1|H1]; [|rewrite H1; constructor]. unfold wfi in WV. rewrite Forall_forall in WV. apply WV, H1.
  Qed.
  Definition shift_values (b : A) (r : A) (V V' : list (list A)) : list A :=
    map (fun q => b * (gate_part V r (Nat.modulo q l) (Nat.div q l) - gate_part V' r (Nat.modulo q l) (Nat.div q l))) (seq 0 (n * l)).

  Lemma nth_req' (a b : list A) k : Forall2 req a b -> nth k a 0 == nth k b 0.
  Proof. intros H. revert k. induction H as [|? ? ? ? Hxy _ IHn]; intros [|k]; cbn; try reflexivity; auto. Qed.
  Lemma nth_map2 (f : A -> A -> A) (a b : list A) k : length a = length b -> f 0 0 == 0 -> nth k (map2 f a b) 0 == f (nth k a 0) (nth k b 0).
  Proof. revert b k. induction a as [|x a IH]; intros [|y b] k E Z; try discriminate; destruct k; cbn [map2 nth]; try reflexivity; try (symmetry; exact Z). apply IH; [injection E; auto|exact Z]. Qed.

  Theorem hides V V' V1 V1' V2 thetas b r : gates_ok O req wf n l m V V1 V2 -> gates_ok O req wf n l m V' V1' V2 ->
    (forall k, (k < m)%nat -> gsem O cf thetas (column l m V k) == 0) -> (forall k, (k < m)%nat -> gsem O cf thetas (column l m V' k) == 0) ->
    length thetas = l -> Forall wf thetas -> wf r -> wf b -> ev (nth 0 lag []) r * b == 1 ->
    exists delta, length delta = (n * l)%nat /\ Forall wf delta /\ Forall (fun x => exists y, wf y /\ red y = Ok x) delta /\
    forall betas w p2, length betas = m -> Forall wf betas -> length w = (n * l)%nat -> Forall wf w ->
      length (dp_w p2) = (n * l)%nat -> Forall wf (dp_w p2) -> length (dp_a p2) = (2 * m + 1)%nat -> Forall wf (dp_a p2) ->
      rbind (prove O red n cf l m V thetas lag w) (fun g => verify_pi O red n l m betas r lag xs V1 (explicit_share O w g p2)) =
      rbind (prove O red n cf l m V' thetas lag (map2 (oadd O) w delta)) (fun g => verify_pi O red n l m betas r lag xs V1' (explicit_share O (map2 (oadd O) w delta) g p2)).
  Proof.
    intros (HV & HV1 & HV2 & WV & WV1 & WV2 & HA) (HV' & HV1' & _ & WV' & WV1' & _ & HA') HC HC' Lt Wt Wr Wb Hb.
    assert (WD : Forall wf (shift_values b r V1 V1')).
    { apply Forall_forall. intros y Hy. apply in_map_iff in Hy. destruct Hy as (q & <- & _). apply (rk_wfmul _ _ _ HO); [exact Wb|]. apply (rk_wfsub _ _ _ HO); apply gate_part_wf; assumption. }
    destruct (mapM_red req wf red Hred _ WD) as (delta & Ed & Fd & Wd). exists delta.
    assert (Ld : length delta = (n * l)%nat) by (rewrite <- (Forall2_len _ _ _ Fd); unfold shift_values; rewrite map_length, seq_length; reflexivity).
    split; [exact Ld|]. split; [exact Wd|]. split.
    { apply mapM_res_Ok in Ed. clear - Ed WD. induction Ed as [|y x ys zs E _ IH]; constructor; inversion_clear WD; [exists y; auto|apply IH; assumption]. }
    intros betas w p2 Lb Wbe Lw Ww Lw2 Ww2 La2 Wa2. set (w' := map2 (oadd O) w delta).
    assert (Lw' : length w' = (n * l)%nat) by (unfold w'; rewrite map2_length by lia; lia).
    assert (Ww' : Forall wf w') by (apply (map2_Forall _ wf wf wf); auto; intros; apply (rk_wfadd _ _ _ HO); assumption).
    destruct (prove_ok O req wf HO red Hred n Hn cf Hcf xs lag Hlag l m Hm V thetas w Lt Wt) as (g & Eg & Lg & Wg & Hg); [rewrite (proj1 HV); lia|exact WV|exact Ww|].
    destruct (prove_ok O req wf HO red Hred n Hn cf Hcf xs lag Hlag l m Hm V' thetas w' Lt Wt) as (g' & Eg' & Lg' & Wg' & Hg'); [rewrite (proj1 HV'); lia|exact WV'|exact Ww'|].
    rewrite Eg, Eg'. cbn [rbind]. set (p1 := explicit_share O w g p2). set (p1' := explicit_share O w' g' p2).
    assert (Lw1 : length (dp_w p1) = (n * l)%nat) by (unfold p1; cbn; rewrite map2_length by lia; lia).
    assert (La1 : length (dp_a p1) = (2 * m + 1)%nat) by (unfold p1; cbn; rewrite map2_length by lia; lia).
    assert (Ww1 : Forall wf (dp_w p1)) by (apply (map2_Forall _ wf wf wf); auto; intros; apply (rk_wfsub _ _ _ HO); assumption).
    assert (Wa1 : Forall wf (dp_a p1)) by (apply (map2_Forall _ wf wf wf); auto; intros; apply (rk_wfsub _ _ _ HO); assumption).
    assert (Lw1' : length (dp_w p1') = (n * l)%nat) by (unfold p1'; cbn; rewrite map2_length by lia; lia).
    assert (La1' : length (dp_a p1') = (2 * m + 1)%nat) by (unfold p1'; cbn; rewrite map2_length by lia; lia).
    assert (Ww1' : Forall wf (dp_w p1')) by (apply (map2_Forall _ wf wf wf); auto; intros; apply (rk_wfsub _ _ _ HO); assumption).
    assert (Wa1' : Forall wf (dp_a p1')) by (apply (map2_Forall _ wf wf wf); auto; intros; apply (rk_wfsub _ _ _ HO); assumption).
    destruct (shares_add O req wf HO w g p2 ltac:(lia) ltac:(lia)) as [Sw Sa]. fold p1 in Sw, Sa.
    destruct (shares_add O req wf HO w' g' p2 ltac:(lia) ltac:(lia)) as [Sw' Sa']. fold p1' in Sw', Sa'.
    (** the rows *)
    assert (HF : forall ji, In ji (rows n l) -> rowval (dp_w p1) V1 r ji == rowval (dp_w p1') V1' r ji).
    { intros [j i] Hji. cbn [fst snd]. apply (rows_in n Hn) in Hji. rewrite !rowval_split.
      assert (N1 : nth (i * l + j) (dp_w p1') 0 == nth (i * l + j) (dp_w p1) 0 + nth (i * l + j) delta 0).
      { unfold p1, p1', w'. cbn [explicit_share dp_w]. rewrite !nth_map2 by (rewrite ?map2_length by lia; try lia; ring). ring. }
      assert (N2 : nth (i * l + j) delta 0 == b * (gate_part V1 r j i - gate_part V1' r j i)).
      { rewrite <- (nth_req' _ _ (i * l + j) Fd). unfold shift_values. assert (Hq : (i * l + j < n * l)%nat) by nia.
        match goal with |- nth _ (map ?h _) _ == _ => rewrite (nth_indep _ 0 (h 0%nat)) by (rewrite map_length, seq_length; exact Hq); rewrite (map_nth h), seq_nth by exact Hq end. cbn [Nat.add].
        rewrite (Nat.add_comm (i * l)), Nat.mod_add, Nat.mod_small, Nat.div_add, Nat.div_small by lia. cbn [Nat.add]. reflexivity. }
      rewrite N1, N2. transitivity (ev (nth 0 lag []) r * nth (i * l + j) (dp_w p1) 0 + (ev (nth 0 lag []) r * b) * (gate_part V1 r j i - gate_part V1' r j i) + gate_part V1' r j i); [rewrite Hb; ring|ring]. }
    assert (HS : Forall2 (Forall2 req) (seen O n lag l m w V r) (seen O n lag l m w' V' r)).
    { assert (X : forall j i, In (j, i) (rows n l) -> lsum O lag (point_values O l m w V j i) r == lsum O lag (point_values O l m w' V' j i) r).
      { intros j i Hji. pose proof (HF (j, i) Hji) as E. cbn [fst snd] in E.
        pose proof (rowval_add O req wf HO n Hn xs lag l m Hm (dp_w p1) (dp_w p2) V1 V2 r (j, i) ltac:(lia) HV1 HV2) as R1. pose proof (rowval_add O req wf HO n Hn xs lag l m Hm (dp_w p1') (dp_w p2) V1' V2 r (j, i) ltac:(lia) HV1' HV2) as R2.
        cbn [fst snd] in R1, R2.
        assert (PV : forall (u u' : list A) U U', Forall2 req u u' -> Forall2 (Forall2 req) U U' -> lsum O lag (point_values O l m u U j i) r == lsum O lag (point_values O l m u' U' j i) r).
        { intros u u' U U' Hu HU. apply (lsum_proper O req wf HO). unfold point_values. constructor; [apply nth_req', Hu|].
          assert (NG : forall q, Forall2 req (nth q U []) (nth q U' [])) by (clear - HU; induction HU as [|? ? ? ? Hxy _ IHn]; intros [|q]; cbn; try constructor; auto).
          generalize (seq 0 m) as ks. intros ks. induction ks as [|k ks IHk]; cbn [map]; constructor; [apply nth_req', NG|exact IHk]. }
        assert (SY : forall U U', Forall2 (Forall2 req) U U' -> Forall2 (Forall2 req) U' U).
        { clear - HO. induction 1 as [|a c la lc Hac _ IH]; constructor; [|exact IH]. induction Hac; constructor; [symmetry; assumption|assumption]. }
        rewrite <- (PV _ _ (add_inputs O V1 V2) _ Sw (SY _ _ HA)). rewrite <- (PV _ _ (add_inputs O V1' V2) _ Sw' (SY _ _ HA')).
        rewrite R1, R2, E. reflexivity. }
      unfold seen. assert (XJ : forall j, In j (seq 0 l) -> Forall2 req (map (fun i => lsum O lag (point_values O l m w V j i) r) (seq 0 n)) (map (fun i => lsum O lag (point_values O l m w' V' j i) r) (seq 0 n))).
      { intros j Hj. assert (XI : forall i, In i (seq 0 n) -> lsum O lag (point_values O l m w V j i) r == lsum O lag (point_values O l m w' V' j i) r).
        { intros i Hi. apply X. unfold rows. apply in_flat_map. exists j. split; [exact Hj|]. apply in_map. exact Hi. }
        revert XI. generalize (seq 0 n) as is. induction is as [|i is IH]; intros XI; cbn [map]; constructor; [apply XI; left; reflexivity|apply IH; intros; apply XI; right; assumption]. }
      revert XJ. generalize (seq 0 l) as js. induction js as [|j js IH]; intros XJ; cbn [map]; constructor; [apply XJ; left; reflexivity|apply IH; intros; apply XJ; right; assumption]. }
    assert (EV : forall x, ev (dp_a p1) x == ev g x - ev (dp_a p2) x).
    { intros x. rewrite <- (ev_proper O req wf HO _ _ x x Sa) by reflexivity. rewrite (ev_map2_add O req wf HO) by lia. ring. }
    assert (EV' : forall x, ev (dp_a p1') x == ev g' x - ev (dp_a p2) x).
    { intros x. rewrite <- (ev_proper O req wf HO _ _ x x Sa') by reflexivity. rewrite (ev_map2_add O req wf HO) by lia. ring. }
    apply verify_ext; try assumption; try lia.
    - rewrite (proj1 HV1), (proj1 HV1'). reflexivity.
    - rewrite EV, EV', Hg, Hg'. rewrite (gsem_proper O req wf HO cf Hcf thetas _ _ HS). reflexivity.
    - assert (Z : forall x, In x (tl xs) -> ev (dp_a p1) x == ev (dp_a p1') x).
      { intros x Hx. rewrite EV, EV', Hg, Hg'. destruct (In_nth (tl xs) x 0 Hx) as (k & Hk & <-). assert (Lt' : length (tl xs) = m) by (destruct xs; cbn in *; lia).
        replace (nth k (tl xs) 0) with (nth (S k) xs 0) by (destruct xs; [cbn in Hm; lia|reflexivity]).
        rewrite (gsem_proper O req wf HO cf Hcf _ _ _ (seen_point O req wf HO n Hn xs lag Hlag l m Hm w V (S k) HV ltac:(lia))).
        rewrite (gsem_proper O req wf HO cf Hcf _ _ _ (seen_point O req wf HO n Hn xs lag Hlag l m Hm w' V' (S k) HV' ltac:(lia))).
        replace (S k - 1)%nat with k by lia. fold (column l m V k) (column l m V' k). rewrite HC, HC' by lia. reflexivity. }
      revert Z. generalize (tl xs) as cs. clear - HO. intros cs. revert betas. induction cs as [|x cs IH]; intros [|be betas] Z; cbn [bsum]; try reflexivity. rewrite (Z x) by (left; reflexivity). rewrite IH by (intros; apply Z; right; assumption). reflexivity.
  Qed.

  (** At a point of the gates the message is the gates' inputs. *)
  Lemma lsum_at lg (ys : list A) x x' : x == x' -> lsum O lg ys x == lsum O lg ys x'.
  Proof. intros E. revert ys. induction lg as [|p lg IH]; intros [|y ys]; cbn [lsum]; try reflexivity. rewrite (IH ys). rewrite (ev_proper O req wf HO p p x x') by (try exact E; clear - HO; induction p; constructor; try reflexivity; assumption). reflexivity. Qed.
  Lemma reveals V betas r p k s : shape n l m V -> wfi wf V -> wf r -> Forall wf (dp_w p) -> (1 <= k <= m)%nat -> r == nth k xs 0 ->
    verify_pi O red n l m betas r lag xs V p = Ok s ->
    mapM_res (fun ji => red (nth (snd ji) (nth (fst ji * m + (k - 1)) V []) 0)) (rows n l) = Ok (ds_f s).
  Proof.
    intros HV WV Wr Ww Hk Er. destruct Hlag as (Ll & _ & Wl & Bl). unfold verify_pi.
    destruct (negb _ || _ || _ || _)%bool; [discriminate|]. destruct (negb _ || _)%bool; [discriminate|].
    rewrite (mapM_res_ext _ (fun ji => red (nth (snd ji) (nth (fst ji * m + (k - 1)) V []) 0))).
    - destruct (mapM_res _ (rows n l)) as [f|e]; cbn [rbind]; [|discriminate]. destruct (red (power_sum _ _ _)); cbn [rbind]; [|discriminate]. destruct (red _); cbn [rbind]; [|discriminate].
      intros E. injection E as <-. reflexivity.
    - intros [j i] Hji. cbn [fst snd]. apply (rows_in n Hn) in Hji.
      destruct (interpolate_ok O req wf HO lag (point_values O l m (dp_w p) V j i)) as (q & Eq & Hq); [rewrite point_values_length; lia|].
      rewrite Eq. cbn [rbind].
      destruct (interpolate_wf O req wf HO lag _ q (m + 1) Eq Wl) as [Wq _]; [apply (point_values_wf O req wf HO); assumption|rewrite <- Hm; exact Bl|].
      apply Hcanon; [apply (wf_p_eval O req wf HO); assumption| |].
      + apply (nth_wf O req wf HO). destruct (nth_in_or_default (j * m + (k - 1)) V []) as [H1|H1]; [|rewrite H1; constructor]. unfold wfi in WV. rewrite Forall_forall in WV. apply WV, H1.
      + rewrite Hq, (lsum_at lag _ r _ Er). pose proof (seen_point O req wf HO n Hn xs lag Hlag l m Hm (dp_w p) V k HV Hk) as SP. unfold seen in SP.
        assert (X : Forall2 req (map (fun i => lsum O lag (point_values O l m (dp_w p) V j i) (nth k xs 0)) (seq 0 n)) (nth (j * m + (k - 1)) V [])).
        { pose proof (Forall2_nth _ _ _ (map (fun i => lsum O lag (point_values O l m (dp_w p) V 0 i) (nth k xs 0)) (seq 0 n)) (nth (0 * m + (k - 1)) V []) j SP ltac:(rewrite map_length, seq_length; lia)) as Y.
          rewrite (map_nth (fun j => map (fun i => lsum O lag (point_values O l m (dp_w p) V j i) (nth k xs 0)) (seq 0 n))) in Y.
          rewrite (map_nth (fun j => nth (j * m + (k - 1)) V [])) in Y. rewrite !seq_nth in Y by lia. exact Y. }
        pose proof (nth_req' _ _ i X) as Y. rewrite <- Y.
        rewrite (nth_indep (map (fun i => lsum O lag (point_values O l m (dp_w p) V j i) (nth k xs 0)) (seq 0 n)) 0 (lsum O lag (point_values O l m (dp_w p) V j 0) (nth k xs 0))) by (rewrite map_length, seq_length; lia).
        rewrite (map_nth (fun i => lsum O lag (point_values O l m (dp_w p) V j i) (nth k xs 0))), seq_nth by lia. reflexivity.
  Qed.
End Private.
