(** The distributed zero-knowledge proof system over any ring: what the two verifiers compute. *)
From Coq Require Import Ring Setoid Morphisms.
From Verif Require Import Base Ring Poly PolyProofs Dzkp SlicedProofs IrisProofs.
Local Open Scope list_scope.

Lemma mapM_res_Ok {A B} (f : A -> res B) l l' : mapM_res f l = Ok l' -> Forall2 (fun a b => f a = Ok b) l l'.
Proof.
  revert l'. induction l as [|a l IH]; intros l' E; cbn in E; [injection E as <-; constructor|].
  destruct (f a) as [b|] eqn:Ef; [|discriminate]. destruct (mapM_res f l) as [bs|]; [|discriminate]. injection E as <-. constructor; auto.
Qed.
Lemma in_firstn {A} (x : A) k l : In x (firstn k l) -> In x l.
Proof. intros H. rewrite <- (firstn_skipn k l). apply in_or_app. left. exact H. Qed.
Lemma Forall2_nth {A B} (R : A -> B -> Prop) l l' a b k : Forall2 R l l' -> (k < length l)%nat -> R (nth k l a) (nth k l' b).
Proof. intros H. revert k. induction H as [|x y l l' Hxy _ IH]; intros k Hk; [cbn in Hk; lia|]. destruct k; [exact Hxy|]. apply IH. cbn in Hk. lia. Qed.
Lemma nth_Forall2 {A B} (R : A -> B -> Prop) l l' a b : length l = length l' -> (forall k, (k < length l)%nat -> R (nth k l a) (nth k l' b)) -> Forall2 R l l'.
Proof.
  revert l'. induction l as [|x l IH]; intros [|y l'] L H; try discriminate; constructor.
  - apply (H 0%nat). cbn. lia.
  - apply IH; [injection L; auto|]. intros k Hk. apply (H (S k)). cbn. lia.
Qed.
Lemma Forall2_firstn {A B} (R : A -> B -> Prop) k l l' : Forall2 R l l' -> Forall2 R (firstn k l) (firstn k l').
Proof. intros H. revert k. induction H; intros [|k]; cbn; constructor; auto. Qed.
Lemma Forall2_skipn {A B} (R : A -> B -> Prop) k l l' : Forall2 R l l' -> Forall2 R (skipn k l) (skipn k l').
Proof. intros H. revert k. induction H; intros [|k]; cbn; auto; constructor; auto. Qed.
Lemma Forall2_chunks {A B} (R : A -> B -> Prop) n l l' : Forall2 R l l' -> Forall2 (Forall2 R) (chunks n l) (chunks n l').
Proof.
  intros H. unfold chunks. rewrite <- (Forall2_len _ _ _ H). generalize (length l) as fuel. intros fuel. revert l l' H.
  induction fuel as [|fuel IH]; intros l l' H; cbn; [constructor|]. destruct H as [|a b l l' Hab H]; [constructor|].
  constructor; [apply Forall2_firstn; constructor; assumption|]. apply IH. apply (Forall2_skipn _ n (a :: l) (b :: l')). constructor; assumption.
Qed.

Section DzkpProofs.
  Context {A : Type} (O : rops A) (req : A -> A -> Prop) (wf : A -> Prop).
  Hypothesis HO : ring_ok O req wf.
  Local Instance req_equiv' : Equivalence req := rk_equiv _ _ _ HO.
  Local Instance add_proper' : Proper (req ==> req ==> req) (oadd O) := Radd_ext (rk_ext _ _ _ HO).
  Local Instance mul_proper' : Proper (req ==> req ==> req) (omul O) := Rmul_ext (rk_ext _ _ _ HO).
  Local Instance neg_proper' : Proper (req ==> req) (oneg O) := Ropp_ext (rk_ext _ _ _ HO).
  Local Instance sub_proper' : Proper (req ==> req ==> req) (osub O) := sub_proper O req wf HO.
  Add Ring base_ring' : (rk_ring _ _ _ HO) (setoid (rk_equiv _ _ _ HO) (rk_ext _ _ _ HO)).
  Infix "==" := req (at level 70).
  Notation "0" := (o0 O). Notation "1" := (o1 O).
  Infix "+" := (oadd O). Infix "*" := (omul O). Infix "-" := (osub O).
  Notation ev := (p_eval O).
  Variable red : A -> res A.
  Hypothesis Hred : forall a, wf a -> exists b, red a = Ok b /\ a == b /\ wf b.
  Variable n : nat.
  Hypothesis Hn : (0 < n)%nat.
  Variable cf : forall B : Type, rops B -> list B -> B.
  (** What is needed of the circuit: it is a polynomial of degree two in its inputs. *)
  Record cf_ok : Prop := {
    cf_ev : forall fs x, ev (cf (list A) (pops O) fs) x == cf A O (map (fun p => ev p x) fs);
    cf_proper : forall f g, Forall2 req f g -> cf A O f == cf A O g;
    cf_wf : forall f, Forall wf f -> wf (cf A O f);
    cf_pwf : forall fs m, Forall (Forall wf) fs -> Forall (fun p => length p <= S m)%nat fs ->
      Forall wf (cf (list A) (pops O) fs) /\ (length (cf (list A) (pops O) fs) <= S (m + m))%nat }.
  Hypothesis Hcf : cf_ok.

  Lemma red_eq a b : wf a -> red a = Ok b -> a == b /\ wf b.
  Proof. intros Wa E. destruct (Hred a Wa) as (b' & E' & H1 & H2). rewrite E in E'. injection E' as <-. auto. Qed.

  (** ** The combination of the rows *)
  Fixpoint gsem (thetas : list A) (rs : list (list A)) : A :=
    match thetas, rs with t :: thetas, r :: rs => cf A O r * t + gsem thetas rs | _, _ => 0 end.
  Lemma gsem_proper thetas rs rs' : Forall2 (Forall2 req) rs rs' -> gsem thetas rs == gsem thetas rs'.
  Proof. intros H. revert thetas. induction H as [|r r' rs rs' Hr _ IH]; intros [|t thetas]; cbn [gsem]; try reflexivity. rewrite IH, (cf_proper Hcf _ _ Hr). reflexivity. Qed.
  Lemma g_sum_sem thetas f : g_sum n cf O (omul O) thetas f == gsem thetas (chunks n f).
  Proof.
    unfold g_sum. generalize (chunks n f) as rs. intros rs.
    assert (G : forall acc, fold_left (fun res tf => res + cf A O (snd tf) * fst tf) (combine thetas rs) acc == acc + gsem thetas rs).
    { revert rs. induction thetas as [|t thetas IH]; intros [|r rs] acc; cbn [combine fold_left gsem]; try ring. rewrite IH. cbn [fst snd]. ring. }
    rewrite G. ring.
  Qed.
  Lemma g_poly_sem thetas f x : ev (g_sum n cf (pops O) (p_scale O) thetas f) x == gsem thetas (chunks n (map (fun p => ev p x) f)).
  Proof.
    rewrite chunks_map. unfold g_sum. generalize (chunks n f) as rs. intros rs.
    assert (G : forall acc, ev (fold_left (fun res tf => oadd (pops O) res (p_scale O (cf (list A) (pops O) (snd tf)) (fst tf))) (combine thetas rs) acc) x
      == ev acc x + gsem thetas (map (map (fun p => ev p x)) rs)).
    { revert rs. induction thetas as [|t thetas IH]; intros [|r rs] acc; cbn [combine fold_left gsem map]; try ring. rewrite IH. cbn [fst snd oadd pops].
      rewrite (ev_add O req wf HO), (ev_scale O req wf HO), (cf_ev Hcf). ring. }
    rewrite G. cbn [o0 pops]. rewrite ev_nil. ring.
  Qed.
  Lemma g_poly_wf thetas f m : Forall wf thetas -> Forall (Forall wf) f -> Forall (fun p => length p <= S m)%nat f ->
    Forall wf (g_sum n cf (pops O) (p_scale O) thetas f) /\ (length (g_sum n cf (pops O) (p_scale O) thetas f) <= S (m + m))%nat.
  Proof.
    intros Ht Hf Hl. unfold g_sum.
    assert (C1 : Forall (Forall (Forall wf)) (chunks n f)).
    { unfold chunks. generalize (length f). intros fuel. clear Hl. revert f Hf. induction fuel as [|fuel IH]; intros f Hf; cbn; [constructor|]. destruct f as [|p f]; [constructor|].
      constructor; [apply Forall_forall; intros q Hq; rewrite Forall_forall in Hf; apply Hf; exact (in_firstn _ _ _ Hq)|].
      apply IH. apply Forall_forall. intros q Hq. rewrite Forall_forall in Hf. apply Hf. rewrite <- (firstn_skipn n). apply in_or_app. right. exact Hq. }
    assert (C2 : Forall (Forall (fun p => length p <= S m)%nat) (chunks n f)).
    { unfold chunks. generalize (length f). intros fuel. clear Hf C1. revert f Hl. induction fuel as [|fuel IH]; intros f Hf; cbn; [constructor|]. destruct f as [|p f]; [constructor|].
      constructor; [apply Forall_forall; intros q Hq; rewrite Forall_forall in Hf; apply Hf; exact (in_firstn _ _ _ Hq)|].
      apply IH. apply Forall_forall. intros q Hq. rewrite Forall_forall in Hf. apply Hf. rewrite <- (firstn_skipn n). apply in_or_app. right. exact Hq. }
    clear Hf Hl. revert C1 C2. generalize (chunks n f) as rs. intros rs.
    assert (G : forall rs acc, Forall (Forall (Forall wf)) rs -> Forall (Forall (fun p => length p <= S m)%nat) rs -> Forall wf acc -> (length acc <= S (m + m))%nat ->
      Forall wf (fold_left (fun res tf => oadd (pops O) res (p_scale O (cf (list A) (pops O) (snd tf)) (fst tf))) (combine thetas rs) acc) /\
      (length (fold_left (fun res tf => oadd (pops O) res (p_scale O (cf (list A) (pops O) (snd tf)) (fst tf))) (combine thetas rs) acc) <= S (m + m))%nat).
    { clear rs. induction Ht as [|t thetas Wt _ IH]; intros [|r rs] acc C1 C2 Wa La; cbn [combine fold_left]; auto.
      inversion_clear C1 as [|? ? C1a C1b]. inversion_clear C2 as [|? ? C2a C2b]. destruct (cf_pwf Hcf r m C1a C2a) as [W L].
      apply IH; auto; cbn [oadd pops fst snd].
      - apply (wf_p_add O req wf HO); [exact Wa|]. apply (wf_p_scale O req wf HO); assumption.
      - rewrite p_add_len, p_scale_len. lia. }
    intros C1 C2. apply G; auto; cbn; [constructor|lia].
  Qed.

  Lemma power_sum_ev a x : power_sum O a x == ev a x.
  Proof.
    unfold power_sum. assert (G : forall s p, fst (fold_left (fun sp ak => (fst sp + ak * snd sp, snd sp * x)) a (s, p)) == s + p * ev a x).
    { induction a as [|c a IH]; intros s p; cbn [fold_left fst snd]; [rewrite ev_nil; ring|]. rewrite IH, ev_cons. ring. }
    rewrite G. ring.
  Qed.
  Lemma power_sum_wf a x : Forall wf a -> wf x -> wf (power_sum O a x).
  Proof.
    intros Wa Wx. unfold power_sum. assert (G : forall s p, wf s -> wf p -> wf (fst (fold_left (fun sp ak => (fst sp + ak * snd sp, snd sp * x)) a (s, p)))).
    { induction Wa as [|c a Wc _ IH]; intros s p Ws Wp; cbn [fold_left fst snd]; [exact Ws|]. apply IH; [apply (rk_wfadd _ _ _ HO); [exact Ws|apply (rk_wfmul _ _ _ HO); assumption]|apply (rk_wfmul _ _ _ HO); assumption]. }
    apply G; [apply (rk_wf0 _ _ _ HO)|apply (rk_wf1 _ _ _ HO)].
  Qed.
  (** The weighted sum of the values at the points. *)
  Fixpoint bsum (betas coords : list A) (a : list A) : A :=
    match betas, coords with b :: betas, x :: coords => b * ev a x + bsum betas coords a | _, _ => 0 end.
  Lemma b_fold_sem a betas coords : fold_left (fun b bc => b + power_sum O a (snd bc) * fst bc) (combine betas coords) 0 == bsum betas coords a.
  Proof.
    assert (G : forall acc, fold_left (fun b bc => b + power_sum O a (snd bc) * fst bc) (combine betas coords) acc == acc + bsum betas coords a).
    { revert coords. induction betas as [|b betas IH]; intros [|x coords] acc; cbn [combine fold_left bsum]; try ring. rewrite IH. cbn [fst snd]. rewrite power_sum_ev. ring. }
    rewrite G. ring.
  Qed.
  Lemma b_fold_wf a betas coords : Forall wf a -> Forall wf betas -> Forall wf coords ->
    wf (fold_left (fun b bc => b + power_sum O a (snd bc) * fst bc) (combine betas coords) 0).
  Proof.
    intros Wa Wb Wc. assert (G : forall acc, wf acc -> wf (fold_left (fun b bc => b + power_sum O a (snd bc) * fst bc) (combine betas coords) acc)).
    { revert coords Wc. induction Wb as [|b betas Wb0 _ IH]; intros [|x coords] Wc acc Wacc; cbn [combine fold_left]; auto. inversion_clear Wc. apply IH; auto.
      apply (rk_wfadd _ _ _ HO); [exact Wacc|]. apply (rk_wfmul _ _ _ HO); [apply power_sum_wf; assumption|assumption]. }
    apply G, (rk_wf0 _ _ _ HO).
  Qed.
  Lemma bsum_add betas coords a a' : length a = length a' -> bsum betas coords (map2 (oadd O) a a') == bsum betas coords a + bsum betas coords a'.
  Proof.
    intros L. assert (E : forall x, ev (map2 (oadd O) a a') x == ev a x + ev a' x).
    { intros x. revert a' L. induction a as [|c a IH]; intros [|c' a'] L; try discriminate; [cbn; ring|]. cbn [map2]. rewrite !ev_cons, IH by (injection L; auto). ring. }
    revert coords. induction betas as [|b betas IH]; intros [|x coords]; cbn [bsum]; try ring. rewrite IH, E. ring.
  Qed.
  Lemma ev_map2_add a a' x : length a = length a' -> ev (map2 (oadd O) a a') x == ev a x + ev a' x.
  Proof. revert a'. induction a as [|c a IH]; intros [|c' a'] L; try discriminate; [cbn; ring|]. cbn [map2]. rewrite !ev_cons, IH by (injection L; auto). ring. Qed.

  (** ** Rows *)
  Lemma rows_chunks {B} (h : nat * nat -> B) l : chunks n (map h (rows n l)) = map (fun j => map (fun i => h (j, i)) (seq 0 n)) (seq 0 l).
  Proof.
    rewrite <- (chunks_concat_id n (map (fun j => map (fun i => h (j, i)) (seq 0 n)) (seq 0 l))); [|exact Hn|].
    - f_equal. unfold rows. rewrite flat_map_concat_map, concat_map, map_map. f_equal. apply map_ext. intros j. rewrite map_map. reflexivity.
    - apply Forall_forall. intros r Hr. apply in_map_iff in Hr. destruct Hr as (j & <- & _). rewrite map_length, seq_length. reflexivity.
  Qed.
  Lemma rows_length l : length (rows n l) = (n * l)%nat.
  Proof.
    unfold rows. rewrite flat_map_concat_map. generalize 0%nat at 2. induction l as [|l IH]; intros s; [cbn; lia|]. cbn [seq map concat]. rewrite app_length, map_length, seq_length, IH. lia.
  Qed.
  Lemma rows_in l j i : In (j, i) (rows n l) -> (j < l /\ i < n)%nat.
  Proof. unfold rows. intros H. apply in_flat_map in H. destruct H as (j' & Hj & H). apply in_map_iff in H. destruct H as (i' & E & Hi). injection E as <- <-. apply in_seq in Hj, Hi. lia. Qed.
  Lemma point_values_length l m w V j i : length (point_values O l m w V j i) = S m.
  Proof. unfold point_values. cbn. rewrite map_length, seq_length. reflexivity. Qed.
  Definition wfi (V : list (list A)) : Prop := Forall (Forall wf) V.
  Lemma nth_wf (p : list A) k : Forall wf p -> wf (nth k p 0).
  Proof. intros Hp. destruct (nth_in_or_default k p 0) as [H|H]; [|rewrite H; apply (rk_wf0 _ _ _ HO)]. rewrite Forall_forall in Hp. apply Hp, H. Qed.
  Lemma point_values_wf l m w V j i : Forall wf w -> wfi V -> Forall wf (point_values O l m w V j i).
  Proof.
    intros Ww WV. unfold point_values. constructor; [apply nth_wf, Ww|]. apply Forall_forall. intros v Hv. apply in_map_iff in Hv. destruct Hv as (k & <- & _). apply nth_wf.
    destruct (nth_in_or_default (j * m + k) V []) as [H|H]; [|rewrite H; constructor]. unfold wfi in WV. rewrite Forall_forall in WV. apply WV, H.
  Qed.

  Variables (xs : list A) (lag : list (list A)).
  Hypothesis Hxs : Forall wf xs.
  Hypothesis Hlag : lagrange_ok O req wf xs lag.
  Variables (l m : nat).
  Hypothesis Hm : length xs = (m + 1)%nat.

  Notation rowval w V x := (fun ji => lsum O lag (point_values O l m w V (fst ji) (snd ji)) x).

  (** ** One verifier *)
  Lemma verify_pi_ok betas r V p : length betas = m -> length V = (m * l)%nat -> Forall wf betas -> wf r -> wfi V ->
    Forall wf (dp_w p) -> Forall wf (dp_a p) -> length (dp_w p) = (n * l)%nat -> length (dp_a p) = (2 * m + 1)%nat ->
    exists s u v, verify_pi O red n l m betas r lag xs V p = Ok s /\
      length (ds_f s) = (n * l)%nat /\ Forall wf (ds_f s) /\ Forall2 req (map (rowval (dp_w p) V r) (rows n l)) (ds_f s) /\
      (wf u /\ red u = Ok (ds_pr s) /\ u == ev (dp_a p) r) /\
      (wf v /\ red v = Ok (ds_b s) /\ v == bsum betas (tl xs) (dp_a p)).
  Proof.
    intros Lb LV Wb Wr WV Ww Wa Lw La. destruct Hlag as (Ll & _ & Wl & Bl). unfold verify_pi.
    replace (length betas) with m. rewrite Ll, Hm, LV, !Nat.eqb_refl, Lw, La, !Nat.eqb_refl. cbn [negb orb].
    destruct (mapM_res_nth (fun ji => rbind (interpolate O (point_values O l m (dp_w p) V (fst ji) (snd ji)) lag) (fun q => red (ev q r))) (rows n l)
      (fun ji v => wf v /\ rowval (dp_w p) V r ji == v)) as (f & Ef & Hf).
    { intros ji _. destruct (interpolate_ok O req wf HO lag (point_values O l m (dp_w p) V (fst ji) (snd ji))) as (q & Eq & Hq); [rewrite point_values_length; lia|].
      rewrite Eq. cbn [rbind]. destruct (interpolate_wf O req wf HO lag _ q (m + 1) Eq Wl) as [Wq _]; [apply point_values_wf; assumption|rewrite <- Hm; exact Bl|].
      destruct (Hred (ev q r)) as (v & Ev & Hv & Wv); [apply (wf_p_eval O req wf HO); assumption|]. exists v. split; [exact Ev|]. split; [exact Wv|]. rewrite <- Hq. exact Hv. }
    rewrite Ef. cbn [rbind].
    destruct (Hred (power_sum O (dp_a p) r)) as (pr & Epr & _ & _); [apply power_sum_wf; assumption|]. rewrite Epr. cbn [rbind].
    set (bv := fold_left _ _ _). assert (Wbv : wf bv) by (apply b_fold_wf; auto; destruct xs; [constructor|inversion_clear Hxs; assumption]).
    destruct (Hred bv Wbv) as (b & Eb & _ & _). rewrite Eb. cbn [rbind].
    exists (DShare f pr b), (power_sum O (dp_a p) r), bv. cbn [ds_f ds_pr ds_b]. split; [reflexivity|].
    split; [rewrite <- (Forall2_len _ _ _ Hf); apply rows_length|].
    split; [clear - Hf; induction Hf as [|? ? ? ? [? ?] _ IH]; constructor; assumption|].
    split; [clear - Hf; induction Hf as [|? ? ? ? [? ?] _ IH]; cbn [map]; constructor; assumption|].
    split; (split; [|split]); auto; [apply power_sum_wf; assumption|apply power_sum_ev|apply b_fold_sem].
  Qed.

  (** ** Both verifiers *)
  Definition add_inputs (V V' : list (list A)) : list (list A) := map2 (map2 (oadd O)) V V'.
  Definition shape (V : list (list A)) : Prop := length V = (m * l)%nat /\ Forall (fun v => length v = n) V.
  Lemma nth_inputs V V' q i : shape V -> shape V' -> nth i (nth q (add_inputs V V') []) 0 == nth i (nth q V []) 0 + nth i (nth q V' []) 0.
  Proof.
    intros [L F] [L' F']. unfold add_inputs. destruct (Nat.lt_ge_cases q (m * l)) as [Hq|Hq].
    - rewrite (map2_nth (map2 (oadd O)) V V' q [] [] []) by (try reflexivity; lia).
      assert (G : forall (a b : list A) k, length a = length b -> nth k (map2 (oadd O) a b) 0 == nth k a 0 + nth k b 0).
      { induction a as [|x a IH]; intros [|y b] k E; try discriminate; destruct k; cbn [map2 nth]; try ring. apply IH. injection E; auto. }
      apply G. rewrite Forall_forall in F, F'. rewrite F, F'; [reflexivity|apply nth_In; lia|apply nth_In; lia].
    - rewrite !nth_overflow; [ring|..]; rewrite ?nth_overflow; cbn; try lia; rewrite ?(map2_length (map2 (oadd O)) V V') by lia; lia.
  Qed.
  Lemma rowval_add w w' V V' x ji : length w = length w' -> shape V -> shape V' ->
    rowval (map2 (oadd O) w w') (add_inputs V V') x ji == rowval w V x ji + rowval w' V' x ji.
  Proof.
    intros Lw HV HV'. rewrite <- (lsum_add O req wf HO) by (rewrite !point_values_length; reflexivity). apply (lsum_proper O req wf HO).
    unfold point_values. cbn [map2]. constructor.
    - assert (G : forall (a b : list A) k, length a = length b -> nth k (map2 (oadd O) a b) 0 == nth k a 0 + nth k b 0).
      { induction a as [|u a IH]; intros [|v b] k E; try discriminate; destruct k; cbn [map2 nth]; try ring. apply IH. injection E; auto. }
      apply G, Lw.
    - generalize (seq 0 m). intros ks. induction ks as [|k ks IH]; cbn [map map2]; constructor; [apply nth_inputs; assumption|exact IH].
  Qed.
  (** The rows seen by the two verifiers together, at the point x. *)
  Definition seen (w : list A) (V : list (list A)) (x : A) : list (list A) :=
    map (fun j => map (fun i => lsum O lag (point_values O l m w V j i) x) (seq 0 n)) (seq 0 l).

  Variable eqb : A -> A -> bool.
  Lemma combine_ok thetas s1 s2 w w' V V' r : length thetas = l -> Forall wf thetas ->
    length w = length w' -> shape V -> shape V' ->
    length (ds_f s1) = (n * l)%nat -> Forall wf (ds_f s1) -> Forall2 req (map (rowval w V r) (rows n l)) (ds_f s1) ->
    length (ds_f s2) = (n * l)%nat -> Forall wf (ds_f s2) -> Forall2 req (map (rowval w' V' r) (rows n l)) (ds_f s2) ->
    exists pr u, wf u /\ red u = Ok pr /\ u == gsem thetas (seen (map2 (oadd O) w w') (add_inputs V V') r) /\
      combine_verifications O red eqb n cf l thetas s1 s2 =
        if oz O (ds_b s1 + ds_b s2) && eqb pr (ds_pr s1 + ds_pr s2) then Ok tt else Err EDZKPVerify.
  Proof.
    intros Lt Wt Lw HV HV' L1 W1 F1 L2 W2 F2. unfold combine_verifications. rewrite Lt, Nat.eqb_refl, L1, L2, !Nat.eqb_refl. cbn [negb orb].
    set (u := g_sum n cf O (omul O) thetas (map2 (oadd O) (ds_f s1) (ds_f s2))).
    assert (Wu : wf u).
    { unfold u, g_sum. assert (C : Forall (Forall wf) (chunks n (map2 (oadd O) (ds_f s1) (ds_f s2)))).
      { assert (C0 : Forall wf (map2 (oadd O) (ds_f s1) (ds_f s2))) by (apply (map2_Forall _ wf wf wf); auto; intros; apply (rk_wfadd _ _ _ HO); assumption).
        revert C0. unfold chunks. generalize (map2 (oadd O) (ds_f s1) (ds_f s2)) as f. intros f. generalize (length f). intros fuel. revert f.
        induction fuel as [|fuel IH]; intros f C0; cbn; [constructor|]. destruct f as [|p f]; [constructor|].
        constructor; [apply Forall_forall; intros q Hq; rewrite Forall_forall in C0; apply C0; exact (in_firstn _ _ _ Hq)|].
        apply IH. apply Forall_forall. intros q Hq. rewrite Forall_forall in C0. apply C0. rewrite <- (firstn_skipn n). apply in_or_app. right. exact Hq. }
      revert C. generalize (chunks n (map2 (oadd O) (ds_f s1) (ds_f s2))) as rs. intros rs C.
      assert (G : forall rs acc, Forall (Forall wf) rs -> wf acc -> wf (fold_left (fun res tf => res + cf A O (snd tf) * fst tf) (combine thetas rs) acc)).
      { clear - Wt Hcf HO. induction Wt as [|t ts Wt0 _ IH]; intros [|r rs] acc C Wa; cbn [combine fold_left]; auto. inversion_clear C. apply IH; auto. cbn [fst snd].
        apply (rk_wfadd _ _ _ HO); [exact Wa|]. apply (rk_wfmul _ _ _ HO); [apply (cf_wf Hcf); assumption|exact Wt0]. }
      apply G; [exact C|apply (rk_wf0 _ _ _ HO)]. }
    destruct (Hred u Wu) as (pr & Epr & _ & _). exists pr, u. split; [exact Wu|]. split; [exact Epr|]. split.
    - unfold u. rewrite g_sum_sem. apply gsem_proper. unfold seen.
      rewrite <- (rows_chunks (rowval (map2 (oadd O) w w') (add_inputs V V') r)).
      apply Forall2_chunks. clear - F1 F2 Lw HV HV' HO Hn Hm. revert F1 F2. generalize (ds_f s1) (ds_f s2). induction (rows n l) as [|ji rs IH]; cbn [map]; intros f1 f2 F1 F2; inversion_clear F1; inversion_clear F2; cbn [map2]; constructor.
      + rewrite rowval_add by assumption. apply add_proper'; symmetry; assumption.
      + apply IH; assumption.
    - rewrite Epr. cbn [rbind]. destruct (oz O (ds_b s1 + ds_b s2)); reflexivity.
  Qed.

  (** ** The honest prover *)
  Lemma prove_ok V thetas w : length thetas = l -> Forall wf thetas -> length V = (l * m)%nat -> wfi V -> Forall wf w ->
    exists g, prove O red n cf l m V thetas lag w = Ok g /\ length g = (2 * m + 1)%nat /\ Forall wf g /\
      forall x, ev g x == gsem thetas (seen w V x).
  Proof.
    intros Lt Wt LV WV Ww. destruct Hlag as (Ll & _ & Wl & Bl). unfold prove. rewrite Lt, Ll, Hm, LV, !Nat.eqb_refl. cbn [negb orb].
    destruct (mapM_res_nth (fun ji => interpolate O (point_values O l m w V (fst ji) (snd ji)) lag) (rows n l)
      (fun ji p => (forall x, rowval w V x ji == ev p x) /\ Forall wf p /\ (length p <= S m)%nat)) as (f & Ef & Hf).
    { intros ji _. destruct (interpolate_ok O req wf HO lag (point_values O l m w V (fst ji) (snd ji))) as (q & Eq & Hq); [rewrite point_values_length; lia|].
      destruct (interpolate_wf O req wf HO lag _ q (m + 1) Eq Wl) as [Wq Lq]; [apply point_values_wf; assumption|rewrite <- Hm; exact Bl|].
      exists q. split; [exact Eq|]. split; [intros x; symmetry; apply Hq|]. split; [exact Wq|lia]. }
    rewrite Ef. cbn [rbind].
    assert (F1 : Forall (Forall wf) f) by (clear - Hf; induction Hf as [|? ? ? ? (? & ? & ?) _ IH]; constructor; assumption).
    assert (F2 : Forall (fun p => length p <= S m)%nat f) by (clear - Hf; induction Hf as [|? ? ? ? (? & ? & ?) _ IH]; constructor; assumption).
    destruct (g_poly_wf thetas f m Wt F1 F2) as [Wg Lg].
    destruct (mapM_red req wf red Hred _ Wg) as (g & Eg & Hg & Wg'). rewrite Eg. cbn [rbind]. eexists. split; [reflexivity|].
    pose proof (Forall2_len _ _ _ Hg) as Lg'. unfold resize. rewrite firstn_all2 by lia.
    assert (Ez : forall k x, ev (g ++ repeat 0 k) x == ev g x).
    { intros k x. clear - HO. induction g as [|c g IH]; cbn [app]; [|rewrite !ev_cons, IH; reflexivity]. induction k as [|k IH]; cbn [repeat]; [reflexivity|]. rewrite ev_cons, IH, ev_nil. ring. }
    split; [rewrite app_length, repeat_length; lia|]. split.
    - apply Forall_app. split; [exact Wg'|]. apply Forall_forall. intros a Ha. apply repeat_spec in Ha. subst a. apply (rk_wf0 _ _ _ HO).
    - intros x. rewrite Ez, <- (ev_proper O req wf HO _ _ x x Hg) by reflexivity. rewrite g_poly_sem. apply gsem_proper. unfold seen.
      rewrite <- (rows_chunks (rowval w V x)). apply Forall2_chunks. clear - Hf HO. induction Hf as [|ji p rs f (Hp & _) _ IH]; cbn [map]; constructor; [symmetry; apply Hp|exact IH].
  Qed.
  (** At the points 1 .. m the rows are the inputs of the gates. *)
  Lemma seen_point w V k : shape V -> (1 <= k <= m)%nat ->
    Forall2 (Forall2 req) (seen w V (nth k xs 0)) (map (fun j => nth (j * m + (k - 1)) V []) (seq 0 l)).
  Proof.
    intros [LV FV] Hk. unfold seen. assert (HI : forall j, In j (seq 0 l) -> (j < l)%nat) by (intros j Hj; apply in_seq in Hj; lia). revert HI. generalize (seq 0 l) as js. intros js HI. induction js as [|j js IH]; cbn [map]; constructor; [|apply IH; intros; apply HI; right; assumption].
    assert (Hj : (j < l)%nat) by (apply HI; left; reflexivity).
    assert (Ln : length (nth (j * m + (k - 1)) V []) = n).
    { rewrite Forall_forall in FV. apply FV, nth_In. rewrite LV. assert (j * m + m <= m * l)%nat by nia. lia. }
    apply (nth_Forall2 req _ _ 0 0); [rewrite map_length, seq_length; lia|]. rewrite map_length, seq_length. intros i Hi.
    rewrite (nth_indep _ 0 (lsum O lag (point_values O l m w V j 0) (nth k xs 0))) by (rewrite map_length, seq_length; exact Hi).
    rewrite (map_nth (fun i => lsum O lag (point_values O l m w V j i) (nth k xs 0))), seq_nth by exact Hi. cbn [Nat.add].
    rewrite (lsum_point O req wf HO xs lag) by (try exact Hlag; rewrite ?point_values_length; lia).
    unfold point_values. destruct k as [|k]; [lia|]. cbn [nth]. replace (S k - 1)%nat with k by lia.
    rewrite (nth_indep _ 0 (nth i (nth (j * m + 0) V []) 0)) by (rewrite map_length, seq_length; lia).
    rewrite (map_nth (fun k => nth i (nth (j * m + k) V []) 0)), seq_nth by lia. reflexivity.
  Qed.
  Lemma gsem_zero thetas rs : Forall (fun r => cf A O r == 0) rs -> gsem thetas rs == 0.
  Proof. intros H. revert thetas. induction H as [|r rs Hr _ IH]; intros [|t thetas]; cbn [gsem]; try reflexivity. rewrite Hr, IH. ring. Qed.
  Lemma bsum_zero betas coords a : (forall x, In x coords -> ev a x == 0) -> bsum betas coords a == 0.
  Proof. revert betas. induction coords as [|x coords IH]; intros [|b betas] H; cbn [bsum]; try reflexivity. rewrite (H x) by (left; reflexivity). rewrite IH by (intros; apply H; right; assumption). ring. Qed.

  (** ** Completeness, up to the final comparison *)
  (** The gates hold, and the two verifiers' inputs add up to the prover's. *)
  Definition gates_ok (V V1 V2 : list (list A)) : Prop :=
    shape V /\ shape V1 /\ shape V2 /\ wfi V /\ wfi V1 /\ wfi V2 /\
    Forall2 (Forall2 req) V (add_inputs V1 V2).
  (** The gates of column k. *)
  Definition column (V : list (list A)) (k : nat) : list (list A) := map (fun j => nth (j * m + k) V []) (seq 0 l).
  Lemma columns_ok thetas V : shape V -> Forall (fun v => cf A O v == 0) V -> forall k, (k < m)%nat -> gsem thetas (column V k) == 0.
  Proof.
    intros HV HC k Hk. apply gsem_zero. apply Forall_forall. intros v Hv. apply in_map_iff in Hv. destruct Hv as (j & <- & Hj). apply in_seq in Hj.
    rewrite Forall_forall in HC. apply HC, nth_In. rewrite (proj1 HV). assert (j * m + m <= m * l)%nat by nia. lia.
  Qed.
  Hypothesis Hzero : forall u v u' v', wf u -> wf v -> red u = Ok u' -> red v = Ok v' -> u + v == 0 -> oz O (u' + v') = true.
  Lemma shares_add w g (p : dproof A) : length w = length (dp_w p) -> length g = length (dp_a p) ->
    Forall2 req (map2 (oadd O) (dp_w (explicit_share O w g p)) (dp_w p)) w /\ Forall2 req (map2 (oadd O) (dp_a (explicit_share O w g p)) (dp_a p)) g.
  Proof.
    intros Lw La. cbn [explicit_share dp_w dp_a].
    assert (G : forall a b, length a = length b -> Forall2 req (map2 (oadd O) (map2 (osub O) a b) b) a).
    { induction a as [|x a IH]; intros [|y b] E; try discriminate; cbn [map2]; constructor; [ring|apply IH; injection E; auto]. }
    split; apply G; assumption.
  Qed.
  Lemma seen_proper w w' V V' x : Forall2 req w w' -> Forall2 (Forall2 req) V V' -> Forall2 (Forall2 req) (seen w V x) (seen w' V' x).
  Proof.
    intros Hw HV.
    assert (NF : forall (a b : list A) k, Forall2 req a b -> nth k a 0 == nth k b 0).
    { intros a b k H. revert k. induction H as [|? ? ? ? Hxy _ IHn]; intros [|k]; cbn; try reflexivity; auto. }
    assert (NG : forall q, Forall2 req (nth q V []) (nth q V' [])).
    { clear - HV. induction HV as [|? ? ? ? Hxy _ IHn]; intros [|q]; cbn; try constructor; auto. }
    assert (E : forall j i, lsum O lag (point_values O l m w V j i) x == lsum O lag (point_values O l m w' V' j i) x).
    { intros j i. apply (lsum_proper O req wf HO). unfold point_values. constructor; [apply NF, Hw|].
      generalize (seq 0 m) as ks. intros ks. induction ks as [|k ks IHk]; cbn [map]; constructor; [apply NF, NG|exact IHk]. }
    unfold seen. generalize (seq 0 n) as is. intros is. generalize (seq 0 l) as js. intros js.
    induction js as [|j js IH]; cbn [map]; constructor; [|exact IH]. clear IH. induction is as [|i is IHi]; cbn [map]; constructor; [apply E|exact IHi].
  Qed.
  Theorem dzkp_complete V V1 V2 thetas betas r w p2 : gates_ok V V1 V2 -> (forall k, (k < m)%nat -> gsem thetas (column V k) == 0) ->
    length thetas = l -> Forall wf thetas -> length betas = m -> Forall wf betas -> wf r ->
    length w = (n * l)%nat -> Forall wf w -> length (dp_w p2) = (n * l)%nat -> Forall wf (dp_w p2) -> length (dp_a p2) = (2 * m + 1)%nat -> Forall wf (dp_a p2) ->
    exists g s1 s2, prove O red n cf l m V thetas lag w = Ok g /\ length g = (2 * m + 1)%nat /\
      verify_pi O red n l m betas r lag xs V1 (explicit_share O w g p2) = Ok s1 /\
      verify_pi O red n l m betas r lag xs V2 p2 = Ok s2 /\
      exists pr u u1 u2, wf u /\ wf u1 /\ wf u2 /\ red u = Ok pr /\ red u1 = Ok (ds_pr s1) /\ red u2 = Ok (ds_pr s2) /\ u == u1 + u2 /\
        combine_verifications O red eqb n cf l thetas s1 s2 = if eqb pr (ds_pr s1 + ds_pr s2) then Ok tt else Err EDZKPVerify.
  Proof.
    intros (HV & HV1 & HV2 & WV & WV1 & WV2 & HA) HC Lt Wt Lb Wb Wr Lw Ww Lw2 Ww2 La2 Wa2.
    destruct (prove_ok V thetas w Lt Wt) as (g & Eg & Lg & Wg & Hg); [rewrite (proj1 HV); lia|exact WV|exact Ww|].
    exists g. set (p1 := explicit_share O w g p2).
    assert (Lw1 : length (dp_w p1) = (n * l)%nat) by (unfold p1; cbn; rewrite map2_length by lia; lia).
    assert (La1 : length (dp_a p1) = (2 * m + 1)%nat) by (unfold p1; cbn; rewrite map2_length by lia; lia).
    assert (Ww1 : Forall wf (dp_w p1)) by (apply (map2_Forall _ wf wf wf); auto; intros; apply (rk_wfsub _ _ _ HO); assumption).
    assert (Wa1 : Forall wf (dp_a p1)) by (apply (map2_Forall _ wf wf wf); auto; intros; apply (rk_wfsub _ _ _ HO); assumption).
    destruct (shares_add w g p2 ltac:(lia) ltac:(lia)) as [Sw Sa]. fold p1 in Sw, Sa.
    destruct (verify_pi_ok betas r V1 p1 Lb (proj1 HV1) Wb Wr WV1 Ww1 Wa1 Lw1 La1) as (s1 & u1 & v1 & E1 & L1 & W1 & F1 & (Wu1 & R1 & Q1) & (Wv1 & B1 & D1)).
    destruct (verify_pi_ok betas r V2 p2 Lb (proj1 HV2) Wb Wr WV2 Ww2 Wa2 Lw2 La2) as (s2 & u2 & v2 & E2 & L2 & W2 & F2 & (Wu2 & R2 & Q2) & (Wv2 & B2 & D2)).
    exists s1, s2. split; [exact Eg|]. split; [exact Lg|]. split; [exact E1|]. split; [exact E2|].
    destruct (combine_ok thetas s1 s2 (dp_w p1) (dp_w p2) V1 V2 r Lt Wt ltac:(lia) HV1 HV2 L1 W1 F1 L2 W2 F2) as (pr & u & Wu & Ru & Qu & EC).
    exists pr, u, u1, u2. do 6 (split; [assumption|]). split.
    - rewrite Qu, Q1, Q2, <- ev_map2_add by lia. rewrite (ev_proper O req wf HO _ _ r r Sa) by reflexivity. rewrite Hg. apply gsem_proper. apply seen_proper; [exact Sw|].
      clear - HA HO Hn Hm. induction HA as [|a b la lb Hab _ IH]; constructor; [|exact IH]. clear - Hab HO. induction Hab; constructor; [symmetry; assumption|assumption].
    - rewrite EC. rewrite (Hzero v1 v2 (ds_b s1) (ds_b s2) Wv1 Wv2 B1 B2); [reflexivity|].
      rewrite D1, D2, <- bsum_add by lia. apply bsum_zero. intros x Hx. rewrite (ev_proper O req wf HO _ _ x x Sa) by reflexivity. rewrite Hg.
      destruct (In_nth (tl xs) x 0 Hx) as (k & Hk & <-). assert (Lt' : length (tl xs) = m) by (destruct xs; cbn in *; lia).
      replace (nth k (tl xs) 0) with (nth (S k) xs 0) by (destruct xs; [cbn in Hm; lia|reflexivity]).
      rewrite (gsem_proper _ _ _ (seen_point w V (S k) HV ltac:(lia))). replace (S k - 1)%nat with k by lia. apply HC. lia.
  Qed.
End DzkpProofs.
