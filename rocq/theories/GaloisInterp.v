(** Interpolation over Galois rings, for points that differ modulo 2; long division. *)
From Coq Require Import Ring Setoid Morphisms Nnat.
From Verif Require Import Base Ring RingProofs Gf2 Gf2Proofs Gf2Field Poly PolyProofs PolyRing PolyDiv PolyRem PolyPar Galois GaloisSpec GaloisPoints GaloisDzkp GaloisSound Dzkp DzkpProofs DzkpSound IrisProofs.
Local Open Scope list_scope.

Section GI.
  Variable K : Z.
  Hypothesis HS : In K small_widths.
  Notation HW := (small_in K HS).
  Notation HK := (widths_pos K HW).
  Variables (d : nat) (f : list Z).
  Hypothesis Hf : irreducible_poly d = Ok f.
  Notation req := (req K d f).
  Notation wf := (Forall (inr K)).
  Notation G := (galois_ok K HS d f).
  Notation O := (pz_ops K).
  Local Instance req_equiv11 : Equivalence req := rk_equiv _ _ _ G.
  Notation small p := (length p <= d /\ Forall (inr K) p)%nat.
  Lemma rem_iff p q : wf p -> wf q -> (p_rem K p f = p_rem K q f <-> req p q).
  Proof using HS Hf.
    intros Wp Wq. destruct (f_split K HS d f Hf) as (Ef & Ll & _ & _ & _ & R). split.
    - intros E. destruct (rem_ok K HS d f Hf p Wp) as (r & Er & Cr & _). destruct (rem_ok K HS d f Hf q Wq) as (r' & Er' & Cr' & _). assert (r = r') by congruence. subst r'. rewrite Cr. symmetry. exact Cr'.
    - intros E. rewrite Ef. apply (p_rem_unique K HW (low d f)); [lia|exact Wp|exact Wq|exact E].
  Qed.
  Lemma small_unit p q : small p -> small q -> ~ same_mod2 p q -> exists v, mod_inverse K (osub O p q) f = Ok v /\ req (omul O (osub O p q) v) (p_one (zk_ops K)) /\ wf v.
  Proof using HS Hf.
    intros (Lp & Wp) (Lq & Wq) H. destruct (mod_inverse_ok K HS d f Hf (p_sub (zk_ops K) p q)) as (v & Ev & E & Wv).
    - apply (rk_wfsub _ _ _ G); assumption.
    - rewrite p_sub_len. lia.
    - rewrite (par_sub K HK). intros E. apply H, same_par, N.lxor_eq, E.
    - exists v. auto.
  Qed.
  Lemma different_nth xs i j : different_mod2 xs -> (i < length xs)%nat -> (j < length xs)%nat -> i <> j -> ~ same_mod2 (nth j xs []) (nth i xs []).
  Proof using.
    revert i j. induction xs as [|x xs IH]; intros i j D Hi Hj Hne; [cbn in Hi; lia|]. destruct D as [D1 D2]. destruct i as [|i], j as [|j]; cbn [nth length] in *; [congruence| | |apply IH; try assumption; lia].
    - apply D1, nth_In. lia.
    - intros S. apply (D1 (nth i xs [])); [apply nth_In; lia|]. intros k. symmetry. apply S.
  Qed.
  Variable xs : list (list Z).
  Hypothesis Hxs : Forall (fun p => small p) xs.
  Hypothesis HD : different_mod2 xs.
  Lemma xs_wf : Forall wf xs.
  Proof using Hxs. apply Forall_forall. intros x Hx. rewrite Forall_forall in Hxs. apply Hxs, Hx. Qed.
  Lemma galois_separated : separated O req wf (fun v => mod_inverse K v f) xs.
  Proof using All.
    intros i j Hi Hj Hne. rewrite Forall_forall in Hxs. apply small_unit; [apply Hxs, nth_In, Hj|apply Hxs, nth_In, Hi|]. apply different_nth; assumption.
  Qed.
  Lemma xs_spread : spread O req xs.
  Proof using HS Hf Hxs HD.
    clear - HS Hf Hxs HD. revert HD. induction Hxs as [|r rs Hr Hrs IH]; cbn; [auto|]. intros [D1 D2]. split; [|apply IH; assumption]. apply Forall_forall. intros r' Hr'. rewrite Forall_forall in Hrs.
    destruct (small_unit r' r (Hrs r' Hr') Hr (D1 r' Hr')) as (v & _ & E & _). exists v. exact E.
  Qed.
  Lemma galois_lagrange : exists lag, gr_lagrange K xs f = Ok lag /\ lagrange_ok O req wf xs lag.
  Proof using All. exact (lagrange_polys_ok O req wf G (fun v => mod_inverse K v f) xs galois_separated xs_wf (fun c => p_rem K c f) (rem_ok K HS d f Hf)). Qed.
  Lemma ev_wf p x : Forall wf p -> wf x -> wf (p_eval O p x).
  Proof using HS d f. exact (wf_p_eval O req wf G p x). Qed.
  Theorem galois_interpolate : exists lag, gr_lagrange K xs f = Ok lag /\
    forall ys, polys K (length xs) ys ->
    exists p, interpolate O ys lag = Ok p /\ (length p <= length xs)%nat /\ Forall wf p /\
      (forall k, (k < length xs)%nat -> p_rem K (p_eval O p (nth k xs [])) f = p_rem K (nth k ys []) f) /\
      (forall q, Forall wf q -> (length q <= length xs)%nat -> (forall k, (k < length xs)%nat -> p_rem K (p_eval O q (nth k xs [])) f = p_rem K (nth k ys []) f) ->
         forall x, wf x -> p_rem K (p_eval O q x) f = p_rem K (p_eval O p x) f).
  Proof using All.
    destruct galois_lagrange as (lag & El & Hl). exists lag. split; [exact El|]. intros ys (Ly & Wy).
    pose proof Hl as (Ll & _ & Wl & Bl). destruct (interpolate_ok O req wf G lag ys) as (p & Ep & Hp); [lia|].
    destruct (interpolate_wf O req wf G lag ys p (length xs) Ep Wl Wy Bl) as [Wp Lp].
    assert (Wn : forall k, wf (nth k xs [])) by (intros k; apply (nth_wf O req wf G xs k xs_wf)).
    assert (Wyn : forall k, wf (nth k ys [])) by (intros k; apply (nth_wf O req wf G ys k Wy)).
    assert (Hk : forall k, (k < length xs)%nat -> req (p_eval O p (nth k xs [])) (nth k ys [])).
    { intros k Hk. etransitivity; [apply Hp|]. apply (lsum_point O req wf G xs lag ys k Hl Ly Hk). }
    exists p. split; [exact Ep|]. split; [exact Lp|]. split; [exact Wp|]. split; [intros k Hlt; apply rem_iff; auto using ev_wf|].
    intros q Wq Lq Hq x Wx. apply rem_iff; auto using ev_wf.
    assert (Z : forall x, req (p_eval O (p_sub O q p) x) []).
    { apply (too_many_roots O req wf G (p_sub O q p) xs xs_spread); [|rewrite p_sub_len; lia].
      apply Forall_forall. intros y Hy. destruct (In_nth xs y [] Hy) as (k & Hlt & <-). etransitivity; [apply (ev_sub O req wf G)|].
      etransitivity; [apply (sub_proper O req wf G); [apply rem_iff; [auto using ev_wf|apply Wyn|apply Hq, Hlt]|apply Hk, Hlt]|]. apply (sub_zero O req wf G). }
    specialize (Z x). apply (sub_zero_eq O req wf G). etransitivity; [symmetry; apply (ev_sub O req wf G)|exact Z].
  Qed.
  Theorem galois_interpolate_linear lag : gr_lagrange K xs f = Ok lag ->
    forall ys zs, polys K (length xs) ys -> polys K (length xs) zs ->
    exists p q pq, interpolate O ys lag = Ok p /\ interpolate O zs lag = Ok q /\ interpolate O (map2 (p_add (zk_ops K)) ys zs) lag = Ok pq /\
      forall x, wf x -> p_rem K (p_eval O pq x) f = p_rem K (p_add (zk_ops K) (p_eval O p x) (p_eval O q x)) f.
  Proof using All.
    intros El ys zs (Ly & Wy) (Lz & Wz). destruct galois_lagrange as (lag' & El' & Hl). rewrite El in El'. injection El' as <-.
    destruct Hl as (Ll & _ & Wl & Bl). destruct (interpolate_ok O req wf G lag ys) as (p & Ep & Hp); [lia|].
    destruct (interpolate_ok O req wf G lag zs) as (q & Eq & Hq); [lia|].
    destruct (interpolate_ok O req wf G lag (map2 (oadd O) ys zs)) as (pq & Epq & Hpq); [rewrite map2_length by lia; lia|].
    assert (Wyz : Forall wf (map2 (oadd O) ys zs)) by (apply (map2_Forall (oadd O) wf wf wf); auto; apply (rk_wfadd _ _ _ G)).
    pose proof (proj1 (interpolate_wf O req wf G lag ys p (length xs) Ep Wl Wy Bl)) as Wp.
    pose proof (proj1 (interpolate_wf O req wf G lag zs q (length xs) Eq Wl Wz Bl)) as Wq.
    pose proof (proj1 (interpolate_wf O req wf G lag _ pq (length xs) Epq Wl Wyz Bl)) as Wpq.
    exists p, q, pq. repeat (split; [assumption|]). intros x Wx. apply rem_iff; [auto using ev_wf|apply (rk_wfadd _ _ _ G); auto using ev_wf|].
    etransitivity; [apply Hpq|]. etransitivity; [apply (lsum_add O req wf G lag ys zs x); lia|]. apply (Radd_ext (rk_ext _ _ _ G)); symmetry; [apply Hp|apply Hq].
  Qed.
End GI.

(** ** Rings of 64 bits or more *)
Lemma wide_inverse K a f n : 64 <= K -> mod_inverse_inner K a f n = Err EPanic.
Proof.
  intros HK. induction n as [|[|n] IH]; [reflexivity| |].
  - cbn [mod_inverse_inner]. unfold to_gf2p64. replace (K <? 64) with false by lia. reflexivity.
  - change (mod_inverse_inner K a f (S (S n))) with (rbind (mod_inverse_inner K a f (S n)) (fun v =>
        rbind (p_rem K (p_sub (zk_ops K) (p_mul (zk_ops K) v a) [1]) f) (fun r => p_rem K (p_sub (zk_ops K) v (p_mul (zk_ops K) r v)) f))). rewrite IH. reflexivity.
Qed.
Theorem wide_lagrange K f xs : 64 <= K -> (2 <= length xs)%nat -> gr_lagrange K xs f = Err EPanic.
Proof.
  intros HK HL. destruct xs as [|x0 [|x1 xs]]; try (cbn in HL; lia).
  assert (I : forall v, mod_inverse K v f = Err EPanic) by (intros v; apply wide_inverse, HK).
  assert (F : forall (h : res (list (list Z)) -> nat -> res (list (list Z))) is, (forall i, h (Err EPanic) i = Err EPanic) -> fold_left h is (Err EPanic) = Err EPanic).
  { intros h is H. induction is as [|i is IH]; [reflexivity|]. cbn [fold_left]. rewrite H. exact IH. }
  assert (E : lagrange_poly (pz_ops K) (fun v => mod_inverse K v f) (x0 :: x1 :: xs) 0 = Err EPanic).
  { unfold lagrange_poly. cbn [length seq fold_left Nat.eqb rbind]. rewrite I. cbn [rbind]. apply F. intros i. reflexivity. }
  unfold gr_lagrange, lagrange_polys. cbn [length seq mapM_res]. rewrite E. reflexivity.
Qed.
