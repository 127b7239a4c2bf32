(** Interpolation over GF(2^64), for any different points. *)
From Coq Require Import Ring Setoid Morphisms.
From Verif Require Import Base Ring Gf2 Gf2Proofs Gf2Field Poly PolyProofs GfRing Dzkp DzkpProofs DzkpSpec DzkpSound DzkpAnd IrisProofs.
Local Open Scope list_scope.

Lemma gf_separated xs : Forall u64 xs -> NoDup xs -> separated gf_ops gf_eq gf_wf gf_inverse xs.
Proof.
  intros W ND i j Hi Hj Hne. cbn [o0 osub gf_ops]. unfold gf_add. rewrite Forall_forall in W.
  destruct (gf_inverse_ok (N.lxor (nth j xs 0%N) (nth i xs 0%N))) as (b & E & Wb & Hb).
  - apply lxor_lt; apply W, nth_In; assumption.
  - intros E. apply N.lxor_eq in E. apply Hne. symmetry. apply (NoDup_nth xs 0%N); auto.
  - exists b. split; [exact E|]. split; [|exact Wb]. change (gf_eq (gf_mul (N.lxor (nth j xs 0%N) (nth i xs 0%N)) b) 1%N). rewrite Hb. reflexivity.
Qed.
Lemma gf_eval_wf p x : Forall u64 p -> u64 x -> u64 (p_eval gf_ops p x).
Proof. exact (wf_p_eval gf_ops gf_eq gf_wf GF p x). Qed.
Lemma gf_lagrange_ok xs : Forall u64 xs -> NoDup xs -> exists lag, gf_lagrange xs = Ok lag /\ lagrange_ok gf_ops gf_eq gf_wf xs lag.
Proof. intros W ND. apply (lagrange_polys_ok gf_ops gf_eq gf_wf GF gf_inverse xs (gf_separated xs W ND) W (@Ok N) ok_red). Qed.
Theorem gf_interpolate xs lag : Forall u64 xs -> NoDup xs -> gf_lagrange xs = Ok lag ->
  forall ys, u64s (length xs) ys ->
  exists p, interpolate gf_ops ys lag = Ok p /\ (length p <= length xs)%nat /\ Forall u64 p /\
    (forall k, (k < length xs)%nat -> p_eval gf_ops p (nth k xs 0%N) = nth k ys 0%N) /\
    (forall q, Forall u64 q -> (length q <= length xs)%nat -> (forall k, (k < length xs)%nat -> p_eval gf_ops q (nth k xs 0%N) = nth k ys 0%N) ->
       forall x, u64 x -> p_eval gf_ops q x = p_eval gf_ops p x).
Proof.
  intros W ND El ys (Ly & Wy). destruct (gf_lagrange_ok xs W ND) as (lag' & El' & Hl). rewrite El in El'. injection El' as <-.
  pose proof Hl as (Ll & _ & Wl & Bl). destruct (interpolate_ok gf_ops gf_eq gf_wf GF lag ys) as (p & Ep & Hp); [lia|].
  destruct (interpolate_wf gf_ops gf_eq gf_wf GF lag ys p (length xs) Ep Wl Wy Bl) as [Wp Lp].
  assert (Wn : forall k, u64 (nth k xs 0%N)) by (intros k; apply (nth_wf gf_ops gf_eq gf_wf GF xs k W)).
  assert (Hk : forall k, (k < length xs)%nat -> p_eval gf_ops p (nth k xs 0%N) = nth k ys 0%N).
  { intros k Hk. apply gf_eq_eq; [apply gf_eval_wf; auto|apply (nth_wf gf_ops gf_eq gf_wf GF ys k Wy)|]. rewrite Hp. apply (lsum_point gf_ops gf_eq gf_wf GF xs lag ys k Hl Ly Hk). }
  exists p. split; [exact Ep|]. split; [exact Lp|]. split; [exact Wp|]. split; [exact Hk|].
  intros q Wq Lq Hq x Wx. apply gf_eq_eq; [apply gf_eval_wf; assumption|apply gf_eval_wf; assumption|].
  assert (Z : forall x, gf_eq (p_eval gf_ops (p_sub gf_ops q p) x) 0%N).
  { apply (too_many_roots gf_ops gf_eq gf_wf GF (p_sub gf_ops q p) xs (nodup_spread xs W ND)); [|rewrite p_sub_len; lia].
    apply Forall_forall. intros y Hy. destruct (In_nth xs y 0%N Hy) as (k & Hlt & <-). rewrite (ev_sub gf_ops gf_eq gf_wf GF), Hq, Hk by exact Hlt.
    cbn. unfold gf_add. rewrite N.lxor_nilpotent. reflexivity. }
  specialize (Z x). rewrite (ev_sub gf_ops gf_eq gf_wf GF) in Z. cbn [osub gf_ops] in Z. unfold gf_add in Z.
  apply gf_eq_eq in Z; [|apply lxor_lt; apply gf_eval_wf; assumption|reflexivity]. apply N.lxor_eq in Z. rewrite Z. reflexivity.
Qed.
Theorem gf_interpolate_linear xs lag : Forall u64 xs -> NoDup xs -> gf_lagrange xs = Ok lag ->
  forall ys zs, u64s (length xs) ys -> u64s (length xs) zs ->
  exists p q pq, interpolate gf_ops ys lag = Ok p /\ interpolate gf_ops zs lag = Ok q /\ interpolate gf_ops (map2 gf_add ys zs) lag = Ok pq /\
    forall x, u64 x -> p_eval gf_ops pq x = gf_add (p_eval gf_ops p x) (p_eval gf_ops q x).
Proof.
  intros W ND El ys zs (Ly & Wy) (Lz & Wz). destruct (gf_lagrange_ok xs W ND) as (lag' & El' & Hl). rewrite El in El'. injection El' as <-.
  destruct Hl as (Ll & _ & Wl & Bl). destruct (interpolate_ok gf_ops gf_eq gf_wf GF lag ys) as (p & Ep & Hp); [lia|].
  destruct (interpolate_ok gf_ops gf_eq gf_wf GF lag zs) as (q & Eq & Hq); [lia|].
  destruct (interpolate_ok gf_ops gf_eq gf_wf GF lag (map2 gf_add ys zs)) as (pq & Epq & Hpq); [rewrite map2_length by lia; lia|].
  assert (Wyz : Forall gf_wf (map2 gf_add ys zs)) by (apply (map2_Forall gf_add gf_wf gf_wf gf_wf); auto; apply (rk_wfadd _ _ _ GF)).
  pose proof (proj1 (interpolate_wf gf_ops gf_eq gf_wf GF lag ys p (length xs) Ep Wl Wy Bl)) as Wp.
  pose proof (proj1 (interpolate_wf gf_ops gf_eq gf_wf GF lag zs q (length xs) Eq Wl Wz Bl)) as Wq.
  pose proof (proj1 (interpolate_wf gf_ops gf_eq gf_wf GF lag _ pq (length xs) Epq Wl Wyz Bl)) as Wpq.
  exists p, q, pq. repeat (split; [assumption|]). intros x Wx. apply gf_eq_eq; [apply gf_eval_wf; assumption|apply lxor_lt; apply gf_eval_wf; assumption|].
  change (gf_add (p_eval gf_ops p x) (p_eval gf_ops q x)) with (oadd gf_ops (p_eval gf_ops p x) (p_eval gf_ops q x)).
  rewrite Hpq. etransitivity; [apply (lsum_add gf_ops gf_eq gf_wf GF lag ys zs x); lia|]. apply (Radd_ext (rk_ext _ _ _ GF)); symmetry; [apply Hp|apply Hq].
Qed.

(** ** A repeated point *)
Definition fine {A} (x : res A) : Prop := match x with Ok _ => True | Err e => e = EPanic end.
Lemma gf_step_err xs j is e : fold_left (fun acc i => rbind acc (fun poly => if Nat.eqb i j then Ok poly
    else rbind (gf_inverse (osub gf_ops (nth j xs 0%N) (nth i xs 0%N))) (fun v => Ok (p_mul gf_ops (p_scale gf_ops [oneg gf_ops (nth i xs 0%N); 1%N] v) poly)))) is (Err e) = Err e.
Proof. induction is as [|i is IH]; [reflexivity|]. cbn [fold_left rbind]. exact IH. Qed.
Lemma gf_loop_err xs j is : forall acc, fine acc ->
  let out := fold_left (fun acc i => rbind acc (fun poly => if Nat.eqb i j then Ok poly
    else rbind (gf_inverse (osub gf_ops (nth j xs 0%N) (nth i xs 0%N))) (fun v => Ok (p_mul gf_ops (p_scale gf_ops [oneg gf_ops (nth i xs 0%N); 1%N] v) poly)))) is acc in
  fine out /\ ((exists i, In i is /\ i <> j /\ nth i xs 0%N = nth j xs 0%N) -> out = Err EPanic).
Proof.
  induction is as [|i is IH]; intros acc Ha; cbn [fold_left].
  - split; [exact Ha|]. intros (i & [] & _).
  - destruct acc as [poly|e]; [|cbn [rbind]; rewrite gf_step_err; cbn in Ha; subst e; split; [reflexivity|reflexivity]]. cbn [rbind].
    destruct (Nat.eqb_spec i j) as [->|Hne].
    + destruct (IH (Ok poly) I) as [H1 H2]. split; [exact H1|]. intros (k & [<-|Hk] & Hkj & E); [contradiction|]. apply H2. exists k. auto.
    + cbn [osub gf_ops]. unfold gf_inverse. destruct (N.eqb_spec (gf_add (nth j xs 0%N) (nth i xs 0%N)) 0) as [E|E]; cbn [rbind].
      * pose proof (gf_step_err xs j is EPanic) as X. cbn zeta. unfold gf_inverse in X. cbn [osub gf_ops] in X. rewrite X. split; reflexivity.
      * match goal with |- context [fold_left _ is (Ok ?q)] => destruct (IH (Ok q) I) as [H1 H2] end. split; [exact H1|].
        intros (k & [<-|Hk] & Hkj & E'); [exfalso; apply E; rewrite E'; apply N.lxor_nilpotent|]. apply H2. exists k. auto.
Qed.
Theorem gf_lagrange_repeated xs : ~ NoDup xs -> gf_lagrange xs = Err EPanic.
Proof.
  intros ND.
  assert (D : exists i j, (i < length xs)%nat /\ (j < length xs)%nat /\ i <> j /\ nth i xs 0%N = nth j xs 0%N).
  { clear - ND. induction xs as [|x xs IH]; [exfalso; apply ND; constructor|]. destruct (in_dec N.eq_dec x xs) as [Hin|Hout].
    - destruct (In_nth xs x 0%N Hin) as (k & Hk & E). exists (S k), 0%nat. cbn. repeat split; try lia; try exact E.
    - destruct IH as (i & j & Hi & Hj & Hne & E); [intros H; apply ND; constructor; assumption|]. exists (S i), (S j). cbn. repeat split; try lia; try exact E. }
  destruct D as (i & j & Hi & Hj & Hne & E). unfold gf_lagrange, lagrange_polys.
  assert (M : forall (f : nat -> res (list N)) js, (forall k, fine (f k)) -> In j js -> f j = Err EPanic -> mapM_res f js = Err EPanic).
  { clear. intros f js Hf. induction js as [|k js IH]; intros Hin Hj; [destruct Hin|]. destruct Hin as [->|Hin]; cbn.
    - rewrite Hj. reflexivity.
    - pose proof (Hf k) as Hk. destruct (f k) as [v|e]; cbn in *; [|rewrite Hk; reflexivity]. rewrite IH by assumption. reflexivity. }
  assert (Red : forall p, mapM_res (@Ok N) p = Ok p).
  { induction p as [|c p IHp]; [reflexivity|]. cbn. rewrite IHp. reflexivity. }
  apply M; [|apply in_seq; lia|].
  - intros k. pose proof (proj1 (gf_loop_err xs k (seq 0 (length xs)) (Ok (p_one gf_ops)) I)) as H. unfold lagrange_poly. cbv zeta in H |- *.
    match goal with |- fine (rbind ?x _) => change x with (fold_left (fun acc i => rbind acc (fun poly => if Nat.eqb i k then Ok poly
      else rbind (gf_inverse (osub gf_ops (nth k xs 0%N) (nth i xs 0%N))) (fun v => Ok (p_mul gf_ops (p_scale gf_ops [oneg gf_ops (nth i xs 0%N); 1%N] v) poly)))) (seq 0 (length xs)) (Ok (p_one gf_ops))) end.
    destruct (fold_left _ _ _) as [p|e]; cbn [rbind]; [rewrite Red; exact I|exact H].
  - pose proof (proj2 (gf_loop_err xs j (seq 0 (length xs)) (Ok (p_one gf_ops)) I)) as H. unfold lagrange_poly. cbv zeta in H |- *.
    match goal with |- rbind ?x _ = _ => change x with (fold_left (fun acc i => rbind acc (fun poly => if Nat.eqb i j then Ok poly
      else rbind (gf_inverse (osub gf_ops (nth j xs 0%N) (nth i xs 0%N))) (fun v => Ok (p_mul gf_ops (p_scale gf_ops [oneg gf_ops (nth i xs 0%N); 1%N] v) poly)))) (seq 0 (length xs)) (Ok (p_one gf_ops))) end.
    rewrite H; [reflexivity|]. exists i. repeat split; [apply in_seq; lia|exact Hne|exact E].
Qed.
