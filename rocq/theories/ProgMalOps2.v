(** Products, multiplications, inner products and openings of malicious ABY3 run by two honest parties. *)
From Verif Require Import Base Ring RingProofs Prog Sched Conc Rng Rel Net BitArith BinProofs AddProofs IrisProofs MpcSpec Aby3 ShareSpec Aby3Proofs Aby3Proofs2 SlicedProofs Jmp JmpProofs Session SessionProofs
  Aby3Mal Aby3MalProofs SacrificeProofs PropLemmas PropLemmas2 SpecProofs Duo DuoProofs MacSpec MacProofs Client ProgMalSpec ProgMalDuo ProgMalOps.
From Coq Require Import ZifyBool ZifyNat.

Section D.
  Variables (G : rng) (H : hasher) (i : pid).
  Notation j := (next i).
  Notation ST := (jst G).
  Notation coll := (hash_collision G H).
  Notation synced := (synced2 G).
  Notation clean := (clean G).
  Notation bts K l := (wire (map (pair K) l)).

  Definition quiet (s s' : ST) : Prop := j_snd G s' = j_snd G s /\ j_rcv G s' = j_rcv G s /\ j_log G s' = j_log G s.
  Lemma quiet_refl s : quiet s s. Proof. repeat split. Qed.
  Lemma quiet_trans s s' s'' : quiet s s' -> quiet s' s'' -> quiet s s''.
  Proof. intros (A & B & C) (D & E & F). repeat split; congruence. Qed.
  Lemma quiet_clean s t s' t' : quiet s s' -> quiet t t' -> clean s' t' <-> clean s t.
  Proof. intros (A & B & C) (D & E & F). unfold ProgMalDuo.clean. rewrite B, D. reflexivity. Qed.

  (** *** Randomness *)
  Lemma gen_rand_duo U (s t : ST) (Q : ST -> share -> ST -> share -> Prop) : 0 <= U -> synced s t ->
    (forall s' x t' y, synced s' t' -> quiet s s' -> quiet t t' -> paired U x y -> Q s' x t' y) ->
    duoM i (on_prf G (gen_rand G U)) (on_prf G (gen_rand G U)) s t Q.
  Proof.
    intros HU Hs HQ.
    assert (E : forall u : ST, on_prf G (gen_rand G U) u = Ret (JSt G (Prf G (fst (draw G U (my_prf G (j_prf G u)))) (fst (draw G U (next_prf G (j_prf G u))))) (j_snd G u) (j_rcv G u) (j_log G u),
      Share (snd (draw G U (my_prf G (j_prf G u)))) (snd (draw G U (next_prf G (j_prf G u)))))).
    { intros u. unfold on_prf, zoom, gen_rand, bindM, gen_rands. destruct (draw G U (my_prf G (j_prf G u))), (draw G U (next_prf G (j_prf G u))). reflexivity. }
    unfold duoM. rewrite !E. apply duo_ret. cbn [fst snd]. apply HQ; try (repeat split; apply draw_range; exact HU); [|repeat split..|].
    - unfold synced2. cbn. rewrite (Hs : next_prf _ _ = _). reflexivity.
    - split; [split; apply draw_range; exact HU|]. split; [split; apply draw_range; exact HU|]. cbn. rewrite (Hs : next_prf _ _ = _). reflexivity.
  Qed.
  Lemma paired_draws U my nx my' : forall n, length my = n -> length nx = n -> length my' = n -> Forall (inr U) my -> Forall (inr U) nx -> Forall (inr U) my' ->
    Forall2 (paired U) (map2 Share my nx) (map2 Share my' my).
  Proof.
    revert nx my'. induction my as [|a my IH]; intros [|b nx] [|c my'] n L1 L2 L3 F1 F2 F3; cbn in L1, L2, L3; subst n; try discriminate; cbn; constructor.
    - inversion F1; inversion F2; inversion F3; subst. split; [split; assumption|]. split; [split; assumption|reflexivity].
    - inversion F1; inversion F2; inversion F3; subst. apply (IH nx my' (length my)); auto.
  Qed.
  Lemma gen_rand_many_duo U n (s t : ST) (Q : ST -> list share -> ST -> list share -> Prop) : 0 <= U -> synced s t ->
    (forall s' x t' y, synced s' t' -> quiet s s' -> quiet t t' -> Forall2 (paired U) x y -> length x = n -> length y = n -> Q s' x t' y) ->
    duoM i (gen_rand_many G U n) (gen_rand_many G U n) s t Q.
  Proof.
    intros HU Hs HQ. unfold duoM, gen_rand_many, on_prf, zoom. rewrite !gen_rand_list. cbn [bind fst snd]. rewrite !repeat_length. apply duo_ret. cbn [fst snd].
    assert (L : forall a b, length (map2 Share (rnd G U n a) (rnd G U n b)) = n) by (intros; rewrite map2_length_eq; rewrite !rnd_length; reflexivity).
    apply HQ; [|repeat split..| |apply L|apply L].
    - unfold synced2. cbn. rewrite (Hs : next_prf _ _ = _). reflexivity.
    - rewrite (Hs : next_prf _ _ = _). apply (paired_draws U _ _ _ n); try apply rnd_length; apply rnd_range, HU.
  Qed.
  Lemma gen_rows_duo U (Bi Bj : list (list share)) : 0 <= U -> Forall2 (fun x y => length x = length y) Bi Bj -> forall (s t : ST) (Q : ST -> list (list share) -> ST -> list (list share) -> Prop), synced s t ->
    (forall s' x t' y, synced s' t' -> quiet s s' -> quiet t t' -> Forall2 (Forall2 (paired U)) x y -> Forall2 (fun x y => length x = length y) x Bi -> Forall2 (fun x y => length x = length y) y Bi -> Q s' x t' y) ->
    duoM i (mapM (fun b => gen_rand_many G U (length b)) Bi) (mapM (fun b => gen_rand_many G U (length b)) Bj) s t Q.
  Proof.
    intros HU F. induction F as [|bi bj Bi Bj E F IH]; intros s t Q Hs HQ; cbn [mapM].
    - apply duoM_ret. apply HQ; try apply quiet_refl; auto.
    - rewrite <- E. dbind. apply gen_rand_many_duo; [exact HU|exact Hs|]. intros s1 x t1 y Hs1 Q1 Q1' P L1 L2.
      dbind. apply IH; [exact Hs1|]. intros s2 xs t2 ys Hs2 Q2 Q2' P2 L3 L4. apply duoM_ret.
      apply HQ; [exact Hs2|eapply quiet_trans; eassumption..|constructor; assumption|constructor; assumption|constructor; assumption].
  Qed.

  (** *** Products: nothing is known about their values *)
  Lemma zero_rows_run {X Y} U (g : X -> Y -> M (prf G) Z) (P : X -> Y -> Prop) l l' :
    (forall x y f, P x y -> exists v, g x y f = Ret (Prf G (after G U 1 (my_prf G f)) (after G U 1 (next_prf G f)), v) /\ inr U v) ->
    Forall2 P l l' -> forall f, exists L, mapM2 g l l' f = Ret (Prf G (after G U (length l) (my_prf G f)) (after G U (length l) (next_prf G f)), L) /\ Forall (inr U) L /\ length L = length l.
  Proof.
    intros Hg F. induction F as [|x y l l' Pxy F IH]; intros f; cbn [mapM2 length].
    - exists []. destruct f. repeat split. constructor.
    - destruct (Hg x y f Pxy) as (v & E & Hv). destruct (IH (Prf G (after G U 1 (my_prf G f)) (after G U 1 (next_prf G f)))) as (L & E' & F' & L').
      exists (v :: L). split; [|split; [constructor; assumption|cbn; congruence]].
      unfold bindM. rewrite E. cbn [bind fst snd]. rewrite E'. cbn [bind fst snd]. reflexivity.
  Qed.
  Lemma reshare_duo U li lj (s t : ST) (Q : ST -> list share -> ST -> list share -> Prop) : In U widths -> Forall (inr U) li -> Forall (inr U) lj -> length li = length lj ->
    (forall x y, Forall2 (paired U) x y -> length x = length li -> length y = length li -> Q s x t y) ->
    duoM i (bindM (liftM (send_slice_and_receive_vec i U li)) (fun bs => retM (map2 Share li bs)))
           (bindM (liftM (send_slice_and_receive_vec j U lj)) (fun bs => retM (map2 Share lj bs))) s t Q.
  Proof.
    intros HU Fi Fj L HQ. dbind. unfold duoM, liftM, send_slice_and_receive_vec, send_and_receive. cbn [bind]. unfold duo.
    duostep. duostep. cbn [app]. apply duo_recv_prev. intros m Hm.
    apply duo_r_recv_prev. rewrite <- L. rewrite vec_roundtrip by assumption.
    match goal with |- duoq _ (bind (of_res ?r) _) _ _ _ _ => destruct r as [c|] eqn:E; cbn [of_res bind]; [|apply duo_fail_l] end.
    destruct (vec_range _ _ _ _ HU Hm E) as [Fc Lc]. apply duo_ret. cbn [fst snd]. apply duoM_ret. apply HQ.
    - apply (paired_draws U _ _ _ (length li)); auto.
    - rewrite map2_length_eq; auto.
    - rewrite map2_length_eq; auto.
  Qed.
  Lemma products_duo {X Y} U (g : X -> Y -> M (prf G) Z) (P : X -> Y -> Prop) li li' lj lj' (s t : ST) (Q : ST -> list share -> ST -> list share -> Prop) :
    (forall x y f, P x y -> exists v, g x y f = Ret (Prf G (after G U 1 (my_prf G f)) (after G U 1 (next_prf G f)), v) /\ inr U v) ->
    In U widths -> synced s t -> Forall2 P li li' -> Forall2 P lj lj' -> length li = length lj ->
    (forall s' x t' y, synced s' t' -> quiet s s' -> quiet t t' -> Forall2 (paired U) x y -> length x = length li -> length y = length li -> Q s' x t' y) ->
    duoM i (bindM (on_prf G (mapM2 g li li')) (fun l => bindM (liftM (send_slice_and_receive_vec i U l)) (fun bs => retM (map2 Share l bs))))
           (bindM (on_prf G (mapM2 g lj lj')) (fun l => bindM (liftM (send_slice_and_receive_vec j U l)) (fun bs => retM (map2 Share l bs)))) s t Q.
  Proof.
    intros Hg HU Hs Fi Fj L HQ. destruct (zero_rows_run U g P li li' Hg Fi (j_prf G s)) as (Li & Ei & Ri & LLi). destruct (zero_rows_run U g P lj lj' Hg Fj (j_prf G t)) as (Lj & Ej & Rj & LLj).
    dbind. unfold duoM at 1, on_prf, zoom. rewrite Ei, Ej. cbn [bind fst snd]. apply duo_ret. cbn [fst snd].
    apply reshare_duo; [exact HU|exact Ri|exact Rj|congruence|]. intros x y P2 L1 L2.
    apply HQ; [|repeat split..|exact P2|congruence|congruence].
    unfold synced2. cbn. rewrite (Hs : next_prf _ _ = _), L. reflexivity.
  Qed.
  Lemma gen_zero_run U f : 0 <= U -> exists v, gen_zero_share G U f = Ret (Prf G (after G U 1 (my_prf G f)) (after G U 1 (next_prf G f)), v) /\ inr U v.
  Proof. intros HU. eexists. rewrite gen_zero_eq. split; [reflexivity|]. apply inr_mod, HU. Qed.
  Lemma aby_mul_many_duo U Ai Aj Bi Bj (s t : ST) (Q : ST -> list share -> ST -> list share -> Prop) : In U widths -> synced s t ->
    length Ai = length Bi -> length Aj = length Bj -> length Ai = length Aj ->
    (forall s' x t' y, synced s' t' -> quiet s s' -> quiet t t' -> Forall2 (paired U) x y -> length x = length Ai -> length y = length Ai -> Q s' x t' y) ->
    duoM i (aby_mul_many G i U Ai Bi) (aby_mul_many G j U Aj Bj) s t Q.
  Proof.
    intros HU Hs L1 L2 L3 HQ. assert (HU0 : 0 <= U) by (apply in_widths_pos in HU; lia).
    assert (T : forall (l l' : list share), length l = length l' -> Forall2 (fun _ _ => True) l l') by (induction l; intros [|]; try discriminate; constructor; auto).
    apply (products_duo U _ (fun _ _ => True)); auto.
    intros x y f _. destruct (gen_zero_run U f HU0) as (v & E & Hv). eexists. unfold bindM. rewrite E. split; [reflexivity|]. apply inr_mod, HU0.
  Qed.
  Lemma aby_dot_many_duo U (Ai Aj Bi Bj : list (list share)) (s t : ST) (Q : ST -> list share -> ST -> list share -> Prop) : In U widths -> synced s t ->
    Forall2 (fun x y => length x = length y) Ai Bi -> Forall2 (fun x y => length x = length y) Aj Bj -> length Ai = length Aj ->
    (forall s' x t' y, synced s' t' -> quiet s s' -> quiet t t' -> Forall2 (paired U) x y -> length x = length Ai -> length y = length Ai -> Q s' x t' y) ->
    duoM i (aby_dot_many G i U Ai Bi) (aby_dot_many G j U Aj Bj) s t Q.
  Proof.
    intros HU Hs L1 L2 L3 HQ. assert (HU0 : 0 <= U) by (apply in_widths_pos in HU; lia). unfold aby_dot_many.
    rewrite (Forall2_len _ _ _ L1), (Forall2_len _ _ _ L2), !Nat.eqb_refl. cbn [negb].
    apply (products_duo U (dot_row G U) (fun x y => length x = length y)); auto.
    intros x y f E. destruct (gen_zero_run U f HU0) as (v & Ev & Hv). unfold dot_row, bindM. rewrite Ev, E, Nat.eqb_refl. cbn [bind negb fst snd]. eexists. split; [reflexivity|].
    clear Ev. revert v Hv. generalize (combine x y) as l. induction l as [|z l IH]; intros v Hv; cbn [fold_left]; [exact Hv|]. apply IH, inr_mod, HU0.
  Qed.
End D.
