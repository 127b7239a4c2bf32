(** The challenges as positions in the stream of a generator. *)
From Verif Require Import Base Ring Prog Rng Swift3 Poly Dzkp DzkpSpec Swift3Verify CheatSpec PrivacySpec.
Local Open Scope list_scope.

Section Stream.
  Context {A : Type}.
  Variables (G : rng) (draw_el : rstate G -> rstate G * A).
  Notation after q s := (Nat.iter q (fun t => fst (draw_el t)) s).
  Notation at_ s q := (nth_draw draw_el s q).
  Lemma after_after p q s : after p (after q s) = after (p + q) s.
  Proof. induction p as [|p IH]; [reflexivity|]. exact (f_equal (fun t => fst (draw_el t)) IH). Qed.
  Lemma at_after p q s : at_ (after p s) q = at_ s (q + p).
  Proof. unfold nth_draw. rewrite after_after. reflexivity. Qed.
  Lemma draw_is s q : draw_el (after q s) = (after (S q) s, at_ s q).
  Proof. unfold nth_draw. cbn [Nat.iter nat_rect]. apply surjective_pairing. Qed.
  Lemma els_is k : forall s, draw_els G draw_el k s = (after k s, map (fun q => at_ s q) (seq 0 k)).
  Proof.
    induction k as [|k IH]; intros s; [reflexivity|]. cbn [draw_els]. rewrite (surjective_pairing (draw_el s)). rewrite IH. f_equal.
    - change (fst (draw_el s)) with (after 1 s). rewrite after_after. f_equal. lia.
    - cbn [seq map]. f_equal. rewrite <- seq_shift, map_map. apply map_ext. intros q. change (fst (draw_el s)) with (after 1 s). rewrite at_after. f_equal. lia.
  Qed.
  Lemma els_at k p s : draw_els G draw_el k (after p s) = (after (k + p) s, map (fun q => at_ s (p + q)) (seq 0 k)).
  Proof. rewrite els_is, after_after. f_equal. apply map_ext. intros q. rewrite at_after. f_equal. lia. Qed.
  Lemma three_is k s : fst (draw_three G draw_el k s) = after (3 * k) s /\ forall j, snd (draw_three G draw_el k s) j = map (fun q => at_ s (number j * k + q)) (seq 0 k).
  Proof.
    unfold draw_three. rewrite (els_is k s), (els_at k k s), (els_at k (k + k) s). cbn [fst snd]. split; [f_equal; lia|].
    intros []; cbn [number]; apply map_ext; intros q; f_equal; lia.
  Qed.
  Variable again : A -> bool.
  Variable fuel : nat.
  (** The redraw loop, started with the element at position p and the generator at position q. *)
  Lemma redraw_is s f : forall p q, (p < q)%nat -> exists p' q', redraw G draw_el again f (after q s) (at_ s p) = (after q' s, at_ s p') /\ (q <= q' <= q + f)%nat /\ (p' = p \/ (q <= p' < q')%nat) /\
    (again (at_ s p') = false \/ forall k, (q <= k < q + f - 1)%nat -> again (at_ s k) = true).
  Proof.
    induction f as [|f IH]; intros p q Hpq; cbn [redraw].
    - exists p, q. split; [reflexivity|]. split; [lia|]. split; [left; reflexivity|]. right. intros k Hk. lia.
    - destruct (again (at_ s p)) eqn:E; [|exists p, q; split; [reflexivity|]; split; [lia|]; split; [left; reflexivity|]; left; exact E].
      rewrite draw_is. destruct (IH q (S q) ltac:(lia)) as (p' & q' & E' & B & C & F). exists p', q'. split; [exact E'|]. split; [lia|]. split; [right; lia|].
      destruct F as [F|F]; [left; exact F|]. destruct (again (at_ s p')) eqn:Ep; [right|left; reflexivity]. intros k Hk. destruct (Nat.eq_dec k q) as [->|Hq]; [|apply F; lia].
      destruct f as [|f]; [lia|]. clear - E' Ep C. destruct (again (at_ s q)) eqn:Eq; [reflexivity|]. cbn [redraw] in E'. rewrite Eq in E'.
      exfalso. assert (X : at_ s q = at_ s p') by (exact (f_equal snd E')). congruence.
  Qed.
  Theorem point_is m coin : exists q : pid -> nat,
    (forall j, coin_point G draw_el again fuel m coin j = at_ (rseed G coin) (q j)) /\ (forall j, 3 * m <= q j)%nat /\ (forall j j', q j = q j' -> j = j') /\
    forall j, again (coin_point G draw_el again fuel m coin j) = false \/ exists k, forall x, (k <= x < k + fuel - 1)%nat -> again (at_ (rseed G coin) x) = true.
  Proof.
    set (s := rseed G coin). destruct (three_is m s) as (E & _). unfold coin_point, draw_points. fold s. rewrite E. set (n := (3 * m)%nat). rewrite !draw_is.
    destruct (redraw_is s fuel n (S (S (S n))) ltac:(lia)) as (p0 & q0 & E0 & B0 & C0 & F0). rewrite E0.
    destruct (redraw_is s fuel (S n) q0 ltac:(lia)) as (p1 & q1 & E1 & B1 & C1 & F1). rewrite E1.
    destruct (redraw_is s fuel (S (S n)) q1 ltac:(lia)) as (p2 & q2 & E2 & B2 & C2 & F2). rewrite E2. cbn [snd].
    exists (fun j => match j with P0 => p0 | P1 => p1 | P2 => p2 end).
    split; [intros []; reflexivity|]. split; [intros []; unfold n in *; lia|]. split; [intros [] [] H; try reflexivity; lia|].
    intros []; [destruct F0 as [F|F]|destruct F1 as [F|F]|destruct F2 as [F|F]]; try (left; exact F); right; eexists; exact F.
  Qed.
End Stream.
