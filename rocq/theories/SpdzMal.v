(** Programs on the SPDZ-wise engine run by two honest parties against an arbitrary third one. *)
From Verif Require Import Base Ring RingProofs Prog Sched Conc Rng Rel Net MpcSpec Protocol Aby3 ShareSpec Aby3Proofs Jmp JmpProofs Session SessionProofs Aby3Mal Aby3MalProofs Aby3MalProofs2
  SacrificeProofs PropLemmas PropLemmas2 SpecProofs Duo DuoProofs PropLemmas5 MacSpec MacProofs Client BitArith BinProofs AddProofs BinTrait Aby3Proofs2 SlicedProofs ProgMalSpec ProgMalDuo ProgMalOps ProgMalOps2 Spdz TripleSpec TripleMalDuo.
From Coq Require Import ZifyBool ZifyNat.

Inductive tri3 {A B C : Type} (R : A -> B -> C -> Prop) : list A -> list B -> list C -> Prop :=
| tri3_nil : tri3 R [] [] []
| tri3_cons a b c l l' l'' : R a b c -> tri3 R l l' l'' -> tri3 R (a :: l) (b :: l') (c :: l'').
Lemma tri3_mono {A B C} (R R' : A -> B -> C -> Prop) l l' l'' : (forall a b c, R a b c -> R' a b c) -> tri3 R l l' l'' -> tri3 R' l l' l''.
Proof. intros HR. induction 1; constructor; auto. Qed.
Lemma tri3_app {A B C} (R : A -> B -> C -> Prop) l l' l'' m m' m'' : tri3 R l l' l'' -> tri3 R m m' m'' -> tri3 R (l ++ m) (l' ++ m') (l'' ++ m'').
Proof. induction 1; cbn; [auto|]. intros. constructor; auto. Qed.
Lemma tri3_nth {A B C} (R : A -> B -> C -> Prop) l l' l'' n c : tri3 R l l' l'' -> nth_error l'' n = Some c ->
  exists a b, nth_error l n = Some a /\ nth_error l' n = Some b /\ R a b c.
Proof. intros T. revert n. induction T as [|a b c0 l l' l'' HR T IH]; intros [|n] E; try discriminate; cbn in *; [injection E as <-; eauto|apply IH, E]. Qed.
Lemma tri3_gets {A B C} (R : A -> B -> C -> Prop) l l' l'' ns cs : tri3 R l l' l'' -> gets l'' ns = Some cs ->
  exists xs ys, gets l ns = Some xs /\ gets l' ns = Some ys /\ tri3 R xs ys cs.
Proof.
  intros T. unfold gets. revert cs. induction ns as [|n ns IH]; cbn; intros cs E; [injection E as <-; exists [], []; repeat split; constructor|].
  destruct (nth_error l'' n) as [u|] eqn:EN; [|discriminate]. destruct (all_some (map (nth_error l'') ns)) as [w|]; [|discriminate]. injection E as <-.
  destruct (tri3_nth _ _ _ _ _ _ T EN) as (x & y & -> & -> & HR). destruct (IH w eq_refl) as (xi & xj & -> & -> & RR). exists (x :: xi), (y :: xj). repeat split; constructor; assumption.
Qed.
Lemma tri3_len {A B C} (R : A -> B -> C -> Prop) l l' l'' : tri3 R l l' l'' -> length l = length l'' /\ length l' = length l''.
Proof. induction 1 as [|? ? ? ? ? ? ? ? [E1 E2]]; cbn; [auto|]. rewrite E1, E2. auto. Qed.

Section D.
  Variables (G : rng) (H : hasher) (i : pid).
  Notation j := (next i).
  Notation ST := (sst G).
  Definition with_prf (s : ST) (f : prf G) : ST := SSt G (JSt G f (j_snd G (s_j G s)) (j_rcv G (s_j G s)) (j_log G (s_j G s))) (s_mac G s) (s_vq G s) (s_prec G s) (s_tb G s).
  Definition sync (s t : ST) : Prop := next_prf G (j_prf G (s_j G t)) = my_prf G (j_prf G (s_j G s)).

  (** The semi-honest re-sharing: whatever the third party sends, i and i+1 hold shares of something. *)
  Lemma sh_products_duo {X Y} U (g : X -> Y -> M (prf G) Z) (P : X -> Y -> Prop) li li' lj lj' (s t : ST) (Q : ST -> list share -> ST -> list share -> Prop) :
    (forall x y f, P x y -> exists v, g x y f = Ret (Prf G (after G U 1 (my_prf G f)) (after G U 1 (next_prf G f)), v) /\ inr U v) ->
    In U widths -> sync s t -> Forall2 P li li' -> Forall2 P lj lj' -> length li = length lj ->
    (forall f f' x y, sync (with_prf s f) (with_prf t f') -> Forall2 (paired U) x y -> length x = length li -> length y = length li -> Q (with_prf s f) x (with_prf t f') y) ->
    duoM i (on_aby G (bindM (mapM2 g li li') (reshare_many G i U))) (on_aby G (bindM (mapM2 g lj lj') (reshare_many G j U))) s t Q.
  Proof.
    intros Hg HU Hs Fi Fj L HQ. destruct (zero_rows_run G U g P li li' Hg Fi (j_prf G (s_j G s))) as (Li & Ei & Ri & LLi). destruct (zero_rows_run G U g P lj lj' Hg Fj (j_prf G (s_j G t))) as (Lj & Ej & Rj & LLj).
    unfold on_aby. apply duoM_on_j. unfold duoM, on_prf, zoom, bindM at 1 2. rewrite Ei, Ej. cbn [bind fst snd].
    unfold reshare_many, bindM, liftM, send_slice_and_receive_iter, send_and_receive. cbn [bind fst snd]. unfold duo.
    duostep. duostep. cbn [app]. apply duo_recv_prev. intros m Hm. apply duo_r_recv_prev. cbn [bind].
    replace (length Lj) with (length Li) by congruence. rewrite iter_roundtrip by assumption. rewrite LLi, L, <- LLj.
    destruct (ring_iter_from_bytes U m (length Lj)) as [c|] eqn:E; cbn [of_res bind]; [|apply duo_fail_l].
    pose proof (iter_range U HU _ _ _ E Hm) as Fc. pose proof (iter_len U _ _ _ E) as Lc.
    unfold retM. cbn [bind fst snd]. apply duo_ret. cbn [fst snd]. refine (HQ (Prf G _ _) (Prf G _ _) _ _ _ _ _ _).
    - unfold sync in *. cbn [with_prf s_j j_prf my_prf next_prf]. rewrite Hs. reflexivity.
    - apply (paired_draws U _ _ _ (length Lj)); congruence || assumption.
    - rewrite map2_length_eq; congruence.
    - rewrite map2_length_eq; congruence.
  Qed.
  Lemma sh_mul_many_duo U Ai Aj Bi Bj (s t : ST) (Q : ST -> list share -> ST -> list share -> Prop) : In U widths -> sync s t ->
    length Ai = length Bi -> length Aj = length Bj -> length Ai = length Aj ->
    (forall f f' x y, sync (with_prf s f) (with_prf t f') -> Forall2 (paired U) x y -> length x = length Ai -> length y = length Ai -> Q (with_prf s f) x (with_prf t f') y) ->
    duoM i (on_aby G (mul_many G i U Ai Bi)) (on_aby G (mul_many G j U Aj Bj)) s t Q.
  Proof.
    intros HU Hs L1 L2 L3 HQ. assert (HU0 : 0 <= U) by (apply in_widths_pos in HU; lia).
    assert (T : forall (l l' : list share), length l = length l' -> Forall2 (fun _ _ => True) l l') by (induction l; intros [|]; try discriminate; constructor; auto).
    apply (sh_products_duo U _ (fun _ _ => True)); auto.
    intros x y f _. destruct (gen_zero_run G U f HU0) as (v & E & Hv). eexists. unfold bindM. rewrite E. split; [reflexivity|]. apply inr_mod, HU0.
  Qed.
  Lemma sh_dot_many_duo U (Ai Aj Bi Bj : list (list share)) (s t : ST) (Q : ST -> list share -> ST -> list share -> Prop) : In U widths -> sync s t ->
    Forall2 (fun x y => length x = length y) Ai Bi -> Forall2 (fun x y => length x = length y) Aj Bj -> length Ai = length Aj ->
    (forall f f' x y, sync (with_prf s f) (with_prf t f') -> Forall2 (paired U) x y -> length x = length Ai -> length y = length Ai -> Q (with_prf s f) x (with_prf t f') y) ->
    duoM i (on_aby G (dot_many G i U Ai Bi)) (on_aby G (dot_many G j U Aj Bj)) s t Q.
  Proof.
    intros HU Hs L1 L2 L3 HQ. assert (HU0 : 0 <= U) by (apply in_widths_pos in HU; lia). unfold dot_many.
    rewrite (Forall2_len _ _ _ L1), (Forall2_len _ _ _ L2), !Nat.eqb_refl. cbn [negb].
    apply (sh_products_duo U (dot_row G U) (fun x y => length x = length y)); auto.
    intros x y f E. destruct (gen_zero_run G U f HU0) as (v & Ev & Hv). unfold dot_row, bindM. rewrite Ev, E, Nat.eqb_refl. cbn [bind negb fst snd]. eexists. split; [reflexivity|].
    clear Ev. revert v Hv. generalize (combine x y) as l. induction l as [|z l IH]; intros v Hv; cbn [fold_left]; [exact Hv|]. apply IH, inr_mod, HU0.
  Qed.
End D.
