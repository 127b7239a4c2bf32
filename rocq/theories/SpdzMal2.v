(** The invariant of a program of linear operations and products on the SPDZ-wise engine, the third party being malicious. *)
From Verif Require Import Base Ring RingProofs Prog Sched Conc Rng Rel Net MpcSpec Protocol Aby3 ShareSpec Aby3Proofs Jmp JmpProofs Session SessionProofs Aby3Mal Aby3MalProofs Aby3MalProofs2
  SacrificeProofs PropLemmas PropLemmas2 SpecProofs Duo DuoProofs PropLemmas5 MacSpec MacProofs Client ClientProofs BitArith BinProofs AddProofs BinTrait Aby3Proofs2 SlicedProofs ProgMalSpec ProgMalDuo ProgMalOps ProgMalOps2 Spdz TripleSpec TripleMalDuo SpdzMal SpdzMalSpec.
From Coq Require Import ZifyBool ZifyNat.

(** i and i+1 hold shares of something in both components. *)
Definition apair (U : Z) (x y : ashare) : Prop := paired U (av x) (av y) /\ paired U (am x) (am y).
Definition jv (U : Z) (x y : ashare) : Z := joint U (av x) (av y).
Definition jm (U : Z) (x y : ashare) : Z := joint U (am x) (am y).
Definition areg_ok (U : Z) (x y : ashare) (v : Z * Z) : Prop := apair U x y /\ (jv U x y, jm U x y) = v.

Section D.
  Variables (G : rng) (H : hasher) (i : pid) (K : Z).
  Hypothesis HK : In K widths.
  Notation j := (next i).
  Notation ST := (sst G).
  Notation U := (verif_width K).
  Notation rok := (areg_ok U).

  Lemma HU : In U widths.
  Proof. cbn in HK. unfold verif_width. cbn. intuition subst; cbn; auto 10. Qed.
  Lemma HKU : 0 <= K <= U.
  Proof. cbn in HK. unfold verif_width. intuition subst; cbn; lia. Qed.

  Definition INV (r : Z) (s t : ST) (mi mj : mem ashare share) (rs : list (Z * Z)) (q : list item) : Prop :=
    sync G s t /\ (paired U (s_mac G s) (s_mac G t) /\ joint U (s_mac G s) (s_mac G t) = r) /\
    Forall2 (apair U) (s_vq G s) (s_vq G t) /\ map2 (jv U) (s_vq G s) (s_vq G t) = map (fun a => (it_value a + it_off a) mod 2 ^ U) q /\
    map2 (jm U) (s_vq G s) (s_vq G t) = map (fun a => (it_value a * r + it_mac_off a) mod 2 ^ U) q /\
    tri3 rok (areg mi) (areg mj) rs.

  (** Linear operations on shares of something. *)
  Lemma lin2 (f : share -> share -> share) (g : Z -> Z -> Z) x y x' y' :
    (forall X a Y b, arith_shared U X a -> arith_shared U Y b -> arith_shared U (fun p => f (X p) (Y p)) (g a b)) ->
    paired U x y -> paired U x' y' -> paired U (f x x') (f y y') /\ joint U (f x x') (f y y') = g (joint U x y) (joint U x' y').
  Proof using i.
    intros Hf P P'. pose proof (fam_paired i U _ _ (Hf _ _ _ _ (paired_fam i U x y P) (paired_fam i U x' y' P'))) as Q. cbn beta in Q. rewrite !fam_i, !fam_j in Q. exact Q.
  Qed.
  Lemma lin1 (f : pid -> share -> share) (g : Z -> Z) x y :
    (forall X a, arith_shared U X a -> arith_shared U (fun p => f p (X p)) (g a)) ->
    paired U x y -> paired U (f i x) (f j y) /\ joint U (f i x) (f j y) = g (joint U x y).
  Proof using i.
    intros Hf P. pose proof (fam_paired i U _ _ (Hf _ _ (paired_fam i U x y P))) as Q. cbn beta in Q. rewrite !fam_i, !fam_j in Q. exact Q.
  Qed.
  Lemma U0 : 0 <= U. Proof using HK. pose proof HKU. lia. Qed.

  Lemma add_rok x y v x' y' v' : rok x y v -> rok x' y' v' -> rok (ash_add U x x') (ash_add U y y') ((fst v + fst v') mod 2 ^ U, (snd v + snd v') mod 2 ^ U).
  Proof using All.
    intros [[P1 P2] E] [[P1' P2'] E']. pose proof HKU. pose proof U0.
    destruct (lin2 (sh_add U) (fun a b => (a + b) mod 2 ^ U) _ _ _ _ (fun X a Y b => sh_add_ok U U0 X a Y b) P1 P1') as [Q1 J1].
    destruct (lin2 (sh_add U) (fun a b => (a + b) mod 2 ^ U) _ _ _ _ (fun X a Y b => sh_add_ok U U0 X a Y b) P2 P2') as [Q2 J2].
    split; [split; assumption|]. subst v v'. unfold jv, jm in *. cbn. rewrite J1, J2. reflexivity.
  Qed.
  Lemma sub_rok x y v x' y' v' : rok x y v -> rok x' y' v' -> rok (ash_sub U x x') (ash_sub U y y') ((fst v - fst v') mod 2 ^ U, (snd v - snd v') mod 2 ^ U).
  Proof using All.
    intros [[P1 P2] E] [[P1' P2'] E']. pose proof HKU. pose proof U0.
    destruct (lin2 (sh_sub U) (fun a b => (a - b) mod 2 ^ U) _ _ _ _ (fun X a Y b => sh_sub_ok U U0 X a Y b) P1 P1') as [Q1 J1].
    destruct (lin2 (sh_sub U) (fun a b => (a - b) mod 2 ^ U) _ _ _ _ (fun X a Y b => sh_sub_ok U U0 X a Y b) P2 P2') as [Q2 J2].
    split; [split; assumption|]. subst v v'. unfold jv, jm in *. cbn. rewrite J1, J2. reflexivity.
  Qed.
  Lemma mulc_rok x y v k : rok x y v -> rok (ash_mulc U x k) (ash_mulc U y k) ((fst v * k) mod 2 ^ U, (snd v * k) mod 2 ^ U).
  Proof using All.
    intros [[P1 P2] E]. pose proof HKU. pose proof U0.
    destruct (lin1 (fun _ x => sh_mulc U x (to_verif k)) (fun a => (a * to_verif k) mod 2 ^ U) _ _ (fun X a => sh_mulc_ok U U0 X a (to_verif k)) P1) as [Q1 J1].
    destruct (lin1 (fun _ x => sh_mulc U x (to_verif k)) (fun a => (a * to_verif k) mod 2 ^ U) _ _ (fun X a => sh_mulc_ok U U0 X a (to_verif k)) P2) as [Q2 J2].
    split; [split; assumption|]. subst v. unfold jv, jm in *. cbn. rewrite J1, J2. reflexivity.
  Qed.
  Lemma add_const_rok (s t : ST) x y v k : paired U (s_mac G s) (s_mac G t) -> rok x y v -> rok (ash_add_const G i U s x k) (ash_add_const G j U t y k) ((fst v + k) mod 2 ^ U, (snd v + joint U (s_mac G s) (s_mac G t) * k) mod 2 ^ U).
  Proof using All.
    intros PK [[P1 P2] E]. pose proof HKU. pose proof U0.
    destruct (lin1 (fun p x => sh_add_const p U x (to_verif k)) (fun a => (a + to_verif k) mod 2 ^ U) _ _ (fun X a => sh_add_const_ok U U0 X a (to_verif k)) P1) as [Q1 J1].
    destruct (lin1 (fun _ x => sh_mulc U x (to_verif k)) (fun a => (a * to_verif k) mod 2 ^ U) _ _ (fun X a => sh_mulc_ok U U0 X a (to_verif k)) PK) as [Q2 J2].
    destruct (lin2 (sh_add U) (fun a b => (a + b) mod 2 ^ U) _ _ _ _ (fun X a Y b => sh_add_ok U U0 X a Y b) P2 Q2) as [Q3 J3].
    split; [split; assumption|]. subst v. unfold jv, jm in *. cbn. rewrite J1, J3, J2. f_equal. unfold to_verif. rewrite ?Zplus_mod_idemp_r, ?Zminus_mod_idemp_r. reflexivity.
  Qed.
  Lemma sub_const_rok (s t : ST) x y v k : paired U (s_mac G s) (s_mac G t) -> rok x y v -> rok (ash_sub_const G i U s x k) (ash_sub_const G j U t y k) ((fst v - k) mod 2 ^ U, (snd v - joint U (s_mac G s) (s_mac G t) * k) mod 2 ^ U).
  Proof using All.
    intros PK [[P1 P2] E]. pose proof HKU. pose proof U0.
    destruct (lin1 (fun p x => sh_sub_const p U x (to_verif k)) (fun a => (a - to_verif k) mod 2 ^ U) _ _ (fun X a => sh_sub_const_ok U U0 X a (to_verif k)) P1) as [Q1 J1].
    destruct (lin1 (fun _ x => sh_mulc U x (to_verif k)) (fun a => (a * to_verif k) mod 2 ^ U) _ _ (fun X a => sh_mulc_ok U U0 X a (to_verif k)) PK) as [Q2 J2].
    destruct (lin2 (sh_sub U) (fun a b => (a - b) mod 2 ^ U) _ _ _ _ (fun X a Y b => sh_sub_ok U U0 X a Y b) P2 Q2) as [Q3 J3].
    split; [split; assumption|]. subst v. unfold jv, jm in *. cbn. rewrite J1, J3, J2. f_equal. unfold to_verif. rewrite ?Zplus_mod_idemp_r, ?Zminus_mod_idemp_r. reflexivity.
  Qed.

  (** A new register, no communication. *)
  Lemma INV_push r s t mi mj rs q x y v : INV r s t mi mj rs q -> rok x y v -> INV r s t (pushA mi [x]) (pushA mj [y]) (rs ++ [v]) q.
  Proof using Type. intros (I1 & I2 & I3 & I5 & I6 & I7) R. repeat (split; [assumption|]). cbn [pushA areg]. apply tri3_app; [exact I7|]. constructor; [exact R|constructor]. Qed.

  (** Products: queued for the check, and put into new registers. *)
  Definition queued (s : ST) (f : prf G) (l : list ashare) : ST := let s' := with_prf G s f in SSt G (s_j G s') (s_mac G s') (s_vq G s' ++ l) (s_prec G s') (s_tb G s').
  Lemma products_any r x y : Forall2 (apair U) x y -> forall zs, length zs = length x -> exists offs items,
    (forall rest, products U r zs (offs ++ rest) = Some (rest, (map2 (fun x y => (jv U x y, jm U x y)) x y, items))) /\
    map2 (jv U) x y = map (fun a => (it_value a + it_off a) mod 2 ^ U) items /\ map2 (jm U) x y = map (fun a => (it_value a * r + it_mac_off a) mod 2 ^ U) items.
  Proof using HK.
    induction 1 as [|a b x y P F IH]; intros [|[z mac] zs] L; try discriminate; [exists [], []; repeat split; reflexivity|].
    destruct (IH zs ltac:(cbn in L; lia)) as (offs & items & E & E1 & E2).
    exists ((jv U a b - z, jm U a b - mac) :: offs), (Item z (jv U a b - z) (mac + (jm U a b - mac) - z * r) :: items).
    assert (Q1 : (z + (jv U a b - z)) mod 2 ^ U = jv U a b) by (replace (z + (jv U a b - z)) with (jv U a b) by ring; apply Zmod_mod).
    assert (Q2 : (mac + (jm U a b - mac)) mod 2 ^ U = jm U a b) by (replace (mac + (jm U a b - mac)) with (jm U a b) by ring; apply Zmod_mod).
    assert (Q3 : (z * r + (mac + (jm U a b - mac) - z * r)) mod 2 ^ U = jm U a b) by (replace (z * r + (mac + (jm U a b - mac) - z * r)) with (jm U a b) by ring; apply Zmod_mod).
    split; [|cbn [map map2 it_value it_off it_mac_off]; rewrite Q1, Q3, E1, E2; split; reflexivity].
    intros rest. cbn [products app]. rewrite E. cbn [obind fst snd map2]. rewrite Q1, Q2. reflexivity.
  Qed.
  Lemma INV_products r s t mi mj rs q f f' x y zs : INV r s t mi mj rs q -> sync G (with_prf G s f) (with_prf G t f') -> Forall2 (apair U) x y -> length zs = length x ->
    exists offs new items, (forall rest, products U r zs (offs ++ rest) = Some (rest, (new, items))) /\
      INV r (queued s f x) (queued t f' y) (pushA mi x) (pushA mj y) (rs ++ new) (q ++ items).
  Proof using All.
    intros (I1 & I2 & I3 & I5 & I6 & I7) HS P Lz. destruct (products_any r x y P zs Lz) as (offs & items & E & E1 & E2).
    exists offs, (map2 (fun x y => (jv U x y, jm U x y)) x y), items. split; [exact E|].
    assert (L : length (s_vq G s) = length (s_vq G t)) by (eapply Forall2_len; exact I3).
    split; [exact HS|]. split; [exact I2|]. split; [cbn [queued with_prf s_vq]; apply Forall2_app; assumption|].
    split; [cbn [queued with_prf s_vq]; rewrite map2_app, map_app by exact L; rewrite E1, I5; reflexivity|].
    split; [cbn [queued with_prf s_vq]; rewrite map2_app, map_app by exact L; rewrite E2, I6; reflexivity|].
    cbn [pushA areg]. apply tri3_app; [exact I7|]. clear -P. induction P as [|a b x y P F IH]; cbn [map2]; constructor; [|exact IH]. split; [exact P|reflexivity].
  Qed.

  (** Batched inner products. *)
  Fixpoint twice (n : nat) (x : rstate G) : rstate G := match n with O => x | S n' => twice n' (after G U 2 x) end.
  Definition row2 (x y : list ashare) : M (prf G) (Z * Z) :=
    if negb (Nat.eqb (length x) (length y)) then failM EInvalidSize
    else bindM (gen_zero_share G U) (fun r => bindM (gen_zero_share G U) (fun r2 =>
      retM (fold_left (fun c xy => radd U c (local_mul U (av (fst xy)) (av (snd xy)))) (combine x y) r,
            fold_left (fun c xy => radd U c (local_mul U (am (fst xy)) (av (snd xy)))) (combine x y) r2))).
  Lemma fold_inr {X} (g : X -> Z) l : forall v, inr U v -> inr U (fold_left (fun c x => radd U c (g x)) l v).
  Proof using HK. induction l as [|x l IH]; intros v Hv; cbn [fold_left]; [exact Hv|]. apply IH, inr_mod, U0. Qed.
  Lemma row2_run x y f : (exists v w, row2 x y f = Ret (Prf G (after G U 2 (my_prf G f)) (after G U 2 (next_prf G f)), (v, w)) /\ inr U v /\ inr U w /\ length x = length y) \/ (length x <> length y /\ exists e, row2 x y f = Fail e).
  Proof using HK.
    unfold row2. destruct (Nat.eqb_spec (length x) (length y)) as [E|E]; cbn [negb]; [left|right; split; [exact E|eexists; reflexivity]].
    destruct (gen_zero_run G U f U0) as (v & E1 & Hv). destruct (gen_zero_run G U (Prf G (after G U 1 (my_prf G f)) (after G U 1 (next_prf G f))) U0) as (w & E2 & Hw).
    unfold bindM. rewrite E1. cbn [bind fst snd]. rewrite E2. unfold retM. cbn [bind fst snd]. do 2 eexists. split; [reflexivity|]. split; [apply fold_inr, Hv|]. split; [apply fold_inr, Hw|exact E].
  Qed.
  Lemma rows2_run l : forall l' f, length l = length l' ->
    (exists L, mapM2 row2 l l' f = Ret (Prf G (twice (length l) (my_prf G f)) (twice (length l) (next_prf G f)), L) /\ Forall (inr U) (map fst L) /\ Forall (inr U) (map snd L) /\ length L = length l) \/
    (exists e, mapM2 row2 l l' f = Fail e).
  Proof using HK.
    induction l as [|x l IH]; intros [|y l'] f E; try discriminate; cbn [mapM2].
    - left. exists []. destruct f. repeat split; constructor.
    - destruct (row2_run x y f) as [(v & w & E1 & Hv & Hw & _)|(_ & e & E1)]; [|right; exists e; unfold bindM; rewrite E1; reflexivity].
      destruct (IH l' (Prf G (after G U 2 (my_prf G f)) (after G U 2 (next_prf G f))) ltac:(cbn in E; lia)) as [(L & E2 & F1 & F2 & LL)|(e & E2)].
      + left. exists ((v, w) :: L). unfold bindM. rewrite E1. cbn [bind fst snd]. rewrite E2. cbn [bind fst snd]. split; [reflexivity|]. cbn. repeat split; try constructor; try assumption. congruence.
      + right. exists e. unfold bindM. rewrite E1. cbn [bind fst snd]. rewrite E2. reflexivity.
  Qed.
  Definition to_share2 (a b : Z * Z) : ashare := AShare (Share (fst a) (fst b)) (Share (snd a) (snd b)).
  Lemma pairs_apair Li : forall Lj c1 c2, length Li = length Lj -> length c1 = length Li -> length c2 = length Li ->
    Forall (inr U) (map fst Li) -> Forall (inr U) (map snd Li) -> Forall (inr U) (map fst Lj) -> Forall (inr U) (map snd Lj) -> Forall (inr U) c1 -> Forall (inr U) c2 ->
    Forall2 (apair U) (map2 to_share2 Li (combine c1 c2)) (map2 to_share2 Lj (combine (map fst Li) (map snd Li))).
  Proof using Type.
    induction Li as [|[v w] Li IH]; intros [|[v' w'] Lj] [|a c1] [|b c2] E1 E2 E3 F1 F2 F3 F4 F5 F6; try discriminate; cbn [map combine map2]; constructor.
    - inversion F1; inversion F2; inversion F3; inversion F4; inversion F5; inversion F6; subst. cbn [fst snd] in *. split; (split; [split; assumption|]; split; [split; assumption|reflexivity]).
    - cbn in *. inversion F1; inversion F2; inversion F3; inversion F4; inversion F5; inversion F6; subst. apply IH; try lia; assumption.
  Qed.
  Lemma dot_many_pairs Ai Aj Bi Bj (s t : ST) (Q : ST -> list ashare -> ST -> list ashare -> Prop) : sync G s t -> length Ai = length Bi -> length Aj = length Bj -> length Ai = length Aj ->
    (forall f f' x y, sync G (with_prf G s f) (with_prf G t f') -> Forall2 (apair U) x y -> length x = length Ai -> Q (queued s f x) x (queued t f' y) y) ->
    duoM i (spdz_dot_many G i K Ai Bi) (spdz_dot_many G j K Aj Bj) s t Q.
  Proof using All.
    intros Hs L1 L2 L3 HQ. unfold spdz_dot_many. rewrite L1, L2, !Nat.eqb_refl. cbn [negb].
    change (duoM i (bindM (on_aby G (mapM2 row2 Ai Bi)) (reshare_auth G i U)) (bindM (on_aby G (mapM2 row2 Aj Bj)) (reshare_auth G j U)) s t Q).
    pose proof (HU) as HUw.
    destruct (rows2_run Ai Bi (j_prf G (s_j G s)) L1) as [(Li & Ei & Fi1 & Fi2 & LLi)|(e & Ei)].
    2:{ unfold duoM, on_aby, on_j, on_prf, zoom, bindM. rewrite Ei. cbn [bind]. apply duo_fail_l. }
    destruct (rows2_run Aj Bj (j_prf G (s_j G t)) L2) as [(Lj & Ej & Fj1 & Fj2 & LLj)|(e & Ej)].
    2:{ unfold duoM, on_aby, on_j, on_prf, zoom, bindM. rewrite Ei, Ej. cbn [bind]. apply duo_fail_r. }
    unfold duoM, reshare_auth, reshare_pairs, liftM, vq_push, getM, putM, retM, on_aby, on_j, on_prf, zoom, bindM. rewrite Ei, Ej. cbn [bind fst snd].
    unfold send_slices_and_receive_iters, duo. cbn [bind fst snd]. duostep. duostep. duostep. duostep. cbn [app]. apply duo_recv_prev. intros m1 Hm1. apply duo_recv_prev. intros m2 Hm2. apply duo_r_recv_prev. apply duo_r_recv_prev. cbn [bind].
    replace (length (map fst Lj)) with (length (map fst Li)) by (rewrite !map_length; congruence).
    replace (length (map snd Lj)) with (length (map snd Li)) by (rewrite !map_length; congruence). rewrite !iter_roundtrip by assumption.
    destruct (ring_iter_from_bytes U m1 (length (map fst Li))) as [c1|] eqn:E1; cbn [of_res bind]; [|apply duo_fail_l].
    destruct (ring_iter_from_bytes U m2 (length (map snd Li))) as [c2|] eqn:E2; cbn [of_res bind]; [|apply duo_fail_l].
    pose proof (iter_range U HUw _ _ _ E1 Hm1) as Fc1. pose proof (iter_len U _ _ _ E1) as Lc1. pose proof (iter_range U HUw _ _ _ E2 Hm2) as Fc2. pose proof (iter_len U _ _ _ E2) as Lc2.
    rewrite map_length in Lc1, Lc2. cbn [bind fst snd]. apply duo_ret. cbn [fst snd]. refine (HQ (Prf G _ _) (Prf G _ _) _ _ _ _ _).
    - unfold sync in *. cbn [with_prf s_j j_prf my_prf next_prf]. rewrite Hs, L3. reflexivity.
    - apply pairs_apair; congruence || assumption.
    - rewrite map2_length_eq; [congruence|]. rewrite combine_length, Lc1, Lc2. lia.
  Qed.
  Lemma need_none {A} (l l' : list A) n : length l = length l' -> nth_error l' n = None -> nth_error l n = None.
  Proof using Type. intros L E. apply nth_error_None in E. apply nth_error_None. lia. Qed.
  Lemma gets_none {A B} (l : list A) (l' : list B) ns : length l = length l' -> gets l' ns = None -> gets l ns = None.
  Proof using Type.
    intros L. unfold gets. induction ns as [|n ns IH]; cbn; [discriminate|]. destruct (nth_error l' n) as [u|] eqn:EN.
    - destruct (all_some (map (nth_error l') ns)); [discriminate|]. intros _. rewrite (IH eq_refl). destruct (nth_error l n); reflexivity.
    - intros _. apply nth_error_None in EN. rewrite <- L in EN. apply nth_error_None in EN. rewrite EN. reflexivity.
  Qed.

  Lemma getss_none {A B} (l : list A) (l' : list B) ns : length l = length l' -> getss l' ns = None -> getss l ns = None.
  Proof using Type.
    intros L. unfold getss. induction ns as [|n ns IH]; cbn; [discriminate|]. destruct (gets l' n) as [u|] eqn:EN.
    - destruct (all_some (map (gets l') ns)); [discriminate|]. intros _. rewrite (IH eq_refl). destruct (gets l n); reflexivity.
    - intros _. rewrite (gets_none l l' n L EN). reflexivity.
  Qed.
  Lemma tri3_getss {A B C} (R : A -> B -> C -> Prop) l l' l'' ns cs : tri3 R l l' l'' -> getss l'' ns = Some cs -> exists x y, getss l ns = Some x /\ getss l' ns = Some y.
  Proof using Type.
    intros T. unfold getss. revert cs. induction ns as [|n ns IH]; cbn; intros cs E; [eauto|].
    destruct (gets l'' n) as [u|] eqn:EN; [|discriminate]. destruct (all_some (map (gets l'') ns)) as [w|]; [|discriminate].
    destruct (IH w eq_refl) as (x & y & -> & ->). destruct (tri3_gets _ _ _ _ _ _ T EN) as (a & b & -> & -> & _). eauto.
  Qed.
  Lemma getss_length {A} (l : list A) nss r : getss l nss = Some r -> length r = length nss.
  Proof using Type. intros E. apply getss_lens in E. eapply Forall2_len; exact E. Qed.

  Lemma cmd_inv r c mi mj (s t : ST) rs q : ring_call c = true -> INV r s t mi mj rs q ->
    duoM i (exec_cmd (spdz_api G H i K) i c mi) (exec_cmd (spdz_api G H j K) j c mj) s t
      (fun s' ni t' nj => exists rs' q' offs, (forall rest, off_cmd U r c (offs ++ rest) (rs, q) = Some (rest, (rs', q'))) /\ INV r s' t' ni nj rs' q').
  Proof using All.
    intros Hc HI. pose proof HI as (I1 & I2 & I3 & I5 & I6 & I7). pose proof HU as HUw. destruct (tri3_len _ _ _ _ I7) as [LA LB].
    assert (NN : forall n, nth_error rs n = None -> nth_error (areg mi) n = None) by (intros n E; apply nth_error_None in E; apply nth_error_None; rewrite LA; exact E).
    assert (NG : forall n, gets rs n = None -> gets (areg mi) n = None) by (intros n; apply gets_none, LA).
    assert (PUSH : forall x y v, rok x y v -> exists q' offs, (forall rest : list (Z * Z), Some (offs ++ rest, (rs ++ [v], q)) = Some (rest, (rs ++ [v], q'))) /\ INV r s t (pushA mi [x]) (pushA mj [y]) (rs ++ [v]) q').
    { intros x y v R. exists q, []. split; [reflexivity|]. apply INV_push; assumption. }
    destruct c; try discriminate; cbn [exec_cmd off_cmd].
    - destruct (nth_error rs m) as [v|] eqn:E1; [|rewrite (NN _ E1); apply duo_fail_l]. destruct (tri3_nth _ _ _ _ _ _ I7 E1) as (x & y & -> & -> & R1). cbn [need].
      dbind. apply duoM_ret.
      destruct (nth_error rs n) as [v'|] eqn:E2; [|rewrite (NN _ E2); apply duo_fail_l]. destruct (tri3_nth _ _ _ _ _ _ I7 E2) as (x' & y' & -> & -> & R2). cbn [need].
      dbind. apply duoM_ret. apply duoM_ret. eexists. apply PUSH. apply add_rok; assumption.
    - destruct (nth_error rs m) as [v|] eqn:E1; [|rewrite (NN _ E1); apply duo_fail_l]. destruct (tri3_nth _ _ _ _ _ _ I7 E1) as (x & y & -> & -> & R1). cbn [need].
      dbind. apply duoM_ret.
      destruct (nth_error rs n) as [v'|] eqn:E2; [|rewrite (NN _ E2); apply duo_fail_l]. destruct (tri3_nth _ _ _ _ _ _ I7 E2) as (x' & y' & -> & -> & R2). cbn [need].
      dbind. apply duoM_ret. apply duoM_ret. eexists. apply PUSH. apply sub_rok; assumption.
    - destruct (nth_error rs m) as [v|] eqn:E1; [|rewrite (NN _ E1); apply duo_fail_l]. destruct (tri3_nth _ _ _ _ _ _ I7 E1) as (x & y & -> & -> & R1). cbn [need].
      dbind. apply duoM_ret. unfold duoM, bindM, getM, retM. cbn [bind fst snd]. apply duo_ret. cbn [fst snd]. eexists. destruct I2 as [PK <-]. apply PUSH. apply add_const_rok; [exact PK|assumption].
    - destruct (nth_error rs m) as [v|] eqn:E1; [|rewrite (NN _ E1); apply duo_fail_l]. destruct (tri3_nth _ _ _ _ _ _ I7 E1) as (x & y & -> & -> & R1). cbn [need].
      dbind. apply duoM_ret. unfold duoM, bindM, getM, retM. cbn [bind fst snd]. apply duo_ret. cbn [fst snd]. eexists. destruct I2 as [PK <-]. apply PUSH. apply sub_const_rok; [exact PK|assumption].
    - destruct (nth_error rs m) as [v|] eqn:E1; [|rewrite (NN _ E1); apply duo_fail_l]. destruct (tri3_nth _ _ _ _ _ _ I7 E1) as (x & y & -> & -> & R1). cbn [need].
      dbind. apply duoM_ret. apply duoM_ret. eexists. apply PUSH. apply mulc_rok; assumption.
    - destruct (nth_error rs m) as [v|] eqn:E1; [|rewrite (NN _ E1); apply duo_fail_l]. destruct (tri3_nth _ _ _ _ _ _ I7 E1) as (x & y & -> & -> & R1). cbn [need].
      dbind. apply duoM_ret.
      destruct (nth_error rs n) as [v'|] eqn:E2; [|rewrite (NN _ E2); apply duo_fail_l]. destruct (tri3_nth _ _ _ _ _ _ I7 E2) as (x' & y' & -> & -> & R2). cbn [need].
      dbind. apply duoM_ret. dbind. cbn [spdz_api a_mul]. unfold spdz_mul. dbind. apply sh_mul_many_duo; [exact HUw|exact I1|reflexivity..|].
      intros f f' a b HS PP La Lb. inversion PP as [|a0 b0 a' b' P0 PP' E E']; subst; [discriminate|]. inversion PP' as [|a1 b1 a2 b2 P1 PP2 E E']; subst; [discriminate|].
      unfold duoM, bindM, resM, index, vq_push, bindM, getM, putM, retM. cbn [nth_error bind fst snd of_res]. apply duo_ret. cbn [fst snd]. apply duo_ret. cbn [fst snd].
      destruct (INV_products r s t mi mj rs q f f' [AShare a0 a1] [AShare b0 b1] [(fst v * fst v', snd v * fst v')] HI HS) as (o & new & items & HE & HD); [constructor; [split; assumption|constructor]|reflexivity|].
      exists (rs ++ new), (q ++ items), o. split; [|exact HD]. intros rest. specialize (HE rest). cbv zeta. cbn [obind]. match type of HE with ?a = _ => match goal with |- obind ?b _ = _ => change b with a end end. rewrite HE. reflexivity.
    - unfold guard. destruct (gets rs ms) as [vs|] eqn:E1; [|rewrite (NG _ E1); apply duo_fail_l]. destruct (tri3_gets _ _ _ _ _ _ I7 E1) as (x & y & EX & EY & R1). rewrite EX, EY. cbn [need].
      dbind. apply duoM_ret.
      destruct (gets rs ns) as [vs'|] eqn:E2; [|rewrite (NG _ E2); apply duo_fail_l]. destruct (tri3_gets _ _ _ _ _ _ I7 E2) as (x' & y' & EX' & EY' & R2). rewrite EX', EY'. cbn [need].
      dbind. apply duoM_ret. dbind. cbn [spdz_api a_dot]. unfold spdz_dot.
      pose proof (gets_length _ _ _ EX) as N1. pose proof (gets_length _ _ _ EX') as N2. pose proof (gets_length _ _ _ EY) as N3. pose proof (gets_length _ _ _ EY') as N4.
      rewrite N1, N2, N3, N4. destruct (Nat.eqb_spec (length ms) (length ns)) as [EL|]; cbn [negb]; [|apply duo_fail_l].
      dbind. apply sh_dot_many_duo; [exact HUw|exact I1|repeat constructor; rewrite !map_length; congruence|repeat constructor; rewrite !map_length; congruence|reflexivity|].
      intros f f' a b HS PP La Lb. inversion PP as [|a0 b0 a' b' P0 PP' E E']; subst; [discriminate|]. inversion PP' as [|a1 b1 a2 b2 P1 PP2 E E']; subst; [discriminate|].
      unfold duoM, bindM, resM, index, vq_push, bindM, getM, putM, retM. cbn [nth_error bind fst snd of_res]. apply duo_ret. cbn [fst snd]. apply duo_ret. cbn [fst snd].
      destruct (INV_products r s t mi mj rs q f f' [AShare a0 a1] [AShare b0 b1] [dot2 vs vs'] HI HS) as (o & new & items & HE & HD); [constructor; [split; assumption|constructor]|reflexivity|].
      exists (rs ++ new), (q ++ items), o. split; [|exact HD]. intros rest. specialize (HE rest). cbv zeta. cbn [obind]. match type of HE with ?a = _ => match goal with |- obind ?b _ = _ => change b with a end end. rewrite HE. reflexivity.
    - unfold guard. destruct (getss rs ms) as [vs|] eqn:E1; [|rewrite (getss_none _ _ _ LA E1); apply duo_fail_l]. destruct (tri3_getss _ _ _ _ _ _ I7 E1) as (x & y & EX & EY). rewrite EX, EY. cbn [need].
      dbind. apply duoM_ret.
      destruct (getss rs ns) as [vs'|] eqn:E2; [|rewrite (getss_none _ _ _ LA E2); apply duo_fail_l]. destruct (tri3_getss _ _ _ _ _ _ I7 E2) as (x' & y' & EX' & EY'). rewrite EX', EY'. cbn [need].
      dbind. apply duoM_ret. dbind. cbn [spdz_api a_dot_many].
      pose proof (getss_length _ _ _ EX) as N1. pose proof (getss_length _ _ _ EX') as N2. pose proof (getss_length _ _ _ EY) as N3. pose proof (getss_length _ _ _ EY') as N4.
      pose proof (getss_length _ _ _ E1) as N5. pose proof (getss_length _ _ _ E2) as N6.
      destruct (Nat.eqb_spec (length ms) (length ns)) as [EL|NE].
      2:{ unfold duoM, spdz_dot_many. destruct (Nat.eqb_spec (length x) (length x')); [congruence|]. apply duo_fail_l. }
      apply dot_many_pairs; [exact I1|congruence..|]. intros f f' a b HS PP La. apply duoM_ret.
      destruct (INV_products r s t mi mj rs q f f' a b (map2 dot2 vs vs') HI HS PP) as (o & new & items & HE & HD); [rewrite map2_length_eq; congruence|].
      exists (rs ++ new), (q ++ items), o. split; [|exact HD]. intros rest. specialize (HE rest). cbv zeta. cbn [obind]. match type of HE with ?a = _ => match goal with |- obind ?b _ = _ => change b with a end end. rewrite HE. reflexivity.
  Qed.
  Lemma exec_inv r cs : forall mi mj (s t : ST) rs q, forallb ring_call cs = true -> INV r s t mi mj rs q ->
    duoM i (exec (spdz_api G H i K) i cs mi) (exec (spdz_api G H j K) j cs mj) s t (fun s' ni t' nj =>
      exists rs' q' offs, (forall rest, off_eval U r cs (offs ++ rest) (rs, q) = Some (rest, (rs', q'))) /\ INV r s' t' ni nj rs' q').
  Proof using All.
    induction cs as [|c cs IH]; intros mi mj s t rs q Hc HI; cbn [exec].
    - apply duoM_ret. exists rs, q, []. split; [reflexivity|]. exact HI.
    - cbn [forallb] in Hc. apply andb_prop in Hc. destruct Hc as [Hc Hcs].
      dbind. eapply duoM_mono; [|apply (cmd_inv r c mi mj s t rs q Hc HI)]. cbn beta. intros s1 ni t1 nj (rs1 & q1 & o1 & E1 & HI1).
      eapply duoM_mono; [|apply (IH _ _ _ _ _ _ Hcs HI1)]. cbn beta. intros s2 mi2 t2 mj2 (rs2 & q2 & o2 & E2 & HI2).
      exists rs2, q2, (o1 ++ o2). split; [|exact HI2]. intros rest. cbn [off_eval]. rewrite <- app_assoc, E1. cbn [obind fst snd]. apply E2.
  Qed.
End D.
