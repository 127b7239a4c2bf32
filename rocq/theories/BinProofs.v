(** Correctness of the generic binary protocols over any engine with correct xor, shift and and. *)
From Verif Require Import Base Ring RingProofs Prog Sched Rel BinTrait BitArith.
From Coq Require Import ZifyBool ZifyNat.

(** The contract of an engine.  [G] is ghost state ("how many gates so far"), [g_and K n] how n gates
    of width K change it. *)
Record bin_ok {G S Sh : Type} (E : pid -> Z -> bineng S Sh) (R : Z -> (pid -> Sh) -> Z -> Prop)
  (Inv : G -> (pid -> S) -> Prop) (g_and : Z -> nat -> G -> G) : Prop := {
  bo_width : forall i K, bw (E i K) = K;
  bo_range : forall K X x, R K X x -> inr K x;
  bo_ext : forall K X X' x, (forall i, X i = X' i) -> R K X x -> R K X' x;
  bo_xor : forall K X x Y y, In K widths -> R K X x -> R K Y y ->
    R K (fun i => b_xor (E i K) (X i) (Y i)) (Z.lxor x y);
  bo_shl : forall K X x n, In K widths -> R K X x -> 0 <= n ->
    R K (fun i => b_shl (E i K) (X i) n) (rshl K x n);
  bo_and : forall K g s X x Y y, In K widths -> Inv g s -> R K X x -> R K Y y ->
    wpM (fun i => b_and (E i K) (X i) (Y i)) s
        (fun s' W => Inv (g_and K 1%nat g) s' /\ R K W (Z.land x y));
  bo_and_many : forall K g s X xs Y ys, In K widths -> Inv g s -> RL (R K) X xs -> RL (R K) Y ys ->
    length xs = length ys ->
    wpM (fun i => b_and_many (E i K) (X i) (Y i)) s
        (fun s' W => Inv (g_and K (length xs) g) s' /\ RL (R K) W (map2 Z.land xs ys))
}.

Lemma map2_length_eq {A B C} (f : A -> B -> C) l l' : length l = length l' -> length (map2 f l l') = length l.
Proof. apply IrisProofs.map2_length. Qed.
Lemma map2_map2_ext {A B C} (f g : A -> B -> C) l l' : (forall a b, f a b = g a b) -> map2 f l l' = map2 g l l'.
Proof. intros H. revert l'. induction l as [|a l IH]; intros [|b l']; simpl; try reflexivity. rewrite H, IH. reflexivity. Qed.

Section Generic.
  Context {G S Sh : Type} (E : pid -> Z -> bineng S Sh) (R : Z -> (pid -> Sh) -> Z -> Prop)
    (Inv : G -> (pid -> S) -> Prop) (g_and : Z -> nat -> G -> G).
  Hypothesis OK : bin_ok E R Inv g_and.
  Variable K : Z.
  Hypothesis HK : In K widths.

  Lemma xor_many_ok X xs Y ys : RL (R K) X xs -> RL (R K) Y ys -> length xs = length ys ->
    (forall i, xor_many (E i K) (X i) (Y i) = Ok (map2 (b_xor (E i K)) (X i) (Y i))) /\
    RL (R K) (fun i => map2 (b_xor (E i K)) (X i) (Y i)) (map2 Z.lxor xs ys).
  Proof.
    intros HX HY Hl. split.
    - intros i. unfold xor_many. rewrite (RL_length _ _ _ HX), (RL_length _ _ _ HY), Hl, Nat.eqb_refl. reflexivity.
    - apply (RL_map2 (R K) (R K)); auto. intros; apply (bo_xor _ _ _ _ OK); auto.
  Qed.
  Lemma shl_many_ok X xs n : RL (R K) X xs -> 0 <= n ->
    RL (R K) (fun i => shl_many (E i K) (X i) n) (map (fun x => rshl K x n) xs).
  Proof.
    intros HX Hn. unfold shl_many.
    apply (RL_map (R K) (R K) (fun i x => b_shl (E i K) x n)); [|exact HX].
    intros; apply (bo_shl _ _ _ _ OK); auto.
  Qed.

  Lemma or_ok g s X x Y y : Inv g s -> R K X x -> R K Y y ->
    wpM (fun i => b_or (E i K) (X i) (Y i)) s
        (fun s' W => Inv (g_and K 1%nat g) s' /\ R K W (Z.lor x y)).
  Proof.
    intros Hs HX HY. unfold b_or.
    apply (wpM_bind (fun i => b_and (E i K) (X i) (Y i))).
    eapply wpM_mono; [|apply (bo_and _ _ _ _ OK); eassumption].
    intros s' Z [Hs' HZ]. apply wpM_ret. split; [exact Hs'|].
    replace (Z.lor x y) with (Z.lxor (Z.lxor x y) (Z.land x y)).
    - apply (bo_xor _ _ _ _ OK K (fun i => b_xor (E i K) (X i) (Y i))); auto. apply (bo_xor _ _ _ _ OK); auto.
    - apply Z.bits_inj'. intros n Hn. rewrite !Z.lxor_spec, Z.land_spec, Z.lor_spec.
      destruct (Z.testbit x n), (Z.testbit y n); reflexivity.
  Qed.

  Lemma lxor_land_lor xs ys : length xs = length ys ->
    map2 Z.lxor (map2 Z.land xs ys) (map2 Z.lxor xs ys) = map2 Z.lor xs ys.
  Proof.
    revert ys. induction xs as [|x xs IH]; intros [|y ys] H; try reflexivity.
    cbn [map2]. rewrite IH by (simpl in H; lia). f_equal.
    apply Z.bits_inj'. intros n Hn. rewrite !Z.lxor_spec, Z.land_spec, Z.lor_spec.
    destruct (Z.testbit x n), (Z.testbit y n); reflexivity.
  Qed.

  Lemma or_many_ok g s X xs Y ys : Inv g s -> RL (R K) X xs -> RL (R K) Y ys -> length xs = length ys ->
    wpM (fun i => or_many (E i K) (X i) (Y i)) s
        (fun s' W => Inv (g_and K (length xs) g) s' /\ RL (R K) W (map2 Z.lor xs ys)).
  Proof.
    intros Hs HX HY Hl.
    apply (wpM_ext (fun i => bindM (b_and_many (E i K) (X i) (Y i)) (fun y =>
      bindM (resM (xor_many (E i K) (X i) (Y i))) (fun x => resM (xor_many (E i K) y x))))).
    { intros i. unfold or_many. rewrite (RL_length _ _ _ HX), (RL_length _ _ _ HY), Hl, Nat.eqb_refl. reflexivity. }
    apply (wpM_bind (fun i => b_and_many (E i K) (X i) (Y i)) (fun i y =>
      bindM (resM (xor_many (E i K) (X i) (Y i))) (fun x => resM (xor_many (E i K) y x)))).
    eapply wpM_mono; [|apply (bo_and_many _ _ _ _ OK); eassumption].
    intros s' Z [Hs' HZ].
    destruct (xor_many_ok X xs Y ys HX HY Hl) as [E1 R1].
    apply (wpM_bind (fun i => resM (xor_many (E i K) (X i) (Y i)))). eapply wpM_res; [exact E1|].
    destruct (xor_many_ok Z _ _ _ HZ R1) as [E2 R2].
    { rewrite !map2_length_eq by exact Hl. reflexivity. }
    eapply wpM_res; [exact E2|]. split; [exact Hs'|].
    rewrite lxor_land_lor in R2 by exact Hl. exact R2.
  Qed.

  (** ** or_tree *)
  (** Ghost cost of processing the pairs of chunks of two vectors of length n. *)
  Definition g_chunks (lens : list nat) (g : G) : G := fold_left (fun g n => g_and K n g) lens g.

  Lemma or_chunks_ok X xss Y yss : RL (RL (R K)) X xss -> RL (RL (R K)) Y yss ->
    Forall2 (fun a b => length a = length b) xss yss -> forall g s, Inv g s ->
    wpM (fun i => mapM2 (or_many (E i K)) (X i) (Y i)) s
        (fun s' W => Inv (g_chunks (map (@length Z) xss) g) s' /\ RL (RL (R K)) W (map2 (map2 Z.lor) xss yss)).
  Proof.
    intros HX. revert Y yss. induction HX as [X HX|X X1 X' xs xss HX HX1 HXs IH]; intros Y yss HY HF g s Hs.
    - apply (wpM_ext (fun _ => retM [])). { intros i. rewrite HX. reflexivity. }
      apply wpM_ret. split; [exact Hs|apply RL_nil'].
    - inversion HF as [|? ys ? yss' Hl HF']; subst.
      apply RL_inv_cons in HY. destruct HY as (Y1 & Y' & HY & HY1 & HYs).
      apply (wpM_ext (fun i => bindM (or_many (E i K) (X1 i) (Y1 i)) (fun b =>
        bindM (mapM2 (or_many (E i K)) (X' i) (Y' i)) (fun bs => retM (b :: bs))))).
      { intros i. rewrite HX, HY. reflexivity. }
      apply (wpM_bind (fun i => or_many (E i K) (X1 i) (Y1 i)) (fun i b =>
        bindM (mapM2 (or_many (E i K)) (X' i) (Y' i)) (fun bs => retM (b :: bs)))).
      eapply wpM_mono; [|apply (or_many_ok g s X1 xs Y1 ys); assumption].
      intros s1 Z1 [Hs1 HZ1].
      apply (wpM_bind (fun i => mapM2 (or_many (E i K)) (X' i) (Y' i)) (fun i bs => retM (Z1 i :: bs))).
      eapply wpM_mono; [|apply (IH _ _ HYs HF' _ _ Hs1)]. intros s2 Z2 [Hs2 HZ2].
      apply wpM_ret. split; [exact Hs2|]. cbn [map2]. apply RL_cons'; assumption.
  Qed.

  Definition orl (l : list Z) : Z := fold_right Z.lor 0 l.
  Lemma orl_app l l' : orl (l ++ l') = Z.lor (orl l) (orl l').
  Proof. induction l as [|a l IH]; simpl; [reflexivity|]. rewrite IH, Z.lor_assoc. reflexivity. Qed.
  Lemma orl_map2 l l' : length l = length l' -> orl (map2 Z.lor l l') = Z.lor (orl l) (orl l').
  Proof.
    revert l'. induction l as [|a l IH]; intros [|b l'] H; simpl in *; try lia.
    rewrite IH by lia. rewrite <- !Z.lor_assoc. f_equal. rewrite !Z.lor_assoc. f_equal. apply Z.lor_comm.
  Qed.

  Lemma chunks_fuel_concat {A} fuel n (l : list A) : (0 < n)%nat -> (length l <= fuel)%nat -> concat (chunks_fuel fuel n l) = l.
  Proof.
    revert l. induction fuel as [|fuel IH]; intros l Hn Hl; destruct l as [|a l]; try reflexivity; [simpl in Hl; lia|].
    cbn [chunks_fuel concat]. rewrite IH; [apply firstn_skipn|exact Hn|].
    rewrite skipn_length. cbn [length] in Hl |- *. lia.
  Qed.
  Lemma chunks_concat {A} n (l : list A) : (0 < n)%nat -> concat (chunks n l) = l.
  Proof. intros H. apply chunks_fuel_concat; [exact H|lia]. Qed.
  Lemma chunks_fuel_len2 {A B} fuel n (l : list A) (l' : list B) : length l = length l' ->
    Forall2 (fun a b => length a = length b) (chunks_fuel fuel n l) (chunks_fuel fuel n l').
  Proof.
    revert l l'. induction fuel as [|fuel IH]; intros l l' H; [constructor|].
    destruct l as [|a l], l' as [|b l']; simpl in H; try lia; [constructor|].
    cbn [chunks_fuel]. constructor.
    - rewrite !firstn_length. cbn [length]. lia.
    - apply IH. rewrite !skipn_length. cbn [length]. lia.
  Qed.
  Lemma chunks_len2 {A B} n (l : list A) (l' : list B) : length l = length l' ->
    Forall2 (fun a b => length a = length b) (chunks n l) (chunks n l').
  Proof. intros H. unfold chunks. rewrite H. apply chunks_fuel_len2. exact H. Qed.
  Lemma concat_map2 (xss yss : list (list Z)) : Forall2 (fun a b => length a = length b) xss yss ->
    concat (map2 (map2 Z.lor) xss yss) = map2 Z.lor (concat xss) (concat yss).
  Proof.
    induction 1 as [|a b xss yss Hl HF IH]; [reflexivity|]. cbn [map2 concat]. rewrite IH.
    revert b Hl. induction a as [|x a IHa]; intros [|y b] Hl; simpl in *; try lia; [reflexivity|].
    f_equal. apply IHa. lia.
  Qed.

  (** Ghost cost of or_tree on n inputs. *)
  Definition chunk_lens (chunk n : nat) : list nat := map (@length unit) (chunks chunk (repeat tt n)).
  Fixpoint g_or_tree (fuel chunk num : nat) (g : G) : G :=
    match fuel with
    | O => g
    | Datatypes.S f =>
        if Nat.ltb 1 num then
          g_or_tree f chunk (Nat.div2 num + Nat.modulo num 2) (g_chunks (chunk_lens chunk (Nat.div2 num)) g)
        else g
    end.
  Lemma chunk_lens_eq {A} chunk (l : list A) : map (@length A) (chunks chunk l) = chunk_lens chunk (length l).
  Proof.
    unfold chunk_lens. assert (H : length l = length (repeat tt (length l))) by (rewrite repeat_length; reflexivity).
    pose proof (chunks_len2 chunk l (repeat tt (length l)) H) as HF.
    induction HF as [|a b xs ys Hl HF IH]; [reflexivity|]. cbn [map]. rewrite Hl, IH. reflexivity.
  Qed.

  Lemma div2_mod2 n : n = (2 * Nat.div2 n + Nat.modulo n 2)%nat.
  Proof. rewrite Nat.div2_div. apply Nat.div_mod_eq. Qed.

  Lemma or_tree_loop_ok chunk : (0 < chunk)%nat -> forall fuel num X xs g s, (num <= fuel)%nat -> (0 < num)%nat ->
    num = length xs -> Inv g s -> RL (R K) X xs ->
    wpM (fun i => or_tree_loop (E i K) fuel chunk num (X i)) s
        (fun s' W => Inv (g_or_tree fuel chunk num g) s' /\ exists z, RL (R K) W [z] /\ z = orl xs).
  Proof.
    intros Hc. induction fuel as [|fuel IH]; intros num X xs g s Hf Hn0 Hn Hs HX; [lia|].
    cbn [or_tree_loop g_or_tree]. destruct (Nat.ltb_spec 1 num) as [H1|H1].
    - pose proof (div2_mod2 num) as Hd. assert (Hm : (Nat.modulo num 2 < 2)%nat) by (apply Nat.mod_upper_bound; lia).
      set (n := Nat.div2 num) in *. set (m := Nat.modulo num 2) in *.
      replace (Nat.eqb chunk 0) with false by (symmetry; apply Nat.eqb_neq; lia).
      assert (Ha : RL (R K) (fun i => firstn n (X i)) (firstn n xs)) by (apply RL_firstn, HX).
      assert (Hb : RL (R K) (fun i => firstn n (skipn n (X i))) (firstn n (skipn n xs)))
        by (apply (RL_firstn (R K) (fun i => skipn n (X i))), RL_skipn, HX).
      assert (Hlo : RL (R K) (fun i => skipn n (skipn n (X i))) (skipn n (skipn n xs)))
        by (apply (RL_skipn (R K) (fun i => skipn n (X i))), RL_skipn, HX).
      assert (Hl : length (firstn n xs) = length (firstn n (skipn n xs))).
      { rewrite !firstn_length, skipn_length. lia. }
      assert (Hln : length (firstn n xs) = n) by (rewrite firstn_length; lia).
      pose proof (chunks_len2 chunk _ _ Hl) as HF.
      apply (wpM_bind (fun i => mapM2 (or_many (E i K)) (chunks chunk (firstn n (X i)))
                                 (chunks chunk (firstn n (skipn n (X i)))))
              (fun i rs => or_tree_loop (E i K) fuel chunk (n + m) (concat rs ++ skipn n (skipn n (X i))))).
      eapply wpM_mono; [|apply (or_chunks_ok _ _ _ _ (RL_chunks _ chunk _ _ Ha) (RL_chunks _ chunk _ _ Hb) HF _ _ Hs)].
      intros s1 Z1 [Hs1 HZ1].
      rewrite (chunk_lens_eq chunk (firstn n xs)), Hln in Hs1.
      set (ys := concat (map2 (map2 Z.lor) (chunks chunk (firstn n xs)) (chunks chunk (firstn n (skipn n xs))))
                 ++ skipn n (skipn n xs)).
      assert (Hys : ys = map2 Z.lor (firstn n xs) (firstn n (skipn n xs)) ++ skipn n (skipn n xs)).
      { unfold ys. rewrite concat_map2 by exact HF. rewrite !chunks_concat by exact Hc. reflexivity. }
      eapply wpM_mono; [|apply (IH (n + m)%nat _ ys)].
      + intros s2 Z2 (Hs2 & z & Hz & Ez). split; [exact Hs2|]. exists z. split; [exact Hz|].
        rewrite Ez, Hys, orl_app, orl_map2 by exact Hl. rewrite <- !orl_app.
        rewrite <- app_assoc, firstn_skipn, firstn_skipn. reflexivity.
      + lia.
      + lia.
      + rewrite Hys, app_length, map2_length_eq by exact Hl. rewrite Hln, !skipn_length. lia.
      + exact Hs1.
      + apply RL_app; [apply RL_concat; exact HZ1|exact Hlo].
    - apply wpM_ret. split; [exact Hs|].
      destruct xs as [|x [|]]; simpl in Hn; try lia. exists x. split; [exact HX|].
      simpl. rewrite Z.lor_0_r. reflexivity.
  Qed.

  Lemma or_tree_ok chunk X xs g s : (0 < chunk)%nat -> (0 < length xs)%nat -> Inv g s -> RL (R K) X xs ->
    wpM (fun i => or_tree (E i K) (X i) chunk) s
        (fun s' W => Inv (g_or_tree (length xs) chunk (length xs) g) s' /\ R K W (orl xs)).
  Proof.
    intros Hc Hn Hs HX. unfold or_tree.
    apply (wpM_ext (fun i => bindM (or_tree_loop (E i K) (length xs) chunk (length xs) (X i)) (fun r => resM (index r 0)))).
    { intros i. rewrite (RL_length _ _ _ HX). reflexivity. }
    apply (wpM_bind (fun i => or_tree_loop (E i K) (length xs) chunk (length xs) (X i)) (fun i r => resM (index r 0))).
    eapply wpM_mono; [|eapply (or_tree_loop_ok chunk Hc); [apply le_n|exact Hn|reflexivity|exact Hs|exact HX]].
    intros s' Z (Hs' & z & Hz & Ez). apply RL_inv_cons in Hz. destruct Hz as (Y & Z' & HZ & HY & _).
    apply (wpM_res (fun i => index (Z i) 0) Y); [intros i; rewrite HZ; reflexivity|].
    split; [exact Hs'|]. rewrite <- Ez. exact HY.
  Qed.
End Generic.
