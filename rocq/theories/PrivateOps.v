(** The interactive gates of the semi-honest engine are private. *)
From Verif Require Import Base Ring RingProofs Prog Sched Rel Rng Net BinTrait Iris Aby3 ShareSpec Aby3Proofs SlicedProofs ViewSpec Private.

(** ** Tapes *)
Lemma bits_value_range l : 0 <= bits_value l < 2 ^ Z.of_nat (length l).
Proof.
  induction l as [|b l IH]; cbn [bits_value length]; [cbn; lia|].
  rewrite Nat2Z.inj_succ, Z.pow_succ_r by lia. destruct b; cbn [Z.b2z]; lia.
Qed.
Lemma bits_value_inj l l' : length l = length l' -> bits_value l = bits_value l' -> l = l'.
Proof.
  revert l'. induction l as [|b l IH]; intros [|b' l'] Hl H; try discriminate; [reflexivity|]. cbn [bits_value] in H.
  assert (b = b') by (destruct b, b'; cbn [Z.b2z] in H; try reflexivity; lia). subst b'. f_equal.
  apply IH; [cbn in Hl; lia|lia].
Qed.
Lemma bits_value_onto n : forall v, 0 <= v < 2 ^ Z.of_nat n -> exists l, length l = n /\ bits_value l = v.
Proof.
  induction n as [|n IH]; intros v Hv; [exists []; cbn in *; split; [reflexivity|lia]|].
  rewrite Nat2Z.inj_succ, Z.pow_succ_r in Hv by lia.
  destruct (IH (v / 2)) as (l & Hl & Hb). { split; [apply Z.div_pos; lia|apply Z.div_lt_upper_bound; lia]. }
  exists (Z.odd v :: l). cbn [length bits_value]. split; [lia|]. rewrite Hb.
  pose proof (Z.div_mod v 2 ltac:(lia)) as E. rewrite Zmod_odd in E. destruct (Z.odd v); cbn [Z.b2z]; lia.
Qed.

(** The next value and the next c values on a tape. *)
Definition val1 (K : Z) (t : list bool) : Z := bits_value (firstn (Z.to_nat K) t).
Fixpoint vals (K : Z) (c : nat) (t : list bool) : list Z :=
  match c with O => [] | S c' => val1 K t :: vals K c' (skipn (Z.to_nat K) t) end.
Definition sz (K : Z) (c : nat) : nat := (c * Z.to_nat K)%nat.
Definition fits (K : Z) (c : nat) (l : list Z) : Prop := length l = c /\ Forall (inr K) l.
Lemma val1_range K t : 0 <= K -> inr K (val1 K t).
Proof.
  intros HK. unfold val1, inr. pose proof (bits_value_range (firstn (Z.to_nat K) t)) as H. rewrite firstn_length in H.
  split; [apply H|]. eapply Z.lt_le_trans; [apply H|]. apply Z.pow_le_mono_r; lia.
Qed.
Lemma vals_fits K c : 0 <= K -> forall t, fits K c (vals K c t).
Proof.
  intros HK. induction c as [|c IH]; intros t; [split; [reflexivity|constructor]|].
  destruct (IH (skipn (Z.to_nat K) t)) as [H1 H2]. split; [cbn; rewrite H1; reflexivity|]. constructor; [apply val1_range, HK|exact H2].
Qed.
Lemma draw_tape K t : 0 <= K -> draw tape K t = (skipn (Z.to_nat K) t, val1 K t).
Proof. intros HK. unfold draw, tape. cbn [rdraw]. fold (val1 K t). rewrite norm_small by (apply val1_range, HK). reflexivity. Qed.

Lemma firstn_len_app {A} (l r : list A) n : length l = n -> firstn n (l ++ r) = l.
Proof. intros <-. rewrite firstn_app, Nat.sub_diag, firstn_all, firstn_O, app_nil_r. reflexivity. Qed.
Lemma skipn_len_app {A} (l r : list A) n : length l = n -> skipn n (l ++ r) = r.
Proof. intros <-. rewrite skipn_app, Nat.sub_diag, skipn_all. reflexivity. Qed.
Lemma vals_onto K c : 0 <= K -> forall u, fits K c u -> exists w, length w = sz K c /\ forall h, vals K c (w ++ h) = u.
Proof.
  intros HK. unfold sz. induction c as [|c IH]; intros u [Hl Hu].
  - destruct u; [|discriminate]. exists []. split; reflexivity.
  - destruct u as [|x u]; [discriminate|]. injection Hl as Hl. inversion_clear Hu as [|? ? Hx Hu'].
    destruct (bits_value_onto (Z.to_nat K) x) as (w1 & L1 & B1). { unfold inr in Hx. rewrite Z2Nat.id by exact HK. exact Hx. }
    destruct (IH u (conj Hl Hu')) as (w2 & L2 & B2). exists (w1 ++ w2). split; [rewrite app_length; lia|].
    intros h. cbn [vals]. unfold val1. rewrite <- app_assoc, firstn_len_app, skipn_len_app by exact L1. rewrite B1, B2. reflexivity.
Qed.
Lemma vals_inj K c : 0 <= K -> forall w w' h h', length w = sz K c -> length w' = sz K c ->
  vals K c (w ++ h) = vals K c (w' ++ h') -> w = w'.
Proof.
  intros HK. unfold sz. induction c as [|c IH]; intros w w' h h' L L' H.
  - destruct w, w'; try discriminate; reflexivity.
  - cbn [vals] in H. injection H as H1 H2. cbn [Nat.mul] in L, L'.
    rewrite <- (firstn_skipn (Z.to_nat K) w), <- (firstn_skipn (Z.to_nat K) w') in *.
    set (a := firstn (Z.to_nat K) w) in *. set (b := skipn (Z.to_nat K) w) in *.
    set (a' := firstn (Z.to_nat K) w') in *. set (b' := skipn (Z.to_nat K) w') in *.
    assert (La : length a = Z.to_nat K). { unfold a. rewrite firstn_length. rewrite app_length in L. unfold a, b in L. rewrite firstn_length, skipn_length in L. lia. }
    assert (La' : length a' = Z.to_nat K). { unfold a'. rewrite firstn_length. rewrite app_length in L'. unfold a', b' in L'. rewrite firstn_length, skipn_length in L'. lia. }
    rewrite app_length in L, L'. clearbody a b a' b'.
    unfold val1 in H1. rewrite <- !app_assoc in H1, H2. rewrite !firstn_len_app in H1 by assumption. rewrite !skipn_len_app in H2 by assumption.
    f_equal; [apply bits_value_inj; [congruence|exact H1]|]. eapply IH; [| |exact H2]; lia.
Qed.

(** ** One masked exchange *)
Section Base.
  Variable i : pid.
  Notation st := (deal i).
  Notation MT := (M (prf tape)).

  Lemma evals_exchange {A} (P : pid -> prog A) (ms : pid -> msg) (kk : pid -> msg -> prog A) (R : pid -> A) :
    (forall j, P j = Send (next j) (ms j) (Recv (prev j) (kk j))) -> (forall j, kk j (ms (prev j)) = Ret (R j)) ->
    evals (fun j => spied (P j)) (fun j => ([ms (prev j)], R j)).
  Proof.
    intros HP Hk.
    assert (W : evals (fun j => send_and_receive j (ms j)) (fun j => ms (prev j))).
    { destruct (wp_send_and_receive ms (fun R => forall j, R j = ms (prev j))) as (R0 & H0 & H1); [reflexivity|].
      eapply evals_ext; [| |exact H0]; [reflexivity|exact H1]. }
    pose proof (evals_bind _ _ (fun j m => bind (spied (kk j m)) (fun r => Ret (m :: fst r, snd r))) (fun j => ([ms (prev j)], R j)) W) as B.
    eapply evals_ext; [| |apply B]; [| |].
    - intros j. cbn [send_and_receive bind]. rewrite HP. reflexivity.
    - intros j. reflexivity.
    - cbn beta. eapply evals_ext; [| |apply (evals_ret (fun j => ([ms (prev j)], R j)))]; [|reflexivity].
      intros j. cbn beta. rewrite Hk. reflexivity.
  Qed.

  (** In every program P j: c values x of width K are drawn from each of its two tapes, [L j] of them is
      encoded and sent to the next party; what comes from the previous one is decoded and [out] of the
      two is the result. *)
  Definition exchange {A} (K : Z) (c : nat) (enc : list Z -> msg) (out : list Z -> list Z -> A)
      (P : pid -> MT A) (L : pid -> list Z -> list Z -> list Z) : Prop :=
    (forall j x y, exists kk, P j (Prf tape x y) = Send (next j) (enc (L j (vals K c x) (vals K c y))) (Recv (prev j) kk) /\
       forall l, fits K c l -> kk (enc l) =
         Ret (Prf tape (skipn (sz K c) x) (skipn (sz K c) y), out (L j (vals K c x) (vals K c y)) l)) /\
    (forall j x y, fits K c x -> fits K c y -> fits K c (L j x y)).
  (** The tapes of party j. *)
  Definition my_tape (a b h : list bool) (j : pid) : list bool := my_prf tape (st a b h j).
  Lemma st_tapes a b h j : st a b h j = Prf tape (my_tape a b h j) (my_tape a b h (prev j)).
  Proof. unfold my_tape, deal. destruct i, j; reflexivity. Qed.
  Lemma my_tape_skip n a b w h j : length w = n -> skipn n (my_tape a b (w ++ h) j) = my_tape (skipn n a) (skipn n b) h j.
  Proof. intros Hw. unfold my_tape, deal. destruct i, j; cbn; try reflexivity; apply skipn_len_app, Hw. Qed.

  Definition drawn (K : Z) (c : nat) (a b w : list bool) (j : pid) : list Z :=
    vals K c (my_tape a b w j).
  Lemma vals_app K c w h h' : length w = sz K c -> vals K c (w ++ h) = vals K c (w ++ h').
  Proof.
    unfold sz. revert w. induction c as [|c IH]; intros w Hw; [reflexivity|]. cbn [vals]. cbn [Nat.mul] in Hw. unfold val1.
    rewrite !firstn_app, !skipn_app. replace (Z.to_nat K - length w)%nat with O by lia. rewrite !firstn_O. cbn [skipn].
    f_equal. apply IH. rewrite skipn_length. lia.
  Qed.
  Lemma drawn_app K c a b w h j : length w = sz K c -> vals K c (my_tape a b (w ++ h) j) = drawn K c a b w j.
  Proof.
    intros Hw. unfold drawn, my_tape, deal. destruct i, j; cbn; try reflexivity;
      rewrite <- (app_nil_r w) at 2; apply vals_app, Hw.
  Qed.
  Lemma exchange_runs {A} K c enc out (P : pid -> MT A) L a b w : 0 <= K -> exchange K c enc out P L -> length w = sz K c ->
    let l j := L j (drawn K c a b w j) (drawn K c a b w (prev j)) in
    runs i (sz K c) P a b w (fun j => [enc (l (prev j))]) (fun j => out (l j) (l (prev j))).
  Proof.
    intros HK [HP HL] Hw l h.
    assert (Hl : forall j, fits K c (l j)) by (intros j; apply HL; apply vals_fits, HK).
    destruct (HP P0 (my_tape a b (w ++ h) P0) (my_tape a b (w ++ h) P2)) as (k0 & E0 & F0).
    destruct (HP P1 (my_tape a b (w ++ h) P1) (my_tape a b (w ++ h) P0)) as (k1 & E1 & F1).
    destruct (HP P2 (my_tape a b (w ++ h) P2) (my_tape a b (w ++ h) P1)) as (k2 & E2 & F2).
    apply (evals_exchange _ (fun j => enc (l j)) (fun j => match j with P0 => k0 | P1 => k1 | P2 => k2 end)
             (fun j => (st (skipn (sz K c) a) (skipn (sz K c) b) h j, out (l j) (l (prev j))))).
    - intros j. rewrite st_tapes. unfold l. destruct j; cbn [prev]; rewrite ?E0, ?E1, ?E2, !drawn_app by exact Hw; reflexivity.
    - intros j. rewrite st_tapes. rewrite <- !(my_tape_skip _ _ _ w h) by exact Hw.
      unfold l. destruct j; cbn [prev]; rewrite ?F0, ?F1, ?F2 by apply Hl; rewrite !drawn_app by exact Hw; reflexivity.
  Qed.

  Lemma exchange_coup {A} K c enc out (P P' : pid -> MT A) L L' : 0 <= K ->
    exchange K c enc out P L -> exchange K c enc out P' L' ->
    (forall l l', fits K c l -> fits K c l' -> enc l = enc l' -> l = l') ->
    (forall x y, L i x y = L' i x y) ->
    (forall x u, fits K c x -> fits K c u -> exists y, fits K c y /\ L' (prev i) x y = u) ->
    (forall x y y', fits K c x -> fits K c y -> fits K c y' -> L' (prev i) x y = L' (prev i) x y' -> y = y') ->
    coup i (sz K c) 1 P P' (fun R R' => (forall j, exists l l', fits K c l /\ fits K c l' /\ R j = out l l') /\
                                   (forall j, exists l l', fits K c l /\ fits K c l' /\ R' j = out l l')).
  Proof.
    intros HK HP HP' Henc Hown Honto Hinj a b w Hw.
    assert (Dp : forall w, drawn K c a b w (prev i) = vals K c b) by (intros w0; unfold drawn, my_tape, deal; destruct i; reflexivity).
    assert (Dn : forall w, drawn K c a b w (prev (prev i)) = vals K c w) by (intros w0; unfold drawn, my_tape, deal; destruct i; reflexivity).
    assert (Di : forall w, drawn K c a b w i = vals K c a) by (intros w0; unfold drawn, my_tape, deal; destruct i; reflexivity).
    pose (u := L (prev i) (vals K c b) (vals K c w)).
    assert (Hu : fits K c u) by (apply HP; apply vals_fits, HK).
    destruct (Honto (vals K c b) u (vals_fits K c HK b) Hu) as (y & Hy & Ey).
    destruct (vals_onto K c HK y Hy) as (w' & Hw' & Ew').
    pose proof (exchange_runs K c enc out P L a b w HK HP Hw) as R1.
    pose proof (exchange_runs K c enc out P' L' a b w' HK HP' Hw') as R2. cbv zeta in R1, R2.
    assert (Ew : vals K c w' = y) by (rewrite <- (app_nil_r w'); apply Ew').
    eexists _, _, w', _, _. split; [exact Hw'|]. split; [exact R1|]. split; [exact R2|]. cbn beta.
    rewrite !Dp, !Dn, !Di, Ew, Ey. fold u.
    split; [reflexivity|]. split; [reflexivity|]. split; [rewrite Hown; reflexivity|]. split.
    - assert (F : forall Q M w j, exchange K c enc out Q M -> fits K c (M j (drawn K c a b w j) (drawn K c a b w (prev j))) /\
         fits K c (M (prev j) (drawn K c a b w (prev j)) (drawn K c a b w (prev (prev j))))).
      { intros Q M w0 j [_ HM]. split; apply HM; apply vals_fits, HK. }
      split; intros j; [destruct (F _ _ w j HP) as [F1 F2]|destruct (F _ _ w' j HP') as [F1 F2]];
        (eexists _, _; split; [exact F1|]; split; [exact F2|]; reflexivity).
    - intros w'' V'' R'' Hw'' HR HV.
      pose proof (exchange_runs K c enc out P' L' a b w'' HK HP' Hw'') as R3. cbv zeta in R3.
      destruct (runs_unique _ _ _ _ _ _ _ _ _ _ HR R3) as [UV _]. rewrite (UV i) in HV. rewrite Dp, Dn in HV. injection HV as HV.
      apply Henc in HV; [|apply HP'; apply vals_fits, HK|exact Hu]. rewrite <- Ey in HV.
      apply Hinj in HV; [|apply vals_fits, HK|apply vals_fits, HK|exact Hy].
      rewrite <- Ew in HV. rewrite <- (app_nil_r w''), <- (app_nil_r w') in HV. exact (vals_inj K c HK _ _ _ _ Hw'' Hw' HV).
  Qed.
End Base.
