(** Property C64: inputs on the SPDZ-wise engine when one party is malicious. *)
From Verif Require Import Base Ring RingProofs Prog Sched Conc Rng Rel Net MpcSpec Aby3 ShareSpec Aby3Proofs Jmp JmpProofs Session SessionProofs Aby3Mal Aby3MalProofs Aby3MalProofs2
  PropLemmas PropLemmas2 SpecProofs Duo DuoProofs PropLemmas5 MacSpec MacProofs Client ClientProofs Emits TripleMalMet Properties4 Properties7 Properties22
  ProgMalSpec ProgMalDuo ProgMalOps2 ProgMalMet Spdz TripleSpec SpdzProofs2 SpdzProofs3 SpdzProofs4 SpdzProofs5 OpenMal Properties28 SpdzMal SpdzMal2 BitArith BinProofs SlicedProofs.
From Coq Require Import ZifyBool ZifyNat.

(** What dealer p puts into its call of [input], and what the others do. *)
Definition dealt (p : pid) (v : Z) (q : pid) : option Z := if pid_eqb q p then Some v else None.
Definition input_open (G : rng) (H : hasher) (K : Z) (q : pid) (v : option Z) (id : Z) : M (sst G) Z := bindM (spdz_input G q K v id) (spdz_open G H q K).

Section A.
  Variable G : rng.
  Lemma input_eq U p v q f : input G q U (dealt p v q) (pid_num p) f = bindM (gen_zero_share G U) (fun r => reshare G q U (if pid_eqb q p then radd U r v else r)) f.
  Proof using Type. unfold input, dealt. destruct p, q; reflexivity. Qed.

  (** Two parties deal at the same time: the values add up. *)
  Lemma input2_ok U p k v w (s : pid -> prf G) : In U widths -> k <> p -> prf_synced s ->
    wpM (fun q => input G q U (if pid_eqb q k then Some w else dealt p v q) (pid_num (if pid_eqb q k then k else p))) s (fun s' X => prf_synced s' /\ arith_shared U X ((v + w) mod 2 ^ U)).
  Proof using Type.
    intros HU Hkp Hs. assert (HU0 : 0 <= U) by (apply in_widths_pos in HU; lia).
    apply (wpM_ext (fun q => bindM (gen_zero_share G U) (fun r => reshare G q U (if pid_eqb q k then radd U r w else if pid_eqb q p then radd U r v else r)))).
    { intros q. unfold input, dealt. destruct p, q, k; try congruence; reflexivity. }
    apply (wpM_bind (fun _ => gen_zero_share G U)).
    eapply wpM_mono; [|apply gen_zero_share_ok; eassumption]. intros s' W [Hs' [W1 W2]].
    eapply wpM_mono; [|apply (reshare_ok_a G U s' _ ((v + w) mod 2 ^ U)); [exact HU|]].
    { cbn beta. intros s1 X [-> HX]. split; [exact Hs'|exact HX]. }
    split.
    - intros q. destruct (pid_eqb q k); [apply inr_mod, HU0|]. destruct (pid_eqb q p); [apply inr_mod, HU0|apply W1].
    - replace (v + w) with (0 + (v + w)) by lia. rewrite <- Zplus_mod_idemp_l, W2. destruct p, k; try congruence; cbn [pid_eqb]; modring.
  Qed.
  Lemma input_emits q U v id : emitsM (input G q U v id).
  Proof using Type.
    unfold input. destruct (3 <=? id); [apply emitsM_fail|]. apply emitsM_bind; [apply zero_emits|intros r].
    apply emitsM_bind; [destruct (id =? pid_num q); [destruct v; [apply emitsM_ret|apply emitsM_fail]|apply emitsM_ret]|intros a]. unfold reshare. apply emitsM_bind; [apply emitsM_lift, sar_emits|intros; apply emitsM_ret].
  Qed.
End A.

(** C64.  The value that an honest party shares is the value that the honest parties compute on, or they notice. *)

(** It is not so.  The honest party p (i or i+1) inputs v; for any d the third party can act such that i and i+1 both
    finish the input and the opening after it, with all its checks, and obtain v + d. *)
Theorem C64_input_refuted : forall G H K i r g p v d (s : pid -> sst G), In K widths -> (forall x, bytes (hfun H x)) ->
  spdz_inv G (verif_width K) r g s -> p <> prev i -> inr K v ->
  exists s' t', duo_run i (input_open G H K i (dealt p v i) (pid_num p)) (input_open G H K (next i) (dealt p v (next i)) (pid_num p)) (s i) (s (next i)) s' t'
    ((v + d) mod 2 ^ K) ((v + d) mod 2 ^ K).
Proof.
  intros G H K i r g p v d s HK HH Hs Hp Hv. set (k := prev i) in *. pose proof (HU K HK) as HUw. pose proof (HKU K HK) as HKU.
  set (P := fun q => input_open G H K q (if pid_eqb q k then Some d else dealt p v q) (pid_num (if pid_eqb q k then k else p))).
  assert (W : wpM P s (fun s' a => forall q, a q = (v + d) mod 2 ^ K)).
  { unfold P, input_open, spdz_input. cbv zeta. wbind. wbind.
    eapply wpM_mono; [|apply (on_aby_ok G (verif_width K) r _ g s (fun W => arith_shared (verif_width K) W ((v + d) mod 2 ^ verif_width K)) Hs);
      intros Hq; eapply (wpM_ext (fun q => input G q (verif_width K) (if pid_eqb q k then Some d else dealt p v q) (pid_num (if pid_eqb q k then k else p)))); [|apply input2_ok; [exact HUw|congruence|exact Hq]]].
    2:{ intros q. unfold dealt. destruct (pid_eqb q k), (pid_eqb q p); reflexivity. }
    cbn beta. intros s1 V (Hs1 & _ & HV). wbind. apply wpM_get. wbind.
    eapply wpM_mono; [|apply (on_aby_ok G (verif_width K) r _ g s1 (fun W => arith_shared (verif_width K) W (((v + d) mod 2 ^ verif_width K * r) mod 2 ^ verif_width K)) Hs1); intros Hq;
      apply (mul_ok G (verif_width K) V _ (fun i => s_mac G (s1 i)) r _ HUw Hq HV); apply Hs1].
    cbn beta. intros s2 m (Hs2 & _ & Hm).
    assert (HA : auth_shared (verif_width K) r (fun i => AShare (V i) (m i)) ((v + d) mod 2 ^ verif_width K)) by (split; assumption).
    wbind. eapply wpM_mono; [|apply (vq_push_ok G (verif_width K) r (fun i => [AShare (V i) (m i)]) [(v + d) mod 2 ^ verif_width K] g s2 Hs2); apply RL_one, HA].
    cbn beta. intros s3 ? Hs3. apply wpM_ret.
    eapply wpM_mono; [|apply (spdz_open_ok G H K r HK (fun i => AShare (V i) (m i)) ((v + d) mod 2 ^ K) g s3 Hs3)].
    - cbn beta. intros s4 aa [_ Ha]. exact Ha.
    - eexists. split; [exact HA|]. symmetry. apply mod_mod_pow. lia. }
  destruct W as (R & HE & HR).
  assert (EM : emitsM (P (prev i))).
  { unfold P, input_open, spdz_input. apply emitsM_bind; [|intros x].
    - apply emitsM_bind; [apply on_aby_emits, input_emits|intros]. apply emitsM_bind; [apply emitsM_get|intros]. apply emitsM_bind; [apply on_aby_emits, mul_emits_aby|intros]. apply emitsM_bind; [apply vq_push_emits|intros; apply emitsM_ret].
    - unfold spdz_open. apply emitsM_bind; [apply vq_push_emits|intros]. apply emitsM_bind; [apply verify_macs_emits, HH|intros].
      apply emitsM_bind; [apply on_aby_emits; unfold open; apply emitsM_bind; [apply emitsM_lift, sar_emits|intros; apply emitsM_ret]|intros; apply emitsM_ret]. }
  pose proof (honest_duo i P s R HE EM) as HD. rewrite !HR in HD.
  exists (fst (R i)), (fst (R (next i))).
  replace (P i) with (input_open G H K i (dealt p v i) (pid_num p)) in HD by (unfold P, k; destruct i; reflexivity).
  replace (P (next i)) with (input_open G H K (next i) (dealt p v (next i)) (pid_num p)) in HD by (unfold P, k; destruct i; reflexivity).
  exact HD.
Qed.
Print Assumptions C64_input_refuted.

(** What does hold: adding something is all that the third party can do.  Let z_i and z_j be the shares of zero that
    i and i+1 draw, and w the first word that the third party sends.  Whenever both finish, their shares stand for
    v + (z_i + z_j + w), which is v if w is the third share of zero; and the item is queued for the MAC check. *)
Theorem C64_input_partial : forall G K i p v (s t s' t' : sst G) x y l fi zi fj zj, In K widths -> let U := verif_width K in
  p <> prev i -> inr K v -> next_prf G (j_prf G (s_j G t)) = my_prf G (j_prf G (s_j G s)) ->
  gen_zero_share G U (j_prf G (s_j G s)) = Ret (fi, zi) -> gen_zero_share G U (j_prf G (s_j G t)) = Ret (fj, zj) ->
  duo_trace i (spdz_input G i K (dealt p v i) (pid_num p)) (spdz_input G (next i) K (dealt p v (next i)) (pid_num p)) s t s' t' x y l ->
  exists m rest w, l = m :: rest /\ from_bytes U m = Ok w /\
    (exists V, arith_shared U V ((v + (zi + zj + w)) mod 2 ^ U) /\ V i = av x /\ V (next i) = av y) /\
    (exists M mac, arith_shared U M mac /\ M i = am x /\ M (next i) = am y) /\
    s_vq G s' = s_vq G s ++ [x] /\ s_vq G t' = s_vq G t ++ [y].
Proof.
  intros G K i p v s t s' t' x y l fi zi fj zj HK U Hp Hv Hs Ei Ej HR. pose proof (HU K HK) as HUw. fold U in HUw. pose proof (U0 K HK) as HU0. fold U in HU0.
  refine (duo_trace_sound i _ _ s t s' t' x y l (fun l xx yy => exists m rest w, l = m :: rest /\ from_bytes U m = Ok w /\
    (exists V, arith_shared U V ((v + (zi + zj + w)) mod 2 ^ U) /\ V i = av (snd xx) /\ V (next i) = av (snd yy)) /\
    (exists M mac, arith_shared U M mac /\ M i = am (snd xx) /\ M (next i) = am (snd yy)) /\
    s_vq G (fst xx) = s_vq G s ++ [snd xx] /\ s_vq G (fst yy) = s_vq G t ++ [snd yy]) _ HR). clear HR.
  destruct (gen_zero_run G U (j_prf G (s_j G s)) HU0) as (zi' & Ei' & Hzi). rewrite Ei' in Ei. injection Ei as Efi <-.
  destruct (gen_zero_run G U (j_prf G (s_j G t)) HU0) as (zj' & Ej' & Hzj). rewrite Ej' in Ej. injection Ej as Efj <-.
  set (ai := if pid_eqb i p then radd U zi' v else zi'). set (aj := if pid_eqb (next i) p then radd U zj' v else zj').
  assert (Ra : inr U ai) by (unfold ai; destruct (pid_eqb i p); [apply inr_mod, HU0|exact Hzi]).
  assert (Rb : inr U aj) by (unfold aj; destruct (pid_eqb (next i) p); [apply inr_mod, HU0|exact Hzj]).
  assert (SUM : forall w, (ai + aj + w) mod 2 ^ U = (v + (zi' + zj' + w)) mod 2 ^ U).
  { intros w. unfold ai, aj. clear -Hp. destruct i, p; cbn in *; try congruence; modring. }
  assert (II : forall q f, input G q U (option_map to_verif (dealt p v q)) (pid_num p) f = bindM (gen_zero_share G U) (fun r => reshare G q U (if pid_eqb q p then radd U r v else r)) f).
  { intros q f. rewrite <- input_eq. unfold dealt. destruct (pid_eqb q p); reflexivity. }
  unfold spdz_input. cbv zeta. fold U. unfold on_aby, on_j, on_prf, zoom, vq_push, getM, putM, retM, bindM. rewrite !II. unfold bindM at 1.
  unfold bindM, reshare, liftM, retM, send_and_receive_value, send_and_receive. rewrite Ei', Ej'. unfold bindM. cbn [bind fst snd]. fold ai aj. clearbody ai aj.
  apply duoR_send_next. apply duoR_r_send_next. apply duoR_recv_prev. intros m Bm. cbn [app]. apply duoR_r_recv_prev. cbn [bind].
  rewrite (from_to_bytes U _ HUw Ra). destruct (from_bytes U m) as [w|e] eqn:EM; cbn [of_res bind fst snd s_j j_prf s_mac]; [|apply duoR_fail_l].
  assert (Rw : inr U w) by (eapply from_bytes_range; eassumption).
  destruct (gen_zero_run G U (Prf G (after G U 1 (my_prf G (j_prf G (s_j G s)))) (after G U 1 (next_prf G (j_prf G (s_j G s))))) HU0) as (yi & Eyi & _).
  destruct (gen_zero_run G U (Prf G (after G U 1 (my_prf G (j_prf G (s_j G t)))) (after G U 1 (next_prf G (j_prf G (s_j G t))))) HU0) as (yj & Eyj & _).
  unfold mul, reshare, liftM, retM, send_and_receive_value, send_and_receive, bindM. rewrite Eyi, Eyj. cbn [bind fst snd].
  apply duoR_send_next. apply duoR_r_send_next. apply duoR_recv_prev. intros m2 Bm2. cbn [app]. apply duoR_r_recv_prev. cbn [bind].
  assert (R2 : forall z, inr U (radd U z yi)) by (intros; apply inr_mod, HU0). assert (R3 : forall z, inr U (radd U z yj)) by (intros; apply inr_mod, HU0).
  rewrite (from_to_bytes U _ HUw) by apply R2. destruct (from_bytes U m2) as [w2|e] eqn:EM2; cbn [of_res bind fst snd s_j j_prf s_mac s_vq]; [|apply duoR_fail_l].
  assert (Rw2 : inr U w2) by (eapply from_bytes_range; eassumption).
  apply duoR_ret. cbn [fst snd s_vq av am]. exists m, [m2], w. split; [reflexivity|]. split; [exact EM|]. split; [|split; [|split; reflexivity]].
  - exists (fam i (Share ai w) (Share aj ai)). rewrite fam_i, fam_j. split; [|split; reflexivity].
    replace ((v + (zi' + zj' + w)) mod 2 ^ U) with (joint U (Share ai w) (Share aj ai)); [apply paired_fam; repeat split; cbn; first [assumption|apply Ra|apply Rb|apply Rw]|].
    rewrite <- SUM. unfold joint. cbn [sa sb]. f_equal. ring.
  -
    eexists (fam i _ _), _. rewrite fam_i, fam_j. split; [apply paired_fam|split; reflexivity]. repeat split; cbn; first [apply R2|apply R3|apply Rw2].
Qed.
Print Assumptions C64_input_partial.

(** Honest runs meet the hypotheses of C64_input_partial (C62_reachable gives states with spdz_inv). *)
Theorem C64_met : forall G K i r g p v (s : pid -> sst G), In K widths -> spdz_inv G (verif_width K) r g s -> p <> prev i -> inr K v ->
  next_prf G (j_prf G (s_j G (s (next i)))) = my_prf G (j_prf G (s_j G (s i))) /\
  exists s' t' x y l, duo_trace i (spdz_input G i K (dealt p v i) (pid_num p)) (spdz_input G (next i) K (dealt p v (next i)) (pid_num p)) (s i) (s (next i)) s' t' x y l.
Proof.
  intros G K i r g p v s HK Hs Hp Hv. pose proof Hs as (Hj & _).
  split; [pose proof (proj1 Hj (next i)) as Hs0; cbn beta in Hs0; replace (prev (next i)) with i in Hs0 by (destruct i; reflexivity); exact Hs0|].
  assert (Hd : dealt p v p = Some v) by (unfold dealt; destruct p; reflexivity).
  destruct (spdz_input_ok G K r HK (dealt p v) p v g s Hv Hd Hs) as (R & HE & _).
  assert (EM : emitsM (spdz_input G (prev i) K (dealt p v (prev i)) (pid_num p))).
  { unfold spdz_input. apply emitsM_bind; [apply on_aby_emits, input_emits|intros]. apply emitsM_bind; [apply emitsM_get|intros]. apply emitsM_bind; [apply on_aby_emits, mul_emits_aby|intros]. apply emitsM_bind; [apply vq_push_emits|intros; apply emitsM_ret]. }
  pose proof (honest_duo i (fun q => spdz_input G q K (dealt p v q) (pid_num p)) s R HE EM) as HD. destruct (duo_run_trace i _ _ _ _ _ _ _ _ HD) as [l HT]. exists (fst (R i)), (fst (R (next i))), (snd (R i)), (snd (R (next i))), l. exact HT.
Qed.
Print Assumptions C64_met.

(** The same for [open_many] (C62): every opened value can be shifted, each by a number of the third party's choice. *)
Section O.
  Variables (G : rng) (H : hasher) (K r : Z).
  Hypothesis HW : In K widths.
  Notation U := (verif_width K).
  Definition shifted (X : list share) (ds : list Z) : list share := map2 (fun x d => Share (sa x) (radd U (sb x) d)) X ds.
  Lemma shifted_opened k Y vs : RL (arith_shared U) Y vs -> forall ds, length ds = length vs ->
    map2 (fun s c => radd U (radd U c (sa s)) (sb s)) (Y (prev k)) (map sb (Y (next k))) = vs /\
    map2 (fun s c => radd U (radd U c (sa s)) (sb s)) (Y (next k)) (map sb (shifted (Y k) ds)) = map2 (fun x d => (x + d) mod 2 ^ U) vs ds /\
    length (shifted (Y k) ds) = length vs /\ Forall (inr U) (map sb (shifted (Y k) ds)) /\ (forall i, length (Y i) = length vs /\ Forall (inr U) (map sb (Y i))).
  Proof using HW.
    pose proof (U0 K HW) as HU0. unfold shifted.
    induction 1 as [Y HE|Y Z0 Y' y ys HE HZ R IH]; intros [|d ds] L; try discriminate; rewrite !HE.
    - repeat split; try constructor; rewrite HE; constructor.
    - destruct (IH ds ltac:(cbn in L; lia)) as (I1 & I2 & I3 & I4 & I5). destruct HZ as (A1 & A2 & A3). cbn [map map2 length sa sb].
      split; [f_equal; [|exact I1]; rewrite !A2, A3; clear -HU0; destruct k; cbn [prev next]; modring|].
      split; [f_equal; [|exact I2]; rewrite !A2, A3; clear -HU0; destruct k; cbn [prev next]; modring|].
      split; [congruence|]. split; [constructor; [apply inr_mod, HU0|exact I4]|].
      intros i. rewrite HE. cbn [map length]. split; [f_equal; apply I5|]. constructor; [rewrite A2; apply A1|apply I5].
  Qed.
  (** What the third party k does: as spdz_open_many, but with other words in the opening. *)
  Definition open_many_off (H : hasher) (k : pid) (X : list ashare) (ds : list Z) : M (sst G) (list Z) :=
    bindM (vq_push G X) (fun _ => bindM (verify_macs G H k U) (fun _ => bindM (on_aby G (open_many G k U (shifted (map av X) ds))) (fun v => retM (map (from_verif K) v)))).
  Lemma open_many_off_runs (hh : hasher) k X xs ds g s : spdz_inv G U r g s -> RL (spdz_shared K r) X xs -> length ds = length xs ->
    wpM (fun i => if pid_eqb i k then open_many_off hh k (X k) ds else spdz_open_many G hh i K (X i)) s
      (fun s' v => v (prev k) = xs /\ v (next k) = map2 (fun x d => (x + d) mod 2 ^ K) xs ds).
  Proof using HW.
    intros Hs HX HL. pose proof (HU K HW) as HU. pose proof (HKU K HW) as HKU. pose proof (U0 K HW) as HU0.
    destruct (spdz_lists _ _ _ _ HX) as (vs & HV & ->). rewrite map_length in HL.
    apply (wpM_ext (fun i => bindM (vq_push G (X i)) (fun _ => bindM (verify_macs G hh i U) (fun _ =>
      bindM (on_aby G (open_many G i U (if pid_eqb i k then shifted (map av (X k)) ds else map av (X i)))) (fun v => retM (map (from_verif K) v)))))).
    { intros i. destruct (pid_eqb i k) eqn:E; [replace i with k by (destruct i, k; (reflexivity || discriminate E)); reflexivity|reflexivity]. }
    wbind. eapply wpM_mono; [|apply (vq_push_ok G U r X vs g s Hs HV)]. cbn beta. intros s1 ? Hs1. wbind.
    eapply wpM_mono; [|apply (verify_macs_ok G hh U r HU g s1 Hs1)]. cbn beta. intros s2 ? Hs2. wbind.
    eapply wpM_mono; [|apply (on_aby_ok G U r _ g s2 (fun w => w (prev k) = vs /\ w (next k) = map2 (fun x d => (x + d) mod 2 ^ U) vs ds) Hs2)].
    - cbn beta. intros s3 w (_ & _ & W2 & W3). apply wpM_ret. rewrite W2, W3. split; [reflexivity|]. clear -HKU. revert ds. induction vs as [|v vs IH]; intros [|d ds]; try reflexivity. cbn [map map2]. f_equal; [|apply IH].
      unfold from_verif. rewrite mod_mod_pow by lia. rewrite Zplus_mod_idemp_l. reflexivity.
    - intros Hp. destruct (shifted_opened k (fun i => map av (X i)) vs (auth_av U r X vs HV) ds HL) as (S1 & S2 & S3 & S4 & S5). unfold open_many.
      wbind. apply wpM_lift. apply (wp_sar_iter U (fun i => map sb (if pid_eqb i k then shifted (map av (X k)) ds else map av (X i))) (length vs)); [exact HU| | |].
      + intros i. destruct (pid_eqb i k); [exact S4|apply S5].
      + intros i. rewrite map_length. destruct (pid_eqb i k); [exact S3|apply S5].
      + apply wpM_ret. split; [exact Hp|]. clear -S1 S2. destruct k; cbn [pid_eqb prev next] in *; (split; assumption).
  Qed.
End O.
Theorem C62_open_many_refuted : forall G H K r i xs ds g (s : pid -> sst G) X, In K widths -> (forall x, bytes (hfun H x)) ->
  spdz_inv G (verif_width K) r g s -> vec_shared (spdz_shared K r) X xs -> length ds = length xs ->
  exists s' t', duo_run i (spdz_open_many G H i K (X i)) (spdz_open_many G H (next i) K (X (next i))) (s i) (s (next i)) s' t' (map2 (fun x d => (x + d) mod 2 ^ K) xs ds) xs.
Proof.
  intros G H K r i xs ds g s X HK HH Hs HX HL. apply vec_RL in HX.
  destruct (open_many_off_runs G K r HK H (prev i) X xs ds g s Hs HX HL) as (R & HE & E1 & E2).
  assert (EM : emitsM (if pid_eqb (prev i) (prev i) then open_many_off G K H (prev i) (X (prev i)) ds else spdz_open_many G H (prev i) K (X (prev i)))).
  { replace (pid_eqb (prev i) (prev i)) with true by (destruct i; reflexivity). unfold open_many_off.
    apply emitsM_bind; [apply vq_push_emits|intros _]. apply emitsM_bind; [apply verify_macs_emits, HH|intros _].
    apply emitsM_bind; [apply on_aby_emits; unfold open_many; apply emitsM_bind; [apply emitsM_lift, slice_emits|intros; apply emitsM_ret]|intros; apply emitsM_ret]. }
  pose proof (honest_duo i (fun p => if pid_eqb p (prev i) then open_many_off G K H (prev i) (X (prev i)) ds else spdz_open_many G H p K (X p)) s R HE EM) as HD. cbn beta in HD.
  exists (fst (R i)), (fst (R (next i))).
  replace (next (prev i)) with i in E2 by (destruct i; reflexivity). replace (prev (prev i)) with (next i) in E1 by (destruct i; reflexivity).
  replace (pid_eqb i (prev i)) with false in HD by (destruct i; reflexivity). replace (pid_eqb (next i) (prev i)) with false in HD by (destruct i; reflexivity).
  rewrite E1, E2 in HD. exact HD.
Qed.
Print Assumptions C62_open_many_refuted.
