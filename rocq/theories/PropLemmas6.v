(** Lemmas behind Properties6: the SPDZ-wise engine. *)
From Coq Require Import Permutation.
From Verif Require Import Base Ring RingProofs Prog Sched Conc Rng Rel Net BinTrait BitArith BinProofs AddProofs Iris IrisSpec IrisProofs
  Protocol MpcSpec ProtocolProofs Plain Aby3 ShareSpec Aby3Proofs Aby3Proofs2 SlicedProofs OrProofs EngineProofs Client ClientProofs ApiProofs Jmp JmpProofs Aby3Mal Aby3MalProofs Aby3MalProofs2
  Spdz TripleSpec TripleProofs TripleProofs2 SpdzProofs SpdzProofs2 SpdzProofs3 SpdzProofs4 FailProofs SpdzProofs5 BudgetProofs SpecProofs PropLemmas PropLemmas2 PropLemmas3.
From Coq Require Import ZifyBool ZifyNat.

(** ** Dealing *)
Definition tri {A} (a b c : A) (i : pid) : A := match i with P0 => a | P1 => b | P2 => c end.
Lemma share_value_ok G U x r : 0 <= U -> inr U x -> let '(_, (x0, x1, x2)) := share_value G U x r in arith_shared U (tri x0 x1 x2) x.
Proof.
  intros HU Hx. pose proof (share_value_dealt G U x r) as E. destruct (share_value G U x r) as [r' [[x0 x1] x2]]. cbn [snd] in E. cbv zeta in E.
  injection E as -> -> ->. eapply arel_ext; [|apply dealt_shared; [exact HU|exact Hx|apply draw_range, HU|apply draw_range, HU]].
  intros []; reflexivity.
Qed.
Lemma spdz_share_value_ok G K x key r : In K widths -> inr K x ->
  let '(_, (x0, x1, x2)) := spdz_share_value G K x key r in spdz_shared K key (tri x0 x1 x2) x.
Proof.
  intros HK Hx. assert (HU : 1 <= K <= verif_width K) by (cbn in HK; destruct HK as [<-|[<-|[<-|[<-|[<-|[<-|[]]]]]]]; cbn; lia).
  assert (Hxu : inr (verif_width K) x) by (unfold inr in *; assert (2 ^ K <= 2 ^ verif_width K) by (apply Z.pow_le_mono_r; lia); lia).
  unfold spdz_share_value, to_verif. cbv zeta.
  pose proof (share_value_ok G (verif_width K) x r ltac:(lia) Hxu) as H1. destruct (share_value G (verif_width K) x r) as [r1 [[v0 v1] v2]].
  pose proof (share_value_ok G (verif_width K) (rmul (verif_width K) key x) r1 ltac:(lia)) as H2.
  destruct (share_value G (verif_width K) (rmul (verif_width K) key x) r1) as [r2 [[m0 m1] m2]].
  exists x. split; [|symmetry; apply Z.mod_small; exact Hx]. split.
  - eapply arel_ext; [|exact H1]. intros []; reflexivity.
  - eapply arel_ext; [|eapply arel_eq; [|apply H2]]; [intros []; reflexivity| |].
    + unfold rmul, norm. rewrite (Z.mul_comm key). reflexivity.
    + unfold rmul, norm. apply Z.mod_pos_bound. apply Z.pow_pos_nonneg; lia.
Qed.

(** ** Keys *)
Section Start.
  Variables (G : rng) (H : hasher) (K : Z).
  Hypothesis HW : In K widths.
  Notation U := (verif_width K).
  Lemma fresh_key_ok (f : pid -> prf G) seeds : (forall i, length (seeds i) = 32%nat) ->
    wpM (fun i => bindM (spdz_preprocess G i (seeds i)) (fun _ => set_new_mac_key G U)) (fun i => spdz_new G (f i))
      (fun s' _ => exists r, inr U r /\ spdz_inv G U r (0%nat, 0) s').
  Proof using HW.
    intros Hl. wbind. unfold spdz_preprocess, on_aby, on_j, on_prf. apply wpM_zoom. apply wpM_zoom.
    eapply wpM_mono; [|apply (setup_ok G seeds (fun i => j_prf G (s_j G (spdz_new G (f i)))) Hl)]. cbn beta. intros s1 _ [Hs1 _].
    unfold set_new_mac_key. wbind. unfold on_aby, on_j, on_prf. apply wpM_zoom. apply wpM_zoom.
    assert (HU0 : 0 <= U) by (cbn in HW; destruct HW as [<-|[<-|[<-|[<-|[<-|[<-|[]]]]]]]; cbn; lia).
    eapply wpM_mono; [|apply gen_rand_ok; [exact HU0|cbn; exact Hs1]]. cbn beta. intros s2 W (Hs2 & r & Hr).
    wbind. apply wpM_get. apply wpM_put. cbn [spdz_new s_j s_mac s_vq s_prec s_tb].
    exists r. split; [destruct Hr as (_ & _ & ->); unfold inr; apply Z.mod_pos_bound, Z.pow_pos_nonneg; lia|].
    split. { split; [exact Hs2|]. intros i. cbn. repeat split; reflexivity. }
    split; [exact Hr|]. split; [exists []; apply RL_nil'|]. split; [|apply pool0].
    split; [reflexivity|]. exists [], []. repeat split; apply RL_nil'.
  Qed.
  Lemma program_ok r cs p g s : 3 <= K -> spdz_inv G U r g s -> eval K cs mem0 = Some p ->
    wpM (fun i => bindM (exec (spdz_api G H i K) i cs mem0) (fun m => bindM (verify_macs G H i U) (fun _ => retM m))) s
      (fun s' m => vec_shared (spdz_shared K r) (fun i => areg (m i)) (areg p) /\
                   (forall i, aout (m i) = aout p) /\ (forall i, bout (m i) = bout p) /\ exists g', spdz_inv G U r g' s').
  Proof using HW.
    intros HK Hs He. wbind.
    eapply wpM_mono; [|apply (exec_ok _ _ _ _ _ (spdz_api_ok G H K r HW HK) cs (fun _ => mem0) mem0 p s (ex_intro _ g Hs) (mem0_shared _ _) He)].
    cbn beta. intros s1 m [[g1 Hs1] (H2 & H3 & H4 & H5)]. wbind.
    eapply wpM_mono; [|apply (verify_macs_ok G H U r (verif_width_in K) g1 s1 Hs1)]. cbn beta. intros s2 _ Hs2. apply wpM_ret.
    split; [apply RL_vec, H2|]. split; [exact H4|]. split; [exact H5|]. exists g1. exact Hs2.
  Qed.
End Start.

(** ** Shuffling *)
Lemma permute_coin G i a b c (s : sst G) tr s' x y z : lrun (permute G i a b c s) tr (Ret (s', (x, y, z))) ->
  length b = length a /\ length c = length a /\ exists seed, shuffle G (rseed G seed) a b c = (x, y, z).
Proof.
  unfold permute. destruct (Nat.eqb_spec (length a) (length b)) as [Eb|Eb]; cbn [negb orb]; [|intros L; inversion L].
  destruct (Nat.eqb_spec (length a) (length c)) as [Ec|Ec]; cbn [negb]; [|intros L; inversion L].
  intros L. unfold bindM in L. apply lrun_bind in L. destruct L as (t1 & [s1 seed] & t2 & _ & L & _). cbn [fst snd retM] in L.
  apply lrun_ret in L. destruct L as [_ L]. injection L as _ L. split; [congruence|]. split; [congruence|]. exists seed. exact L.
Qed.
Lemma permute_picks G n A B C (s : pid -> sst G) : jmp_inv G (fun i => s_j G (s i)) ->
  (forall i, length (A i) = n /\ length (B i) = n /\ length (C i) = n) ->
  wpM (fun i => permute G i (A i) (B i) (C i)) s (fun s' R => exists seed, forall i, R i = shuffle G (rseed G seed) (A i) (B i) (C i)).
Proof.
  intros Hs HL. unfold permute.
  apply (wpM_ext (fun i => bindM (on_j G (coin G i)) (fun seed => retM (shuffle G (rseed G seed) (A i) (B i) (C i))))).
  { intros i. destruct (HL i) as (-> & -> & ->). rewrite Nat.eqb_refl. reflexivity. }
  wbind. unfold on_j. apply wpM_zoom. eapply wpM_mono; [|apply coin_ok; exact Hs]. cbn beta. intros s1 c (_ & d & _ & Hd). apply wpM_ret.
  eexists. intros i. rewrite Hd. reflexivity.
Qed.
Lemma shuffle_bits G r a b c x y z : length b = length a -> length c = length a -> shuffle G r a b c = (x, y, z) ->
  length x = length a /\ length y = length a /\ length z = length a /\
  column_bits 128 x y z = fisher_yates (picks G r (128 * length a)) (column_bits 128 a b c).
Proof.
  intros Lb Lc E. pose proof (shuffle_fy G r a b c Lb Lc) as HS. rewrite E in HS. destruct HS as (L1 & L2 & L3 & HB).
  rewrite !column_bits_all by congruence. auto.
Qed.

(** ** Requests of every size exist *)
Lemma deal_repeat {T R} (Q : (pid -> T) -> R -> Prop) X x n : Q X x -> vec_shared Q (fun i => repeat (X i) n) (repeat x n).
Proof.
  intros HX. apply RL_vec. induction n as [|n IH]; [apply RL_nil'|]. cbn [repeat]. apply (RL_cons' _ X); assumption.
Qed.
Definition plain_ash (r U x : Z) (i : pid) : ashare :=
  let one v := tri (Share v 0) (Share 0 v) (Share 0 0) i in AShare (one x) (one ((x * r) mod 2 ^ U)).
Lemma plain_ash_ok K r x : In K widths -> inr K x -> spdz_shared K r (plain_ash r (verif_width K) x) x.
Proof.
  intros HK Hx. assert (HU : 1 <= K <= verif_width K) by (cbn in HK; destruct HK as [<-|[<-|[<-|[<-|[<-|[<-|[]]]]]]]; cbn; lia).
  assert (Hxu : inr (verif_width K) x) by (unfold inr in *; assert (2 ^ K <= 2 ^ verif_width K) by (apply Z.pow_le_mono_r; lia); lia).
  assert (E : forall v, inr (verif_width K) v -> arith_shared (verif_width K) (fun i => tri (Share v 0) (Share 0 v) (Share 0 0) i) v).
  { intros v Hv. split; [intros []; cbn; unfold inr in *; lia|]. split; [intros []; reflexivity|]. cbn. rewrite !Z.add_0_r. symmetry. apply Z.mod_small, Hv. }
  exists x. split; [split; cbn [plain_ash av am]; apply E; [exact Hxu|apply Z.mod_pos_bound, Z.pow_pos_nonneg; lia]|].
  symmetry. apply Z.mod_small, Hx.
Qed.
Lemma deal_code K r c : In K widths -> vec_shared (spdz_shared K r) (fun i => map (fun x => plain_ash r (verif_width K) x i) (code_vals c)) (code_vals c).
Proof.
  intros HK. assert (HK0 : 0 < K) by (apply in_widths_pos in HK; lia). apply RL_vec.
  induction (code_vals_range K c HK0) as [|x xs Hx _ IH]; [apply RL_nil'|]. cbn [map].
  apply (RL_cons' _ (plain_ash r (verif_width K) x)); [|exact IH]. apply plain_ash_ok; assumption.
Qed.
Lemma map_repeat {A B} (f : A -> B) x n : map f (repeat x n) = repeat (f x) n.
Proof. induction n as [|n IH]; cbn; congruence. Qed.
Lemma request_exists K r n c : In K widths -> 0 < n -> 0 < c ->
  exists q, request_ok K r q /\ q_size q = (n, c) /\ q_iris q = ir0 /\ q_entries q = repeat ir1 (Z.to_nat n).
Proof.
  intros HK Hn Hc.
  set (D := fun (x : iris) (i : pid) => map (fun v => plain_ash r (verif_width K) v i) (code_vals (ir_code x))).
  exists (Req ir0 (D ir0) (repeat ir1 (Z.to_nat n)) (fun i => repeat (D ir1 i) (Z.to_nat n)) (Z.to_nat c)).
  unfold request_ok, q_size. cbn [q_iris q_query q_entries q_db q_chunk]. rewrite repeat_length.
  split; [|split; [f_equal; lia|auto]].
  split; [apply ir_wf|]. split; [apply Forall_forall; intros b Hb; apply repeat_spec in Hb; subst; apply ir_wf|].
  split; [apply Forall_forall; intros b Hb; apply repeat_spec in Hb; subst; apply ir_enough; cbn; tauto|].
  split; [lia|]. split; [lia|]. split; [apply deal_code, HK|]. rewrite map_repeat. apply deal_repeat. apply deal_code, HK.
Qed.

(** ** Sessions *)
Definition all_answered (qs : list request) (R : list bool) : Prop :=
  Forall2 (fun q r => r = true <-> Exists (close (q_iris q)) (q_entries q)) qs R.
Lemma all_answered_intro qs : all_answered qs (map (fun q => existsb (matches (q_iris q)) (q_entries q)) qs).
Proof. induction qs as [|q qs IH]; constructor; [apply matches_spec|exact IH]. Qed.
(** A new engine, key set-up, MAC key, then the calls. *)
Definition spdz_service (G : rng) (H : hasher) (K : Z) (signed : bool) (seeds : pid -> list Z) (key : pid -> ashare) (qs : list request) (i : pid) : M (sst G) (list bool) :=
  bindM (bindM (spdz_preprocess G i (seeds i)) (fun _ => set_mac_key G (key i))) (fun _ => spdz_session G H K signed i qs).
Section Service.
  Variables (G : rng) (H : hasher) (K r : Z) (signed : bool) (f : pid -> prf G) (seeds : pid -> list Z) (key : pid -> ashare) (qs : list request).
  Hypothesis (HW : In K widths) (HK : 14 < K) (HL : forall i, length (seeds i) = 32%nat)
    (Hkey : arith_shared (verif_width K) (fun i => am (key i)) r) (HQ : Forall (request_ok K r) qs).
  Let HK16 : 16 <= K. Proof. apply width_cases in HW. lia. Qed.
  Notation P := (spdz_service G H K signed seeds key qs).
  Lemma service_ok p : leftovers K (map q_size qs) 0 = Some p ->
    honest_run P (fun i => spdz_new G (f i)) (fun _ R => forall i, all_answered qs (R i)).
  Proof using HW HK HL Hkey HQ.
    intros E. apply wpM_honest. unfold spdz_service. wbind.
    eapply wpM_mono; [|apply (start_ok G K r f seeds key HL Hkey)]. cbn beta. intros s1 _ Hs1.
    eapply wpM_mono; [|apply (session_ok G H K r signed HW HK16 qs 0%nat p s1 Hs1 HQ E)]. cbn beta. intros s2 R [_ HR] i. rewrite HR. apply all_answered_intro.
  Qed.
  Lemma service_fails : leftovers K (map q_size qs) 0 = None -> honest_failure P (fun i => spdz_new G (f i)) EPanic.
  Proof using HW HK HL Hkey HQ.
    intros E. apply failsM_honest. unfold spdz_service.
    apply (failsM_bind (fun i => bindM (spdz_preprocess G i (seeds i)) (fun _ => set_mac_key G (key i)))).
    eapply wpM_mono; [|apply (start_ok G K r f seeds key HL Hkey)]. cbn beta. intros s1 _ Hs1.
    apply (session_fails G H K r signed HW HK16 qs 0%nat s1 Hs1 HQ E).
  Qed.
End Service.
