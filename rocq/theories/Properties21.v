(** C54, C55: closing connections and crashes. *)
From Verif Require Import Base Ring RingProofs Prog Sched Conc Rng Rel Net BinTrait BitArith BinProofs AddProofs Iris IrisSpec IrisProofs
  Protocol MpcSpec ProtocolProofs Plain Aby3 ShareSpec Aby3Proofs Aby3Proofs2 SlicedProofs OrProofs EngineProofs Client ApiProofs Jmp JmpProofs Aby3Mal Aby3MalProofs Aby3MalProofs2
  Spdz TripleSpec TripleProofs SpdzProofs SpdzProofs2 SpdzProofs3 SpdzProofs4 FailProofs SpecProofs PropLemmas PropLemmas2 BudgetProofs SpdzProofs5 Swift3 Swift3Spec Swift3Proofs Swift3Open
  Shutdown ShutdownSpec ShutdownProofs ShutdownRace ShutdownEngines Properties3 Properties4 Properties6.

Lemma honest_evals {S A} (P : pid -> M S A) s Q : honest_run P s Q -> exists s' a, evals (fun i => P i (s i)) (fun i => (s' i, a i)) /\ Q s' a.
Proof.
  intros (s' & a & [n Hn] & HQ). exists s', a. split; [|exact HQ]. destruct (Hn [] _ (steps_nil _)) as (_ & (l & Hl & _) & _). exists l. exact Hl.
Qed.

(** C54.  However the processes end, and whoever is killed at whatever point: a result that is returned is
    the right one, and nobody is left waiting. *)
Theorem C54_safe : forall S A (P : pid -> M S A) s Q crashes orderly, honest_run P s Q -> ends_safely crashes orderly P s Q.
Proof.
  intros S A P s Q crashes orderly H. destruct (honest_evals P s Q H) as (s' & a & HE & HQ). clear H.
  destruct (bounded _ _ HE) as [n Hn]. exists s', a, (n + 6)%nat. split; [exact HQ|]. intros k c Hr.
  destruct (sim_reach _ crashes orderly k c Hr) as (f & l & d & HS). split; [|split; [|split]].
  - pose proof (sm_k _ _ _ _ _ _ _ HS). pose proof (Hn _ _ (sm_run _ _ _ _ _ _ _ HS)). pose proof (cnt_le f). pose proof (cnt_le (n_closed c)). lia.
  - intros i t v E. destruct (f i) eqn:Ef; [destruct (sm_bad _ _ _ _ _ _ _ HS i Ef) as (e & E' & _); congruence|].
    pose proof (sm_ok _ _ _ _ _ _ _ HS i Ef) as E'. assert (Ho : over (get (progs d) i)) by (rewrite <- E', E; exact I).
    pose proof (over_ret _ _ HE _ _ i (sm_run _ _ _ _ _ _ _ HS) Ho) as E2. rewrite <- E', E in E2. injection E2 as -> ->. auto.
  - intros i e E. destruct (f i) eqn:Ef.
    + destruct (sm_bad _ _ _ _ _ _ _ HS i Ef) as (e' & E' & He). rewrite E in E'. injection E' as <-. destruct crashes; [right; reflexivity|left; auto].
    + exfalso. pose proof (sm_ok _ _ _ _ _ _ _ HS i Ef) as E'. assert (Ho : over (get (progs d) i)) by (rewrite <- E', E; exact I).
      pose proof (over_ret _ _ HE _ _ i (sm_run _ _ _ _ _ _ _ HS) Ho) as E2. rewrite <- E', E in E2. discriminate.
  - intros Hst i. pose proof (fstuck_over _ _ HE crashes orderly k c f l d HS Hst) as Ho. split; [apply Ho|].
    destruct (n_closed c i) eqn:Ec; [reflexivity|exfalso]. destruct c as [c cl].
    refine (Hst _ (f_close crashes orderly i c cl (fun j => length (qget (qs c) i j)) (Ho i) Ec (fun _ j => le_n _))).
Qed.
Print Assumptions C54_safe.

(** If closing waits for everything sent to be delivered and nobody is killed, all parties get the result. *)
Theorem C54_orderly : forall S A (P : pid -> M S A) s Q, honest_run P s Q -> all_return false true P s Q.
Proof.
  intros S A P s Q H. pose proof (C54_safe S A P s Q false true H) as (s' & a & n & HQ & HR). exists s', a, n. split; [exact HQ|].
  destruct (honest_evals P s Q H) as (s2 & a2 & HE & _). intros k c Hr. destruct (HR k c Hr) as (R1 & R2 & R3 & R4).
  destruct (harmless _ _ HE false true k c eq_refl (or_introl eq_refl) Hr) as (l & d & H1 & H2 & _).
  assert (Hf : forall i e, at_ c i <> Fail e).
  { intros i e E. assert (Ho : over (get (progs d) i)) by (rewrite <- H2, E; exact I). pose proof (over_ret _ _ HE _ _ i H1 Ho) as E2. rewrite <- H2, E in E2. discriminate. }
  split; [exact R1|]. split; [exact Hf|].
  intros Hst i. destruct (R4 Hst i) as [Ho _]. destruct (at_ c i) as [[t v]|e| |] eqn:E; try contradiction; [|exfalso; exact (Hf i e E)].
  destruct (R2 i t v E) as [-> ->]. reflexivity.
Qed.
Print Assumptions C54_orderly.

(** C55.  The shutdown of the code: the others can be left without the result exactly if a party can be done
    while something it has sent is still under way. *)
Theorem C55_when_partial : forall S A (P : pid -> M S A) s Q, honest_run P s Q ->
  (can_miss false false P s Q <-> done_early P s) /\ (all_return false false P s Q <-> ~ done_early P s).
Proof.
  intros S A P s Q H. destruct (honest_evals P s Q H) as (s' & a & HE & HQ).
  assert (F : can_miss false false P s Q -> done_early P s).
  { intros (s2 & a2 & k & c & i & j & _ & Hr & _ & Ej).
    destruct (harmless_or _ _ HE false false k c eq_refl Hr) as [[_ L]|(l & d & H1 & H2 & _)]; [exact L|exfalso].
    assert (Ho : over (get (progs d) j)) by (rewrite <- H2, Ej; exact I). pose proof (over_ret _ _ HE _ _ j H1 Ho) as E2. rewrite <- H2, Ej in E2. discriminate. }
  assert (B : done_early P s -> can_miss false false P s Q).
  { intros (l & d & i & j & H1 & H2 & H3). destruct (race_fails _ _ HE false false l d i j eq_refl eq_refl H1 H2 H3) as (k & c & G1 & G2 & G3).
    exists s', a, k, c, i, j. auto. }
  split; [split; assumption|]. split.
  - intros (s2 & a2 & n & _ & HR) Hd. destruct (B Hd) as (s3 & a3 & k & c & i & j & _ & Hr & _ & Ej). destruct (HR k c Hr) as (_ & Hf & _). exact (Hf j _ Ej).
  - intros Hn. pose proof (C54_safe S A P s Q false false H) as (s2 & a2 & n & HQ2 & HR). exists s2, a2, n. split; [exact HQ2|].
    intros k c Hr. destruct (HR k c Hr) as (R1 & R2 & R3 & R4).
    destruct (harmless_or _ _ HE false false k c eq_refl Hr) as [[_ L]|(l & d & H1 & H2 & _)]; [contradiction|].
    assert (Hf : forall i e, at_ c i <> Fail e).
    { intros i e E. assert (Ho : over (get (progs d) i)) by (rewrite <- H2, E; exact I). pose proof (over_ret _ _ HE _ _ i H1 Ho) as E2. rewrite <- H2, E in E2. discriminate. }
    split; [exact R1|]. split; [exact Hf|].
    intros Hst i. destruct (R4 Hst i) as [Ho _]. destruct (at_ c i) as [[t v]|e| |] eqn:E; try contradiction; [|exfalso; exact (Hf i e E)].
    destruct (R2 i t v E) as [-> ->]. reflexivity.
Qed.
Print Assumptions C55_when_partial.

Lemma racy_miss {S A} (P : pid -> M S A) s Q : honest_run P s Q -> racyM P s -> can_miss false false P s Q.
Proof. intros H HR. apply (C55_when_partial S A P s Q H). exact HR. Qed.

(** It is so at the end of every iris query, on every engine: the exchange that opens the answer (ABY3) or
    compares the hashes of what has been opened (malicious ABY3, SPDZ-wise) is the last one, and a party that
    has received its part of it is done, whether or not its own part has arrived.  So "everybody gets the
    answer if nobody fails" is false of the code. *)
Theorem C55_aby3_refuted : forall (G : rng) K signed (s : pid -> prf G) X a DB bs chunk, In K widths -> 14 < K -> prf_synced s ->
  wf_iris a -> Forall wf_iris bs -> Forall (enough_valid a) bs -> (0 < length bs)%nat -> (0 < chunk)%nat ->
  vec_shared (arith_shared K) X (code_vals (ir_code a)) ->
  vec_shared (vec_shared (arith_shared K)) DB (map (fun b => code_vals (ir_code b)) bs) ->
  can_miss false false (fun i => iris_in_db (aby3_engine G K i) signed (X i) (DB i) (ir_mask a) (map ir_mask bs) chunk) s
    (fun _ r => answers a bs r).
Proof.
  intros G K signed s X a DB bs chunk HW HK Hs Ha Hbs Hv Hl Hc HX HDB. assert (HK16 : 16 <= K) by (apply width_cases in HW; lia).
  apply racy_miss.
  - destruct (C18_aby3 G K signed s X a DB bs chunk HW HK Hs Ha Hbs Hv Hl Hc HX HDB) as (s' & r & H1 & _ & H2). exists s', r. auto.
  - apply (iris_in_db_racy (aby3_engine G K) K _ _ _ _ _ _ _ _ _ (aby3_mpc_ok G K HW ltac:(lia)) HK16 signed
      (fun g s0 X0 b0 _ HX0 => open_bit_racy G X0 b0 s0 HX0) tt s X a DB bs chunk Hs Ha Hbs Hv Hl Hc (vec_RL _ _ _ HX) (vec2_RL _ _ _ HDB) I).
Qed.
Print Assumptions C55_aby3_refuted.

Theorem C55_aby3_mal_refuted : forall G H K signed (s : pid -> jst G) X a DB bs chunk, In K widths -> 14 < K -> 40 <= verif_width K - K -> mal_ready s ->
  wf_iris a -> Forall wf_iris bs -> Forall (enough_valid a) bs -> (0 < length bs)%nat -> (0 < chunk)%nat ->
  vec_shared (arith_shared K) X (code_vals (ir_code a)) ->
  vec_shared (vec_shared (arith_shared K)) DB (map (fun b => code_vals (ir_code b)) bs) ->
  can_miss false false (fun i => iris_in_db (mal_engine G H i K) signed (X i) (DB i) (ir_mask a) (map ir_mask bs) chunk) s
    (fun _ r => answers a bs r).
Proof.
  intros G H K signed s X a DB bs chunk HW HK HU Hs Ha Hbs Hv Hl Hc HX HDB. assert (HK16 : 16 <= K) by (apply width_cases in HW; lia).
  apply racy_miss.
  - destruct (C38_aby3_mal G H K signed s X a DB bs chunk HW HK HU Hs Ha Hbs Hv Hl Hc HX HDB) as (s' & r & H1 & _ & H2). exists s', r. auto.
  - apply (iris_in_db_racy (fun i => mal_engine G H i K) K _ _ _ _ _ _ _ _ _ (mal_mpc_ok G H K HW HU ltac:(lia)) HK16 signed
      (fun g s0 X0 b0 Hs0 HX0 => mal_open_bit_racy G H X0 b0 s0 Hs0 HX0) tt s X a DB bs chunk Hs Ha Hbs Hv Hl Hc (vec_RL _ _ _ HX) (vec2_RL _ _ _ HDB) I).
Qed.
Print Assumptions C55_aby3_mal_refuted.

Theorem C55_spdz_refuted : forall G H K signed r (f : pid -> prf G) seeds key X a DB bs chunk, In K widths -> 14 < K ->
  (forall i, length (seeds i) = 32%nat) -> arith_shared (verif_width K) (fun i => am (key i)) r ->
  wf_iris a -> Forall wf_iris bs -> Forall (enough_valid a) bs -> (0 < length bs)%nat -> (0 < chunk)%nat ->
  vec_shared (spdz_shared K r) X (code_vals (ir_code a)) ->
  vec_shared (vec_shared (spdz_shared K r)) DB (map (fun b => code_vals (ir_code b)) bs) ->
  leftover K (Z.of_nat (length bs)) (Z.of_nat chunk) 0 <> None ->
  can_miss false false (fun i => bindM (bindM (spdz_preprocess G i (seeds i)) (fun _ => set_mac_key G (key i)))
      (fun _ => iris_in_db (spdz_engine G H i K) signed (X i) (DB i) (ir_mask a) (map ir_mask bs) chunk))
    (fun i => spdz_new G (f i)) (fun _ r => answers a bs r).
Proof.
  intros G H K signed r f seeds key X a DB bs chunk HW HK HL Hk Ha Hbs Hv Hl Hc HX HDB HB.
  assert (HK16 : 16 <= K) by (apply width_cases in HW; lia).
  apply racy_miss; [exact (C38_spdz G H K signed r f seeds key X a DB bs chunk HW HK HL Hk Ha Hbs Hv Hl Hc HX HDB HB)|].
  apply (racyM_bind (fun i => bindM (spdz_preprocess G i (seeds i)) (fun _ => set_mac_key G (key i)))).
  eapply wpM_mono; [|apply (start_ok G K r f seeds key HL Hk)]. cbn beta. intros s1 _ Hs1.
  refine (iris_in_db_racy _ K _ _ _ _ _ _ _ _ _ (spdz_mpc_ok G H K r HW ltac:(lia)) HK16 signed
      (fun g s0 X0 b0 Hs0 HX0 => spdz_open_bit_racy G H X0 b0 s0 (proj1 Hs0) HX0) (0%nat, 0) s1 X a DB bs chunk Hs1 Ha Hbs Hv Hl Hc (vec_RL _ _ _ HX) (vec2_RL _ _ _ HDB) _).
  rewrite g_db_cost by (assumption || lia). apply (queue_ok_spec K HK16 (length bs) chunk 0%nat Hl Hc).
  unfold leftover in HB. destruct (Z.leb_spec (Z.max (gate_words K (Z.of_nat (length bs)) (Z.of_nat chunk)) batch) (available K (Z.of_nat (length bs)) (Z.of_nat chunk) 0)) as [Hq|Hq]; [exact Hq|congruence].
Qed.
Print Assumptions C55_spdz_refuted.

(** Swift3: opening a bit. *)
Theorem C55_swift3_refuted : forall G H K X b (s : pid -> Swift3.sst G), winv G K s -> bin3 1 X (Z.b2z b) ->
  can_miss false false (fun i => w_open_bit G H i (X i)) s (fun _ v => forall i, v i = b).
Proof.
  intros G H K X b s Hs HX. apply racy_miss; [|exact (w_open_bit_racy G H K X b s Hs HX)].
  apply wpM_honest. eapply wpM_mono; [|apply (w_open_bit_ok G H K X b s Hs HX)]. cbn beta. intros s' v [_ Hv]. exact Hv.
Qed.
Print Assumptions C55_swift3_refuted.

(** The queries meeting the hypotheses: ir0 against ir1 and itself, as in C18_example. *)
Example C55_met : exists X DB, let s := fun _ : pid => Prf one_rng tt tt in
  honest_run (fun i => iris_in_db (aby3_engine one_rng 16 i) false (X i) (DB i) (ir_mask ir0) (map ir_mask [ir1; ir0]) 2) s (fun _ r => forall i, r i = true) /\
  can_miss false false (fun i => iris_in_db (aby3_engine one_rng 16 i) false (X i) (DB i) (ir_mask ir0) (map ir_mask [ir1; ir0]) 2) s (fun _ r => forall i, r i = true).
Proof.
  destruct C18_example as (X & DB & H1 & H2 & H3 & H4 & H5 & H6 & H7). exists X, DB. cbv zeta.
  assert (E : honest_run (fun i => iris_in_db (aby3_engine one_rng 16 i) false (X i) (DB i) (ir_mask ir0) (map ir_mask [ir1; ir0]) 2) (fun _ => Prf one_rng tt tt) (fun _ r => forall i, r i = true)).
  { destruct (C18_aby3 one_rng 16 false (fun _ => Prf one_rng tt tt) X ir0 DB [ir1; ir0] 2) as (s' & r & G1 & _ & G2); try assumption; try lia; [right; right; left; reflexivity|intros i; reflexivity|cbn; lia|].
    exists s', r. split; [exact G1|]. intros i. apply (G2 i). right. left. exact H7. }
  split; [exact E|].
  destruct (C55_aby3_refuted one_rng 16 false (fun _ => Prf one_rng tt tt) X ir0 DB [ir1; ir0] 2) as (s' & r & k & c & i & j & G1 & G2); try assumption; try lia; [right; right; left; reflexivity|intros i; reflexivity|cbn; lia|].
  exists s', r, k, c, i, j. split; [|exact G2]. intros p. apply (G1 p). right. left. exact H7.
Qed.
