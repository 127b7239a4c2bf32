(** The SPDZ-wise engine, part 5: sessions of iris_in_db calls and the triple budget. *)
From Verif Require Import Base Ring RingProofs Prog Sched Conc Rng Rel Net BinTrait BitArith BinProofs AddProofs Iris IrisSpec IrisProofs
  Protocol MpcSpec ProtocolProofs Plain Aby3 ShareSpec Aby3Proofs Aby3Proofs2 SlicedProofs OrProofs EngineProofs Client ApiProofs Jmp JmpProofs Aby3Mal Aby3MalProofs Aby3MalProofs2
  Spdz TripleSpec TripleProofs SpdzProofs SpdzProofs2 SpdzProofs3 SpdzProofs4 FailProofs SpecProofs PropLemmas2.
From Coq Require Import ZifyBool ZifyNat.

(** ** iris_in_db when the verification fails *)
Section Fail.
  Context {Gh S A B : Type} (E : pid -> mpc S A B) (K : Z)
  (AR : (pid -> A) -> Z -> Prop) (BR : (pid -> B) -> bool -> Prop) (Inv : Gh -> (pid -> S) -> Prop)
  (g_pre : Z -> Gh -> Gh) (g_dot g_msb : nat -> Gh -> Gh) (g_or : nat -> nat -> Gh -> Gh)
  (ver_ok : Gh -> Prop) (g_ver : Gh -> Gh).
  Hypothesis OK : mpc_ok E K AR BR Inv g_pre g_dot g_msb g_or ver_ok g_ver.
  Hypothesis HK : 16 <= K.
  Variable signed : bool.
  Notation gdb := (g_db K g_pre g_dot g_msb g_or).
  Theorem iris_in_db_fails g s X a DB (bs : list iris) chunk e : Inv g s -> wf_iris a -> Forall wf_iris bs ->
    Forall (enough_valid a) bs -> (0 < length bs)%nat -> (0 < chunk)%nat ->
    RL AR X (code_vals (ir_code a)) -> RL (RL AR) DB (map (fun b => code_vals (ir_code b)) bs) ->
    (forall s, Inv (gdb (length bs) chunk g) s -> failsM (fun i => m_verify (E i)) s e) ->
    failsM (fun i => iris_in_db (E i) signed (X i) (DB i) (ir_mask a) (map ir_mask bs) chunk) s EPanic.
  Proof using OK HK.
    intros Hs Ha Hbs Hv Hl Hc HX HD Hver. unfold iris_in_db.
    pose (N := triples_requested K (Z.of_nat (length bs)) (Z.of_nat chunk)).
    pose (body := fun i acc (dm : list (list A) * list code) => bindM (compare_iris_many (E i) signed (X i) (fst dm) (ir_mask a) (snd dm)) (fun r => retM (acc ++ r))).
    apply (failsM_ext (fun i => bindM (m_precompute (E i) N) (fun _ =>
      bindM (foldM (body i) (combine (chunks chunk (DB i)) (map (map ir_mask) (chunks chunk bs))) []) (fun bool_shares =>
      bindM (m_reduce_binary_or (E i) bool_shares chunk) (fun res =>
      bindM (unwrapM (m_verify (E i))) (fun _ => m_open_bit (E i) res)))))).
    { intros i. rewrite (RL_length _ _ _ HD), !map_length, Nat.eqb_refl.
      replace (Nat.eqb (length bs) 0) with false by (symmetry; apply Nat.eqb_neq; lia).
      replace (Nat.eqb chunk 0) with false by (symmetry; apply Nat.eqb_neq; lia). cbn [negb orb].
      rewrite chunks_map. unfold num_and_triples, msb_and_gates. rewrite (mo_width _ _ _ _ _ _ _ _ _ _ _ OK). reflexivity. }
    unfold body. apply (failsM_bind (fun i => m_precompute (E i) N)).
    eapply wpM_mono; [|apply (mo_pre _ _ _ _ _ _ _ _ _ _ _ OK g s N Hs)]. cbn beta. intros s1 _ Hs1.
    apply (failsM_bind (fun i => foldM (body i) (combine (chunks chunk (DB i)) (map (map ir_mask) (chunks chunk bs))) [])).
    assert (HCh : RL (RL (RL AR)) (fun i => chunks chunk (DB i)) (map (map (fun b => code_vals (ir_code b))) (chunks chunk bs))).
    { rewrite <- chunks_map. apply RL_chunks, HD. }
    eapply wpM_mono; [|apply (compare_chunks_ok E K _ _ _ _ _ _ _ _ _ OK HK signed a X (chunks chunk bs) Ha HX) with (g := g_pre N g) (s := s1) (acc := fun _ => []) (accs := @nil bool); auto].
    2:{ apply chunks_fuel_nonempty, Hc. }
    2:{ apply Forall_concat. rewrite chunks_concat by exact Hc. exact Hbs. }
    2:{ apply Forall_concat. rewrite chunks_concat by exact Hc. exact Hv. }
    2:{ apply RL_nil'. }
    cbn beta. intros s2 W [Hs2 HW]. cbn [app] in HW. rewrite <- concat_map, chunks_concat in HW by exact Hc.
    apply (failsM_bind (fun i => m_reduce_binary_or (E i) (W i) chunk)).
    eapply wpM_mono; [|eapply (mo_or _ _ _ _ _ _ _ _ _ _ _ OK _ s2 W _ chunk Hs2 Hc); [|exact HW]; rewrite map_length; exact Hl].
    cbn beta. intros s3 V [Hs3 HV]. rewrite map_length in Hs3.
    rewrite <- chunk_sizes_spec in Hs3.
    apply (failsM_stop (fun i => unwrapM (m_verify (E i)))), (failsM_unwrap _ _ e), Hver, Hs3.
  Qed.
End Fail.

(** ** Counting gates *)
Definition bits_of (g : nat * Z) := snd g.
Lemma iter_g_and k n g : iter_g k (g_and 128 n) g = (fst g, snd g + 128 * Z.of_nat (k * n)).
Proof. revert g. induction k as [|k IH]; intros [p b]; cbn [iter_g]; [f_equal; cbn; lia|]. rewrite IH. unfold g_and. cbn [fst snd]. f_equal. lia. Qed.
Lemma g_msb_cost K m g : 3 <= K -> g_msb g_and K m g = (fst g, snd g + 128 * ((2 * K - 3) * words (Z.of_nat m))).
Proof.
  intros HK. unfold g_msb. cbv zeta. rewrite iter_g_and. unfold g_and. cbn [fst snd]. f_equal.
  assert (E : Z.of_nat (nchunks 128 m) = words (Z.of_nat m)) by (unfold nchunks, words; lia). nia.
Qed.
Lemma chunk_lens_sum c n : (0 < c)%nat -> list_sum (chunk_lens c n) = n.
Proof.
  intros Hc. unfold chunk_lens. rewrite <- (repeat_length tt n) at 2. rewrite <- (chunks_concat c (repeat tt n) Hc) at 2.
  generalize (chunks c (repeat tt n)). intros l. induction l as [|x l IH]; [reflexivity|]. cbn [map list_sum concat fold_right]. rewrite app_length.
  unfold list_sum in IH. rewrite IH. reflexivity.
Qed.
Lemma g_chunks_cost ls g : g_chunks g_and 128 ls g = (fst g, snd g + 128 * Z.of_nat (list_sum ls)).
Proof.
  revert g. induction ls as [|l ls IH]; intros [p b]; cbn [g_chunks fold_left list_sum fold_right]; [f_equal; cbn; lia|].
  unfold g_chunks in IH. rewrite IH. unfold g_and. cbn [fst snd]. f_equal. unfold list_sum. set (z := fold_right _ _ _). nia.
Qed.
Lemma g_or_tree_cost c : (0 < c)%nat -> forall f n g, (n <= f)%nat -> (0 < n)%nat ->
  g_or_tree g_and 128 f c n g = (fst g, snd g + 128 * Z.of_nat (n - 1)).
Proof.
  intros Hc. induction f as [|f IH]; intros n [p b] Hf Hn; [lia|]. cbn [g_or_tree].
  destruct (Nat.ltb_spec 1 n) as [H1|H1].
  - rewrite g_chunks_cost, chunk_lens_sum by exact Hc. cbn [fst snd]. pose proof (div2_mod2 n) as Hd.
    assert (Hm : (Nat.modulo n 2 < 2)%nat) by (apply Nat.mod_upper_bound; lia).
    rewrite IH by lia. cbn [fst snd]. f_equal. lia.
  - cbn [fst snd]. f_equal. lia.
Qed.
Lemma g_reduce_or_cost n c g : (0 < c)%nat -> (0 < n)%nat -> g_reduce_or g_and n c g = (fst g, snd g + 128 * words (Z.of_nat n) - 1).
Proof.
  intros Hc Hn. unfold g_reduce_or. cbv zeta.
  assert (E : Z.of_nat (nchunks 128 n) = words (Z.of_nat n)) by (unfold nchunks, words; lia).
  assert (0 < words (Z.of_nat n)) by (unfold words; lia).
  rewrite g_or_tree_cost by lia. unfold g_or128, g_or8, g_and. cbn [fst snd]. f_equal. lia.
Qed.
Fixpoint zsum (l : list Z) : Z := match l with [] => 0 | x :: l => x + zsum l end.
Lemma chunk_sizes_sum c n : (0 < c)%nat -> zsum (map (fun m => words (Z.of_nat m)) (chunk_sizes c n)) =
  (Z.of_nat n / Z.of_nat c) * words (Z.of_nat c) + words (Z.of_nat n mod Z.of_nat c).
Proof.
  intros Hc. unfold chunk_sizes, chunks.
  assert (H : forall f n, (n <= f)%nat -> zsum (map (fun m => words (Z.of_nat m)) (map (@length unit) (chunks_fuel f c (repeat tt n)))) =
    (Z.of_nat n / Z.of_nat c) * words (Z.of_nat c) + words (Z.of_nat n mod Z.of_nat c)).
  { clear n. induction f as [|f IH]; intros n Hn.
    - replace n with 0%nat by lia. cbn [repeat chunks_fuel map zsum]. rewrite Z.div_0_l, Z.mod_0_l by lia. reflexivity.
    - destruct n as [|n]; [cbn [repeat chunks_fuel map zsum]; rewrite Z.div_0_l, Z.mod_0_l by lia; reflexivity|].
      set (n1 := Datatypes.S n) in *. assert (Hr : repeat tt n1 = tt :: repeat tt n) by reflexivity.
      assert (E : chunks_fuel (Datatypes.S f) c (repeat tt n1) = firstn c (repeat tt n1) :: chunks_fuel f c (skipn c (repeat tt n1))) by (rewrite Hr; reflexivity).
      rewrite E. cbn [map zsum].
      assert (Es : skipn c (repeat tt n1) = repeat tt (n1 - c)).
      { clear. revert c. induction n1 as [|m IH]; intros [|c]; try reflexivity. cbn. apply IH. }
      rewrite Es, IH by lia. rewrite firstn_length, repeat_length.
      destruct (Nat.le_gt_cases c n1) as [Hcn|Hcn].
      + rewrite Nat.min_l by lia. replace (Z.of_nat (n1 - c)) with (Z.of_nat n1 + (-1) * Z.of_nat c) by lia.
        rewrite Z.div_add, Z.mod_add by lia. lia.
      + rewrite Nat.min_r by lia. replace (n1 - c)%nat with 0%nat by lia.
        rewrite (Z.div_small (Z.of_nat n1)), (Z.mod_small (Z.of_nat n1)) by lia.
        change (Z.of_nat 0) with 0. rewrite Z.div_0_l, Z.mod_0_l by lia. change (words 0) with 0. lia. }
  apply H. rewrite repeat_length. lia.
Qed.
Lemma fold_msb_cost K ls g : 3 <= K -> fold_left (g_chunk (fun _ g => g) (g_msb g_and K)) ls g =
  (fst g, snd g + 128 * ((2 * K - 3) * zsum (map (fun m => words (Z.of_nat m)) ls))).
Proof.
  intros HK. revert g. induction ls as [|l ls IH]; intros [p b]; cbn [fold_left map zsum fst snd]; [f_equal; ring|].
  rewrite IH. unfold g_chunk. rewrite g_msb_cost by exact HK. cbn [fst snd]. f_equal. lia.
Qed.
Lemma asked_eq K n c : Z.to_nat ((triples_requested K n c + 127) / 128) = Z.to_nat (asked_words K n c).
Proof. unfold triples_requested, asked_words, words. rewrite (Z.mul_comm K 2). reflexivity. Qed.
Lemma g_db_cost K n c p : 3 <= K -> (0 < n)%nat -> (0 < c)%nat ->
  g_db K g_pre (fun _ g => g) (g_msb g_and K) (g_reduce_or g_and) n c (p, 0) =
  (Z.to_nat (available K (Z.of_nat n) (Z.of_nat c) (Z.of_nat p)), 128 * gate_words K (Z.of_nat n) (Z.of_nat c) - 1).
Proof.
  intros HK Hn Hc. unfold g_db. rewrite g_reduce_or_cost, fold_msb_cost, chunk_sizes_sum by assumption.
  unfold g_pre. rewrite asked_eq. cbv zeta. cbn [fst snd].
  assert (Ea : 0 <= asked_words K (Z.of_nat n) (Z.of_nat c)).
  { unfold asked_words, words. apply Z.div_pos; [|lia].
    assert (0 <= (Z.of_nat n + Z.of_nat c - 1) / Z.of_nat c) by (apply Z.div_pos; lia).
    assert (0 <= (Z.of_nat n + Z.of_nat c - 2) / Z.of_nat c) by (apply Z.div_pos; lia). nia. }
  unfold available, gate_words. cbv zeta.
  destruct (Nat.leb_spec p (Z.to_nat (asked_words K (Z.of_nat n) (Z.of_nat c)))), (Z.leb_spec (Z.of_nat p) (asked_words K (Z.of_nat n) (Z.of_nat c))); try lia; cbn [fst snd]; f_equal; unfold batch, min_batch; lia.
Qed.
Lemma gates_pos K n c : 3 <= K -> 0 < n -> 0 < c -> 0 < gate_words K n c.
Proof.
  intros. unfold gate_words, words. assert (0 < (n + 127) / 128) by lia. assert (0 <= n / c) by (apply Z.div_pos; lia).
  assert (0 <= (c + 127) / 128) by lia. pose proof (Z.mod_pos_bound n c ltac:(lia)). assert (0 <= (n mod c + 127) / 128) by lia. nia.
Qed.
Lemma words_of_gates x : 0 < x -> words_of (128 * x - 1) = x.
Proof. unfold words_of. lia. Qed.

(** ** Sessions *)
Record request := Req { q_iris : iris; q_query : pid -> list ashare; q_entries : list iris; q_db : pid -> list (list ashare); q_chunk : nat }.
Definition request_ok (K r : Z) (q : request) : Prop :=
  wf_iris (q_iris q) /\ Forall wf_iris (q_entries q) /\ Forall (enough_valid (q_iris q)) (q_entries q) /\
  (0 < length (q_entries q))%nat /\ (0 < q_chunk q)%nat /\
  vec_shared (spdz_shared K r) (q_query q) (code_vals (ir_code (q_iris q))) /\
  vec_shared (vec_shared (spdz_shared K r)) (q_db q) (map (fun b => code_vals (ir_code b)) (q_entries q)).
Definition q_size (q : request) : Z * Z := (Z.of_nat (length (q_entries q)), Z.of_nat (q_chunk q)).

Section Session.
  Variables (G : rng) (H : hasher) (K r : Z) (signed : bool).
  Hypothesis (HW : In K widths) (HK : 16 <= K).
  Notation inv := (spdz_inv G (verif_width K) r).
  Definition spdz_call (i : pid) (q : request) : M (sst G) bool :=
    iris_in_db (spdz_engine G H i K) signed (q_query q i) (q_db q i) (ir_mask (q_iris q)) (map ir_mask (q_entries q)) (q_chunk q).
  Definition spdz_session (i : pid) (qs : list request) : M (sst G) (list bool) := mapM (spdz_call i) qs.

  Lemma available_nonneg n c p : 0 <= p -> 0 <= available K n c p.
  Proof using Type. intros Hp. unfold available, batch. cbv zeta. destruct (p <=? _); lia. Qed.
  Lemma queue_ok_spec n c p : (0 < n)%nat -> (0 < c)%nat ->
    queue_ok (Z.to_nat (available K (Z.of_nat n) (Z.of_nat c) (Z.of_nat p)), 128 * gate_words K (Z.of_nat n) (Z.of_nat c) - 1) <->
    Z.max (gate_words K (Z.of_nat n) (Z.of_nat c)) batch <= available K (Z.of_nat n) (Z.of_nat c) (Z.of_nat p).
  Proof using HK.
    intros Hn Hc. pose proof (gates_pos K (Z.of_nat n) (Z.of_nat c) ltac:(lia) ltac:(lia) ltac:(lia)) as Hg.
    pose proof (available_nonneg (Z.of_nat n) (Z.of_nat c) (Z.of_nat p) ltac:(lia)).
    unfold queue_ok, gates_words. cbn [fst snd]. rewrite words_of_gates by exact Hg. unfold batch, min_batch. lia.
  Qed.
  Lemma call_ok q p p' s : inv (p, 0) s -> request_ok K r q -> leftover K (fst (q_size q)) (snd (q_size q)) (Z.of_nat p) = Some p' ->
    wpM (fun i => spdz_call i q) s (fun s' R => inv (Z.to_nat p', 0) s' /\ forall i, R i = existsb (matches (q_iris q)) (q_entries q)) /\ 0 <= p'.
  Proof using HW HK.
    intros Hs (Q1 & Q2 & Q3 & Q4 & Q5 & Q6 & Q7) HL. unfold leftover in HL. cbn [q_size fst snd] in HL.
    destruct (Z.leb_spec (Z.max (gate_words K (Z.of_nat (length (q_entries q))) (Z.of_nat (q_chunk q))) batch)
       (available K (Z.of_nat (length (q_entries q))) (Z.of_nat (q_chunk q)) (Z.of_nat p))) as [Hq|Hq]; [|discriminate].
    injection HL as <-. split; [|lia].
    unfold spdz_call.
    pose proof (queue_ok_spec (length (q_entries q)) (q_chunk q) p Q4 Q5) as HQ.
    eapply wpM_mono; [|eapply (iris_in_db_ok _ _ _ _ _ _ _ _ _ _ _ (spdz_mpc_ok G H K r HW ltac:(lia)) HK signed (p, 0) s
      (q_query q) (q_iris q) (q_db q) (q_entries q) (q_chunk q) Hs Q1 Q2 Q3 Q4 Q5 (vec_RL _ _ _ Q6) (vec2_RL _ _ _ Q7))].
    - cbn beta. intros s' R [Hs' HR]. split; [|exact HR].
      rewrite g_db_cost in Hs' by (assumption || lia). unfold g_verq in Hs'. cbn [fst snd] in Hs'.
      pose proof (gates_pos K (Z.of_nat (length (q_entries q))) (Z.of_nat (q_chunk q)) ltac:(lia) ltac:(lia) ltac:(lia)) as Hg.
      replace (_ =? 0) with false in Hs' by lia. unfold gates_words in Hs'. rewrite words_of_gates in Hs' by exact Hg.
      match type of Hs' with inv (?x, 0) s' => match goal with |- inv (?y, 0) s' => replace y with x; [exact Hs'|] end end.
      unfold min_batch, batch. lia.
    - rewrite g_db_cost by (assumption || lia). apply HQ, Hq.
  Qed.
  Lemma verify_queue_fails g s : inv g s -> ~ queue_ok g -> failsM (fun i => verify_triple_queue G H i) s ENotEnoughTriples.
  Proof using Type.
    intros Hs Hq. exists [].
    pose proof (pool_words _ _ (proj2 (proj2 (proj2 (proj2 Hs))))) as HP.
    assert (EL : forall i, t_len (s_tb G (s i)) = gates_words (snd g)) by (intros i; apply (words_len _ _ _ _ HP)).
    assert (LP : forall i, t_len (s_prec G (s i)) = fst g) by (intros i; destruct Hs as (_ & _ & _ & (_ & J4') & _); apply (words_len _ _ _ _ J4')).
    assert (Hg0 : 0 <= snd g) by apply Hs.
    unfold queue_ok in Hq. assert (Hn : (0 < gates_words (snd g))%nat) by (unfold gates_words, words_of; lia).
    replace (start _) with (@failed (sst G * unit) ENotEnoughTriples); [constructor|].
    unfold start, failed. f_equal. unfold tabulate. f_equal; unfold verify_triple_queue, bindM, getM, putM, resM, liftM, t_get_all; cbn [bind fst snd];
      rewrite EL; replace (Nat.eqb (gates_words (snd g)) 0) with false by lia; cbn [bind fst snd];
      unfold t_get; rewrite LP; replace (Nat.ltb (fst g) (Nat.max (gates_words (snd g)) min_batch)) with true by lia; reflexivity.
  Qed.
  Lemma verify_fails g s : inv g s -> ~ queue_ok g -> failsM (fun i => spdz_verify G H i K) s ENotEnoughTriples.
  Proof using HW.
    intros Hs Hq. unfold spdz_verify. apply (failsM_bind (fun i => verify_macs G H i (verif_width K))).
    eapply wpM_mono; [|apply verify_macs_ok; [apply verif_width_in|exact Hs]]. cbn beta. intros s' _ Hs'. apply (verify_queue_fails g); assumption.
  Qed.
  Lemma call_fails q p s : inv (p, 0) s -> request_ok K r q -> leftover K (fst (q_size q)) (snd (q_size q)) (Z.of_nat p) = None ->
    failsM (fun i => spdz_call i q) s EPanic.
  Proof using HW HK.
    intros Hs (Q1 & Q2 & Q3 & Q4 & Q5 & Q6 & Q7) HL. unfold leftover in HL. cbn [q_size fst snd] in HL.
    destruct (Z.leb_spec (Z.max (gate_words K (Z.of_nat (length (q_entries q))) (Z.of_nat (q_chunk q))) batch)
       (available K (Z.of_nat (length (q_entries q))) (Z.of_nat (q_chunk q)) (Z.of_nat p))) as [Hq|Hq]; [discriminate|].
    unfold spdz_call.
    eapply (iris_in_db_fails _ _ _ _ _ _ _ _ _ _ _ (spdz_mpc_ok G H K r HW ltac:(lia)) HK signed (p, 0) s
      (q_query q) (q_iris q) (q_db q) (q_entries q) (q_chunk q) ENotEnoughTriples Hs Q1 Q2 Q3 Q4 Q5 (vec_RL _ _ _ Q6) (vec2_RL _ _ _ Q7)).
    intros s0 Hs0. eapply verify_fails; [exact Hs0|]. rewrite g_db_cost by (assumption || lia).
    intros HQ. apply queue_ok_spec in HQ; lia.
  Qed.
  Lemma session_ok qs : forall p p' s, inv (p, 0) s -> Forall (request_ok K r) qs -> leftovers K (map q_size qs) (Z.of_nat p) = Some p' ->
    wpM (fun i => spdz_session i qs) s (fun s' R => inv (Z.to_nat p', 0) s' /\ forall i, R i = map (fun q => existsb (matches (q_iris q)) (q_entries q)) qs).
  Proof using HW HK.
    induction qs as [|q qs IH]; intros p p' s Hs HF HL.
    - cbn in HL. injection HL as <-. apply wpM_ret. rewrite Nat2Z.id. split; [exact Hs|reflexivity].
    - inversion HF; subst. cbn [map leftovers] in HL. destruct (q_size q) as [n c] eqn:Eq.
      destruct (leftover K n c (Z.of_nat p)) as [p1|] eqn:E1; [|discriminate].
      destruct (call_ok q p p1 s Hs) as [Hc Hp1]; [assumption|rewrite Eq; exact E1|].
      unfold spdz_session. cbn [mapM]. wbind. eapply wpM_mono; [|exact Hc]. cbn beta. intros s1 R [Hs1 HR].
      wbind. eapply wpM_mono; [|apply (IH (Z.to_nat p1) p' s1 Hs1); [assumption|rewrite Z2Nat.id by lia; exact HL]].
      cbn beta. intros s2 Rs [Hs2 HRs]. apply wpM_ret. split; [exact Hs2|]. intros i. rewrite HR, HRs. reflexivity.
  Qed.
  Lemma session_fails qs : forall p s, inv (p, 0) s -> Forall (request_ok K r) qs -> leftovers K (map q_size qs) (Z.of_nat p) = None ->
    failsM (fun i => spdz_session i qs) s EPanic.
  Proof using HW HK.
    induction qs as [|q qs IH]; intros p s Hs HF HL; [discriminate|].
    inversion HF; subst. cbn [map leftovers] in HL. destruct (q_size q) as [n c] eqn:Eq. unfold spdz_session. cbn [mapM].
    destruct (leftover K n c (Z.of_nat p)) as [p1|] eqn:E1.
    - destruct (call_ok q p p1 s Hs) as [Hc Hp1]; [assumption|rewrite Eq; exact E1|].
      apply (failsM_bind (fun i => spdz_call i q)). eapply wpM_mono; [|exact Hc]. cbn beta. intros s1 R [Hs1 HR].
      apply (failsM_stop (fun i => mapM (spdz_call i) qs)). apply (IH (Z.to_nat p1) s1 Hs1); [assumption|rewrite Z2Nat.id by lia; exact HL].
    - apply (failsM_stop (fun i => spdz_call i q)). apply (call_fails q p); [assumption..|]. rewrite Eq. exact E1.
  Qed.

  (** From a new engine. *)
  Lemma start_ok (f : pid -> prf G) seeds key : (forall i, length (seeds i) = 32%nat) -> arith_shared (verif_width K) (fun i => am (key i)) r ->
    wpM (fun i => bindM (spdz_preprocess G i (seeds i)) (fun _ => set_mac_key G (key i))) (fun i => spdz_new G (f i))
      (fun s' _ => inv (0%nat, 0) s').
  Proof using Type.
    intros Hl Hk. wbind. unfold spdz_preprocess, on_aby, on_j, on_prf. apply wpM_zoom. apply wpM_zoom.
    eapply wpM_mono; [|apply (setup_ok G seeds (fun i => j_prf G (s_j G (spdz_new G (f i)))) Hl)]. cbn beta. intros s1 _ [Hs1 _].
    unfold set_mac_key. wbind. apply wpM_get. apply wpM_put. cbn [spdz_new s_j s_mac s_vq s_prec s_tb].
    split. { split; [exact Hs1|]. intros i. cbn. repeat split; reflexivity. }
    split; [exact Hk|]. split; [exists []; apply RL_nil'|]. split; [|apply pool0].
    split; [reflexivity|]. exists [], []. repeat split; apply RL_nil'.
  Qed.
End Session.
