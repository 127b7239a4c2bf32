(** Properties C25, C27 - C29, and C38 for the SPDZ-wise engine. *)
From Coq Require Import Permutation.
From Verif Require Import Base Ring RingProofs Prog Sched Conc Rng Rel Net BinTrait Iris IrisSpec MpcSpec Protocol Client Aby3 ShareSpec Jmp JmpProofs Aby3Mal
  Spdz TripleSpec TripleProofs TripleProofs2 FailProofs SpdzProofs2 SpdzProofs4 SpdzProofs5 BudgetProofs ProtocolProofs SpecProofs PropLemmas2 PropLemmas5 PropLemmas6 Properties4.
From Coq Require Import ZifyBool.

(** C25.  Dealing: [spdz_shared K r X x] says that the parties hold sharings, in the ring of
    [verif_width K] bits, of a value v with v mod 2^K = x and of v * r. *)
Theorem C25_deal : forall (G : rng) K x key (st : rstate G), In K widths -> inr K x ->
  let '(_, (x0, x1, x2)) := spdz_share_value G K x key st in spdz_shared K key (tri x0 x1 x2) x.
Proof. exact spdz_share_value_ok. Qed.
Print Assumptions C25_deal.
(** Any client program, from the creation of the engine on, with a given shared MAC key r: every party
    opens the plain results, every arithmetic value computed on the way carries the MAC under r, and the
    MAC check over everything still unchecked succeeds. *)
Theorem C25_program : forall G H K cs p r (f : pid -> prf G) (seeds : pid -> list Z) (key : pid -> ashare),
  In K widths -> 3 <= K -> (forall i, length (seeds i) = 32%nat) ->
  arith_shared (verif_width K) (fun i => am (key i)) r -> eval K cs mem0 = Some p ->
  honest_run (fun i => bindM (bindM (spdz_preprocess G i (seeds i)) (fun _ => set_mac_key G (key i)))
      (fun _ => bindM (exec (spdz_api G H i K) i cs mem0) (fun m => bindM (verify_macs G H i (verif_width K)) (fun _ => retM m))))
    (fun i => spdz_new G (f i))
    (fun _ m => vec_shared (spdz_shared K r) (fun i => areg (m i)) (areg p) /\
                (forall i, aout (m i) = aout p) /\ (forall i, bout (m i) = bout p)).
Proof.
  intros G H K cs p r f seeds key HW HK HL Hk He. apply wpM_honest. wbind.
  eapply wpM_mono; [|apply (start_ok G K r f seeds key HL Hk)]. cbn beta. intros s1 _ Hs1.
  eapply wpM_mono; [|apply (program_ok G H K HW r cs p (0%nat, 0) s1 HK Hs1 He)]. cbn beta. intros s2 m (H1 & H2 & H3 & _). auto.
Qed.
Print Assumptions C25_program.
(** The same with a fresh key drawn jointly by the parties. *)
Theorem C25_fresh_key : forall G H K cs p (f : pid -> prf G) (seeds : pid -> list Z),
  In K widths -> 3 <= K -> (forall i, length (seeds i) = 32%nat) -> eval K cs mem0 = Some p ->
  honest_run (fun i => bindM (bindM (spdz_preprocess G i (seeds i)) (fun _ => set_new_mac_key G (verif_width K)))
      (fun _ => bindM (exec (spdz_api G H i K) i cs mem0) (fun m => bindM (verify_macs G H i (verif_width K)) (fun _ => retM m))))
    (fun i => spdz_new G (f i))
    (fun s' m => exists r, inr (verif_width K) r /\ arith_shared (verif_width K) (fun i => s_mac G (s' i)) r /\
                vec_shared (spdz_shared K r) (fun i => areg (m i)) (areg p) /\
                (forall i, aout (m i) = aout p) /\ (forall i, bout (m i) = bout p)).
Proof.
  intros G H K cs p f seeds HW HK HL He. apply wpM_honest. wbind.
  eapply wpM_mono; [|apply (fresh_key_ok G K HW f seeds HL)]. cbn beta. intros s1 _ (r & Hr & Hs1).
  eapply wpM_mono; [|apply (program_ok G H K HW r cs p (0%nat, 0) s1 HK Hs1 He)]. cbn beta. intros s2 m (H1 & H2 & H3 & g & Hg).
  exists r. split; [exact Hr|]. split; [apply Hg|auto].
Qed.
Print Assumptions C25_fresh_key.
(** A program with inputs, products, a dot product, comparisons and an or; a key; an authenticated value. *)
Example C25_example :
  eval 16 [CInput P0 300; CInput P2 65000; CMul 0 1; CDot [0; 1]%nat [1; 2]%nat; CMsb 2; CMsbMany [0; 1]%nat; COr 0 1; COpenMany [2; 3]%nat; COpenBitMany [0; 3]%nat] mem0 =
    Some (Mem [300; 65000; 35808; 44768] [true; false; true; true] [35808; 44768] [true; true]) /\
  (exists key, arith_shared (verif_width 16) (fun i => am (key i)) 12345) /\
  exists X, spdz_shared 16 12345 X 65535 /\ exists i, am (X i) = Share (65535 * 12345) 0.
Proof.
  split; [vm_compute; reflexivity|]. split.
  - exists (fun i => AShare szero (one_sided 12345 i)). cbn [am]. split; [intros []; cbn; unfold inr; lia|]. split; [intros []; reflexivity|]. reflexivity.
  - exists (plain_ash 12345 64 65535). split; [apply plain_ash_ok; [cbn; tauto|unfold inr; lia]|]. exists P0. reflexivity.
Qed.

(** C27.  A pool after any sequence of pushes of packed words of any widths K (1 to 128 bits): the three
    columns stay aligned, [place] says where each pushed bit triple is (the same for every party and for
    any contents), and no bit triple is lost, duplicated or torn apart. *)
Theorem C27_pushes : forall ps, Forall push_ok ps ->
  pool_wf (push_all ps triples0) /\
  pool_bits (push_all ps triples0) = fold_left place (map push_bits ps) [] /\
  Permutation (pool_bits (push_all ps triples0)) (concat (map push_bits ps)) /\
  t_len (push_all ps triples0) = Nat.div (length (concat (map push_bits ps)) + 127) 128.
Proof.
  intros ps HF. destruct (push_all_spec ps triples0 HF pool0_wf) as [H1 H2]. cbn [pool_bits triples0 t_bits t_a t_b t_c column_bits] in H2.
  assert (H3 : Permutation (pool_bits (push_all ps triples0)) (concat (map push_bits ps))) by (rewrite H2; apply (fold_place_perm (map push_bits ps) [])).
  split; [exact H1|]. split; [exact H2|]. split; [exact H3|]. rewrite (pool_len _ H1), (Permutation_length H3). reflexivity.
Qed.
Print Assumptions C27_pushes.
(** Taking everything out empties the pool and yields its bit triples, padded with zeros. *)
Theorem C27_get_all : forall t, pool_wf t ->
  let '(t', (a, b, c)) := t_get_all t in
  t_len t' = 0%nat /\ pool_wf t' /\ column_bits 128 a b c = pool_bits t ++ repeat zero_triple (128 * t_len t - length (pool_bits t)).
Proof. intros t Ht. cbn [t_get_all]. split; [reflexivity|]. split; [apply pool0_wf|]. apply pool_padding, Ht. Qed.
Print Assumptions C27_get_all.
(** Pools of whole words (those of precomputed triples): taking out n words either yields the first n
    and leaves the rest in order, or fails because there are fewer; appending keeps both in order. *)
Definition full_pool (t : triples) : Prop := t_bits t = 128 /\ length (t_b t) = length (t_a t) /\ length (t_c t) = length (t_a t).
Theorem C27_get : forall t n, full_pool t ->
  (t_get t n = Err ENotEnoughTriples <-> (t_len t < n)%nat) /\
  forall t' a b c, t_get t n = Ok (t', (a, b, c)) ->
    full_pool t' /\ length a = n /\ length b = n /\ length c = n /\ (t_len t' + n = t_len t)%nat /\ column_bits 128 a b c ++ pool_bits t' = pool_bits t.
Proof.
  intros t n (Hb & Lb & Lc). unfold t_get, t_len. destruct (Nat.ltb_spec (length (t_a t)) n) as [Hn|Hn].
  - split; [split; [intros _; exact Hn|reflexivity]|]. discriminate.
  - split; [split; [discriminate|lia]|]. intros t' a b c E. injection E as <- <- <- <-. unfold full_pool. cbn [t_a t_b t_c t_bits].
    rewrite !skipn_length, !firstn_length. split; [repeat split; lia|]. split; [lia|]. split; [lia|]. split; [lia|]. split; [lia|].
    unfold pool_bits. cbn [t_a t_b t_c t_bits]. rewrite Hb. change (Z.to_nat 128) with 128%nat.
    rewrite !column_bits_all by (rewrite ?skipn_length, ?firstn_length; lia).
    rewrite <- (firstn_skipn n (t_a t)) at 3. rewrite <- (firstn_skipn n (t_b t)) at 3. rewrite <- (firstn_skipn n (t_c t)) at 3.
    symmetry. apply all_bits_app; rewrite !firstn_length; lia.
Qed.
Print Assumptions C27_get.
Theorem C27_extend : forall t o t', full_pool t -> full_pool o -> t_extend t o = Ok t' ->
  full_pool t' /\ t_len t' = (t_len t + t_len o)%nat /\ pool_bits t' = pool_bits t ++ pool_bits o.
Proof.
  intros t o t' (Hb & Lb & Lc) (Hb' & Lb' & Lc') E. unfold t_extend in E. rewrite Hb' in E. injection E as <-. unfold full_pool, t_len, pool_bits. cbn [t_a t_b t_c t_bits].
  rewrite !app_length. split; [repeat split; lia|]. split; [reflexivity|]. rewrite Hb, Hb'. change (Z.to_nat 128) with 128%nat.
  rewrite !column_bits_all by (rewrite ?app_length; lia). apply all_bits_app; congruence.
Qed.
Print Assumptions C27_extend.
(** Pushes of 64, 100 and 1 bits: the second is split, the third fills up the second word. *)
Example C27_example :
  let ps := [(64, (Share 5 6, Share 7 8, Share 5 0)); (100, (Share (2 ^ 99) 1, Share 3 3, Share 1 1)); (1, (Share 1 0, Share 1 1, Share 1 1))] in
  Forall push_ok ps /\ t_len (push_all ps triples0) = 2%nat /\ t_bits (push_all ps triples0) = 37 /\
  nth 128 (pool_bits (push_all ps triples0)) zero_triple = ((true, false), (true, true), (true, true)).
Proof. split; [repeat constructor; unfold inr; cbn; lia|]. split; [reflexivity|]. split; [reflexivity|]. vm_compute. reflexivity. Qed.

(** C28.  Whatever a party receives during the coin toss, if the shuffle returns, its bit triples are the
    Fisher-Yates rearrangement of the input's by the picks drawn from the coin; the three columns are
    rearranged alike. *)
Theorem C28_shuffle : forall G i a b c (s : sst G) tr s' x y z, lrun (permute G i a b c s) tr (Ret (s', (x, y, z))) ->
  length b = length a /\ length c = length a /\ length x = length a /\ length y = length a /\ length z = length a /\
  exists seed, column_bits 128 x y z = fisher_yates (picks G (rseed G seed) (128 * length a)) (column_bits 128 a b c).
Proof.
  intros G i a b c s tr s' x y z L. destruct (permute_coin _ _ _ _ _ _ _ _ _ _ _ L) as (Lb & Lc & seed & E).
  destruct (shuffle_bits G (rseed G seed) a b c x y z Lb Lc E) as (L1 & L2 & L3 & HB). repeat (split; [assumption|]). exists seed. exact HB.
Qed.
Print Assumptions C28_shuffle.
(** That rearrangement is a permutation, *)
Theorem C28_permutation : forall G (r : rstate G) (a b c : list share), length b = length a -> length c = length a ->
  let bs := column_bits 128 a b c in Permutation (fisher_yates (picks G r (128 * length a)) bs) bs.
Proof.
  intros G r a b c Lb Lc bs. apply fy_perm. unfold bs. rewrite column_bits_all by assumption. rewrite all_bits_length. apply picks_valid.
Qed.
Print Assumptions C28_permutation.
(** an unbiased one: every arrangement of distinct elements is reached by exactly one sequence of picks
    (the k-th pick ranging over the n - k elements not yet placed). *)
Theorem C28_unbiased : forall {T} (l l' : list T), NoDup l -> Permutation l' l ->
  exists ks, (picks_ok (length l) ks /\ fisher_yates ks l = l') /\
    forall ks', picks_ok (length l) ks' -> fisher_yates ks' l = l' -> ks' = ks.
Proof. intros T. exact fy_unique. Qed.
Print Assumptions C28_unbiased.
(** In an honest run the three parties apply the same one. *)
Theorem C28_honest : forall G n A B C (s : pid -> sst G), mal_ready (fun i => s_j G (s i)) ->
  (forall i, length (A i) = n /\ length (B i) = n /\ length (C i) = n) ->
  honest_run (fun i => permute G i (A i) (B i) (C i)) s (fun _ R => exists ks, picks_ok (128 * n) ks /\
    forall i, let '(x, y, z) := R i in column_bits 128 x y z = fisher_yates ks (column_bits 128 (A i) (B i) (C i))).
Proof.
  intros G n A B C s Hs HL. apply wpM_honest. eapply wpM_mono; [|apply (permute_picks G n A B C s Hs HL)]. cbn beta.
  intros s' R (seed & HR). exists (picks G (rseed G seed) (128 * n)). split; [apply picks_valid|]. intros i. rewrite HR.
  destruct (HL i) as (L1 & L2 & L3). destruct (shuffle G (rseed G seed) (A i) (B i) (C i)) as [[x y] z] eqn:E.
  destruct (shuffle_bits G (rseed G seed) (A i) (B i) (C i) x y z ltac:(congruence) ltac:(congruence) E) as (_ & _ & _ & HB). rewrite HB, L1. reflexivity.
Qed.
Print Assumptions C28_honest.
Example C28_example : fisher_yates [2; 0; 1; 0]%nat [10; 20; 30; 40] = [30; 20; 40; 10] /\ picks_ok 4 [2; 0; 1; 0]%nat /\
  exists s : pid -> sst one_rng, mal_ready (fun i => s_j one_rng (s i)).
Proof. split; [reflexivity|]. split; [cbn; lia|]. exists (fun _ => spdz_new one_rng (Prf one_rng tt tt)). split; [intros i; reflexivity|intros i; reflexivity]. Qed.

(** C39.  A session of iris_in_db calls on a new engine answers every question correctly exactly when the
    word counts of the specification ([leftovers] in TripleSpec) work out; otherwise all three honest
    parties panic (iris_in_db unwraps the failed verification). *)
Theorem C39_session : forall G H K signed r (f : pid -> prf G) seeds key qs, In K widths -> 14 < K ->
  (forall i, length (seeds i) = 32%nat) -> arith_shared (verif_width K) (fun i => am (key i)) r -> Forall (request_ok K r) qs ->
  match leftovers K (map q_size qs) 0 with
  | Some _ => honest_run (spdz_service G H K signed seeds key qs) (fun i => spdz_new G (f i)) (fun _ R => forall i, all_answered qs (R i))
  | None => honest_failure (spdz_service G H K signed seeds key qs) (fun i => spdz_new G (f i)) EPanic
  end.
Proof.
  intros G H K signed r f seeds key qs HW HK HL Hk HQ. destruct (leftovers K (map q_size qs) 0) as [p|] eqn:E.
  - eapply service_ok; eassumption.
  - eapply service_fails; eassumption.
Qed.
Print Assumptions C39_session.
(** Sessions of both kinds; requests of every size exist. *)
Example C39_example : leftovers 16 [(1000, 128); (34944, 128); (40000, 128)] 0 = Some 0 /\ leftovers 16 [(5000, 12800); (100000, 12800)] 0 <> None /\
  leftovers 16 [(283, 1)] 0 = None /\ forall r n c, 0 < n -> 0 < c -> exists q, request_ok 16 r q /\ q_size q = (n, c).
Proof.
  split; [vm_compute; reflexivity|]. split; [vm_compute; discriminate|]. split; [vm_compute; reflexivity|]. intros r n c Hn Hc.
  destruct (request_exists 16 r n c ltac:(cbn; tauto) Hn Hc) as (q & H1 & H2 & _). exists q. auto.
Qed.

(** C29.  The full property - no sequence of iris_in_db calls on one engine runs out of AND triples - is
    false (below).  It holds of sessions whose chunks all have the same multiple of 128 entries, at least
    256, if no call with a single database entry uses chunks of more than 128 * (2K - 2). *)
Theorem C29_aligned_partial : forall G H K signed r (f : pid -> prf G) seeds key qs m, In K widths -> 14 < K ->
  (forall i, length (seeds i) = 32%nat) -> arith_shared (verif_width K) (fun i => am (key i)) r -> Forall (request_ok K r) qs ->
  2 <= m -> Forall (fun q => Z.of_nat (q_chunk q) = 128 * m /\ (length (q_entries q) = 1%nat -> m <= 2 * K - 2)) qs ->
  honest_run (spdz_service G H K signed seeds key qs) (fun i => spdz_new G (f i)) (fun _ R => forall i, all_answered qs (R i)).
Proof.
  intros G H K signed r f seeds key qs m HW HK HL Hk HQ Hm HF.
  destruct (leftovers_aligned K m (map q_size qs) ltac:(lia) Hm) with (p := 0) as [p E]; [|nia|eapply service_ok; eassumption].
  clear - HF HQ. induction HF as [|q qs [H1 H2] _ IH]; constructor; inversion HQ as [|? ? Hq ?]; subst; [|auto].
  destruct Hq as (_ & _ & _ & Hl & _). unfold aligned_call, q_size. cbn [fst snd]. split; [exact H1|]. split; [lia|]. intros E1. apply H2. lia.
Qed.
Print Assumptions C29_aligned_partial.
(** With chunks of 128 entries (the benchmark's setting) a session fails exactly when some call has a
    database of 128 * k + 1 entries that needs more than one batch of 2^13 words. *)
Theorem C29_chunk128_partial : forall G H K signed r (f : pid -> prf G) seeds key qs, In K widths -> 14 < K ->
  (forall i, length (seeds i) = 32%nat) -> arith_shared (verif_width K) (fun i => am (key i)) r -> Forall (request_ok K r) qs ->
  Forall (fun q => q_chunk q = 128%nat) qs ->
  let bad := Exists (fun q => let n := Z.of_nat (length (q_entries q)) in n mod 128 = 1 /\ batch < gate_words K n 128) qs in
  (~ bad -> honest_run (spdz_service G H K signed seeds key qs) (fun i => spdz_new G (f i)) (fun _ R => forall i, all_answered qs (R i))) /\
  (bad -> honest_failure (spdz_service G H K signed seeds key qs) (fun i => spdz_new G (f i)) EPanic).
Proof.
  intros G H K signed r f seeds key qs HW HK HL Hk HQ HF bad.
  assert (E : leftovers K (map q_size qs) 0 = None <-> bad).
  { pose proof (leftovers_128 K (map (fun q => Z.of_nat (length (q_entries q))) qs) ltac:(lia)) as HB.
    assert (Em : map q_size qs = map (fun n => (n, 128)) (map (fun q => Z.of_nat (length (q_entries q))) qs)).
    { rewrite map_map. apply map_ext_in. intros q Hq. rewrite Forall_forall in HF. unfold q_size. rewrite (HF q Hq). reflexivity. }
    rewrite Em, HB.
    - unfold bad. rewrite !Exists_exists. split.
      + intros (n & Hn & HP). apply in_map_iff in Hn. destruct Hn as (q & <- & Hq). exists q. auto.
      + intros (q & Hq & HP). eexists. split; [apply in_map, Hq|exact HP].
    - apply Forall_forall. intros n Hn. apply in_map_iff in Hn. destruct Hn as (q & <- & Hq). rewrite Forall_forall in HQ. destruct (HQ q Hq) as (_ & _ & _ & Hl & _). lia. }
  pose proof (C39_session G H K signed r f seeds key qs HW HK HL Hk HQ) as HC.
  destruct (leftovers K (map q_size qs) 0) as [p|]; split; intros HB.
  - exact HC.
  - apply E in HB. discriminate.
  - exfalso. apply HB, E. reflexivity.
  - exact HC.
Qed.
Print Assumptions C29_chunk128_partial.
(** Counterexamples, 16-bit ring, every generator, hash function, seed and key: honest parties panic.
    Databases and chunk sizes: 34945 in chunks of 128; 283 in chunks of 1; 25601 in chunks of 12800, then
    one entry in chunks of 128; 35714 in chunks of 3968, then one entry in chunks of 3968. *)
Theorem C29_refuted : forall sizes, In sizes [ [(34945, 128)]; [(283, 1)]; [(25601, 12800); (1, 128)]; [(35714, 3968); (1, 3968)] ] ->
  forall r, exists qs, Forall (request_ok 16 r) qs /\ map q_size qs = sizes /\
  forall G H signed (f : pid -> prf G) seeds key, (forall i, length (seeds i) = 32%nat) -> arith_shared (verif_width 16) (fun i => am (key i)) r ->
    honest_failure (spdz_service G H 16 signed seeds key qs) (fun i => spdz_new G (f i)) EPanic.
Proof.
  intros sizes Hin r.
  assert (HW : In 16 widths) by (cbn; tauto).
  assert (HE : leftovers 16 sizes 0 = None /\ Forall (fun nc => 0 < fst nc /\ 0 < snd nc) sizes).
  { destruct Hin as [<-|[<-|[<-|[<-|[]]]]]; (split; [vm_compute; reflexivity|repeat constructor]). }
  destruct HE as [HE HP].
  assert (Hqs : exists qs, Forall (request_ok 16 r) qs /\ map q_size qs = sizes).
  { clear HE Hin. induction HP as [|[n c] sizes [Hn Hc] _ (qs & H1 & H2)]; [exists []; auto|].
    destruct (request_exists 16 r n c HW Hn Hc) as (q & Hq & Es & _). exists (q :: qs). split; [constructor; assumption|]. cbn [map]. rewrite Es, H2. reflexivity. }
  destruct Hqs as (qs & H1 & H2). exists qs. split; [exact H1|]. split; [exact H2|].
  intros G H signed f seeds key HL Hk. pose proof (C39_session G H 16 signed r f seeds key qs HW ltac:(lia) HL Hk H1) as HC. rewrite H2, HE in HC. exact HC.
Qed.
Print Assumptions C29_refuted.
(** C38 for the SPDZ-wise engine: one call on a new engine whose triples suffice. *)
Theorem C38_spdz : forall G H K signed r (f : pid -> prf G) seeds key X a DB bs chunk, In K widths -> 14 < K ->
  (forall i, length (seeds i) = 32%nat) -> arith_shared (verif_width K) (fun i => am (key i)) r ->
  wf_iris a -> Forall wf_iris bs -> Forall (enough_valid a) bs -> (0 < length bs)%nat -> (0 < chunk)%nat ->
  vec_shared (spdz_shared K r) X (code_vals (ir_code a)) ->
  vec_shared (vec_shared (spdz_shared K r)) DB (map (fun b => code_vals (ir_code b)) bs) ->
  leftover K (Z.of_nat (length bs)) (Z.of_nat chunk) 0 <> None ->
  honest_run (fun i => bindM (bindM (spdz_preprocess G i (seeds i)) (fun _ => set_mac_key G (key i)))
      (fun _ => iris_in_db (spdz_engine G H i K) signed (X i) (DB i) (ir_mask a) (map ir_mask bs) chunk))
    (fun i => spdz_new G (f i)) (fun _ r => answers a bs r).
Proof.
  intros G H K signed r f seeds key X a DB bs chunk HW HK HL Hk Ha Hbs Hv Hl Hc HX HDB HB.
  assert (HK16 : 16 <= K) by (apply width_cases in HW; lia).
  destruct (leftover K (Z.of_nat (length bs)) (Z.of_nat chunk) 0) as [p'|] eqn:E; [|congruence].
  apply wpM_honest. wbind. eapply wpM_mono; [|apply (start_ok G K r f seeds key HL Hk)]. cbn beta. intros s1 _ Hs1.
  destruct (call_ok G H K r signed HW HK16 (Req a X bs DB chunk) 0%nat p' s1 Hs1) as [HO _]; [exact (conj Ha (conj Hbs (conj Hv (conj Hl (conj Hc (conj HX HDB))))))|exact E|].
  eapply wpM_mono; [|exact HO]. cbn beta. intros s2 R [_ HR]. apply answers_intro, HR.
Qed.
Print Assumptions C38_spdz.
