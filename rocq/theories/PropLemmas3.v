(** Specification-level restatements of the ABY3 results. *)
From Verif Require Import Base Ring RingProofs Prog Sched Rel Rng Net BinTrait BinProofs AddProofs Iris IrisSpec IrisProofs
  Protocol MpcSpec ShareSpec Plain Aby3 Aby3Proofs Aby3Proofs2 SlicedProofs OrProofs ProtocolProofs EngineProofs PlainProofs
  SpecProofs Client ClientProofs Apis ApiProofs PropLemmas PropLemmas2.

Section S.
  Variable G : rng.
  Notation prfs := (pid -> prf G).

  (** ** C07 *)
  Lemma share_open (D : rng) K x r (s : prfs) : In K widths -> inr K x ->
    let '(_, (x0, x1, x2)) := share_value D K x r in
    honest_run (fun i => open G i K (match i with P0 => x0 | P1 => x1 | P2 => x2 end)) s
      (fun s' v => s' = s /\ forall i, v i = x).
  Proof.
    intros HK Hx. pose proof (width_pos K HK) as HK0.
    pose proof (share_value_dealt D K x r) as E. destruct (share_value D K x r) as [r' [[x0 x1] x2]]. cbn [snd] in E. cbv zeta in E.
    injection E as -> -> ->. apply wpM_honest. apply open_ok; [exact HK|].
    eapply arel_ext; [|apply (dealt_shared K x (snd (draw D K r)) (snd (draw D K (fst (draw D K r)))))]; try apply draw_range; try lia; try assumption.
    intros []; reflexivity.
  Qed.
  Lemma input_open K v p x (s : prfs) : In K widths -> inr K x -> v p = Some x -> prf_synced s ->
    honest_run (fun i => bindM (input G i K (v i) (pid_num p)) (open G i K)) s (fun s' r => prf_synced s' /\ forall i, r i = x).
  Proof.
    intros HK Hx Hv Hs. apply wpM_honest. apply (wpM_bind (fun i => input G i K (v i) (pid_num p)) (fun i => open G i K)).
    eapply wpM_mono; [|apply (input_ok G K v p x s HK Hx Hv Hs)]. intros s1 X [Hs1 HX].
    eapply wpM_mono; [|apply (open_ok G K X x s1 HK HX)]. intros s2 r [-> Hr]. auto.
  Qed.
  Lemma open_many_run K X xs (s : prfs) : In K widths -> vec_shared (arith_shared K) X xs ->
    honest_run (fun i => open_many G i K (X i)) s (fun s' v => s' = s /\ forall i, v i = xs).
  Proof. intros HK HX. apply wpM_honest, open_many_ok; [exact HK|apply vec_RL, HX]. Qed.
  Lemma open_bit_run X (b : bool) (s : prfs) : bin_shared 1 X (Z.b2z b) ->
    honest_run (fun i => open_bit G i (X i)) s (fun s' v => s' = s /\ forall i, v i = b).
  Proof.
    intros HX. apply wpM_honest. eapply wpM_mono; [|apply (open_bit_ok G X _ s HX)]. intros s' v [-> Hv]. split; [reflexivity|].
    intros i. rewrite Hv. destruct b; reflexivity.
  Qed.
  Lemma open_bit_many_run X (bs : list bool) (s : prfs) : vec_shared (bin_shared 1) X (map Z.b2z bs) ->
    honest_run (fun i => open_bit_many G i (X i)) s (fun s' v => s' = s /\ forall i, v i = bs).
  Proof.
    intros HX. apply wpM_honest. eapply wpM_mono; [|apply (open_bit_many_ok G X _ s (vec_RL _ _ _ HX))]. intros s' v [-> Hv]. split; [reflexivity|].
    intros i. rewrite Hv, map_map. rewrite <- (map_id bs) at 2. apply map_ext. intros []; reflexivity.
  Qed.
  Lemma input_bad_id K v id (i : pid) (s : prf G) : 3 <= id -> input G i K v id s = Fail (EId id).
  Proof. intros H. unfold input. replace (3 <=? id) with true by (symmetry; apply Z.leb_le; lia). reflexivity. Qed.
  Lemma input_none K (i : pid) (s : prf G) : input G i K None (pid_num i) s = Fail EValue.
  Proof.
    unfold input. replace (3 <=? pid_num i) with false by (destruct i; reflexivity). rewrite Z.eqb_refl.
    unfold bindM, gen_zero_share, gen_rands, bindM. destruct (draw G K (my_prf G s)), (draw G K (next_prf G s)). reflexivity.
  Qed.

  (** ** C10 *)
  Lemma mul_run K X x Y y (s : prfs) : In K widths -> prf_synced s -> arith_shared K X x -> arith_shared K Y y ->
    honest_run (fun i => mul G i K (X i) (Y i)) s (fun s' W => prf_synced s' /\ arith_shared K W ((x * y) mod 2 ^ K)).
  Proof. intros. apply wpM_honest, mul_ok; assumption. Qed.
  Lemma mul_many_run K X xs Y ys (s : prfs) : In K widths -> prf_synced s ->
    vec_shared (arith_shared K) X xs -> vec_shared (arith_shared K) Y ys ->
    honest_run (fun i => mul_many G i K (X i) (Y i)) s
      (fun s' W => prf_synced s' /\ vec_shared (arith_shared K) W (map2 (fun x y => (x * y) mod 2 ^ K) xs ys)).
  Proof.
    intros HK Hs HX HY. apply wpM_honest. eapply wpM_mono; [|apply (mul_many_ok G K X xs Y ys s HK Hs (vec_RL _ _ _ HX) (vec_RL _ _ _ HY))].
    intros s' W [H1 H2]. split; [exact H1|apply RL_vec, H2].
  Qed.
  Lemma dot_run K X xs Y ys (s : prfs) : In K widths -> prf_synced s ->
    vec_shared (arith_shared K) X xs -> vec_shared (arith_shared K) Y ys -> length xs = length ys ->
    honest_run (fun i => dot G i K (X i) (Y i)) s (fun s' W => prf_synced s' /\ arith_shared K W (dotp xs ys mod 2 ^ K)).
  Proof. intros HK Hs HX HY Hl. apply wpM_honest, dot_ok; auto using vec_RL. Qed.
  Lemma dot_many_run K X xss Y yss (s : prfs) : In K widths -> prf_synced s ->
    vec_shared (vec_shared (arith_shared K)) X xss -> vec_shared (vec_shared (arith_shared K)) Y yss ->
    Forall2 (fun xs ys => length xs = length ys) xss yss ->
    honest_run (fun i => dot_many G i K (X i) (Y i)) s
      (fun s' W => prf_synced s' /\ vec_shared (arith_shared K) W (map2 (fun xs ys => dotp xs ys mod 2 ^ K) xss yss)).
  Proof.
    intros HK Hs HX HY Hl. apply wpM_honest. eapply wpM_mono; [|apply (dot_many_ok G K X xss Y yss s HK Hs (vec2_RL _ _ _ HX) (vec2_RL _ _ _ HY) Hl)].
    intros s' W [H1 H2]. split; [exact H1|apply RL_vec, H2].
  Qed.
  Lemma masked_dot_many_run K A xs X yss (masks : list code) (s : prfs) : In K widths -> prf_synced s ->
    vec_shared (arith_shared K) A xs -> vec_shared (vec_shared (arith_shared K)) X yss ->
    length xs = IRIS_CODE_SIZE -> Forall (fun ys => length ys = IRIS_CODE_SIZE) yss -> Forall wf_code masks ->
    honest_run (fun i => masked_dot_many G i K (A i) (X i) masks) s
      (fun s' W => prf_synced s' /\
         vec_shared (arith_shared K) W (map2 (fun ys m => mdotp xs ys (mask_bits m) mod 2 ^ K) yss masks)).
  Proof.
    intros HK Hs HA HX L1 L2 Hm. apply wpM_honest.
    eapply wpM_mono; [|apply (masked_dot_many_ok G K A xs X yss masks s HK Hs (vec_RL _ _ _ HA) (vec2_RL _ _ _ HX) L1 L2 Hm)].
    intros s' W [H1 H2]. split; [exact H1|apply RL_vec, H2].
  Qed.
  Lemma dot_sizes K (i : pid) (s : prf G) a b : length a <> length b -> dot G i K a b s = Fail EInvalidSize.
  Proof. intros H. unfold dot. replace (Nat.eqb (length a) (length b)) with false by (symmetry; apply Nat.eqb_neq, H). reflexivity. Qed.
  Lemma dot_many_outer K (i : pid) (s : prf G) a b : length a <> length b -> dot_many G i K a b s = Fail EInvalidSize.
  Proof. intros H. unfold dot_many. replace (Nat.eqb (length a) (length b)) with false by (symmetry; apply Nat.eqb_neq, H). reflexivity. Qed.
  (* a loop of local steps that meets a failing element fails without sending *)
  Lemma zero_share_total K (s : prf G) : exists s' r, gen_zero_share G K s = Ret (s', r).
  Proof. unfold gen_zero_share, gen_rands, bindM. destruct (draw G K (my_prf G s)) as [m1 a1], (draw G K (next_prf G s)) as [m2 a2]. eexists. eexists. reflexivity. Qed.
  Lemma mapM2_first_bad {A A' C} (f : A -> A' -> M (prf G) C) e : forall a b,
    (exists n x y, nth_error a n = Some x /\ nth_error b n = Some y /\ forall s, f x y s = Fail e) ->
    (forall x y s, (exists s' c, f x y s = Ret (s', c)) \/ f x y s = Fail e) ->
    forall s, mapM2 f a b s = Fail e.
  Proof.
    induction a as [|x a IH]; intros b (n & x0 & y0 & Hn1 & Hn2 & Hf) Hall s; [destruct n; discriminate|].
    destruct b as [|y b]; [destruct n; discriminate|]. cbn [mapM2]. unfold bindM at 1.
    destruct n as [|n].
    - cbn in Hn1, Hn2. injection Hn1 as ->. injection Hn2 as ->. rewrite Hf. reflexivity.
    - destruct (Hall x y s) as [(s' & c & ->)| ->]; [|reflexivity]. cbn [bind]. unfold bindM. cbn [fst snd].
      rewrite (IH b (ex_intro _ n (ex_intro _ x0 (ex_intro _ y0 (conj Hn1 (conj Hn2 Hf))))) Hall). reflexivity.
  Qed.
  Lemma dot_many_inner K (i : pid) (s : prf G) a b n x y : length a = length b ->
    nth_error a n = Some x -> nth_error b n = Some y -> length x <> length y -> dot_many G i K a b s = Fail EInvalidSize.
  Proof.
    intros Hl Hx Hy Hne. unfold dot_many. rewrite Hl, Nat.eqb_refl. cbn [negb]. unfold bindM at 1.
    rewrite (mapM2_first_bad _ EInvalidSize); [reflexivity| |].
    - exists n, x, y. split; [exact Hx|]. split; [exact Hy|]. intros s0. unfold bindM. destruct (zero_share_total K s0) as (s' & r & ->).
      cbn [bind]. replace (Nat.eqb (length x) (length y)) with false by (symmetry; apply Nat.eqb_neq, Hne). reflexivity.
    - intros x0 y0 s0. unfold bindM. destruct (zero_share_total K s0) as (s' & r & ->). cbn [bind].
      destruct (negb _); [right; reflexivity|left; eexists; eexists; reflexivity].
  Qed.
  Lemma masked_dot_outer K (i : pid) (s : prf G) a b masks : length a <> IRIS_CODE_SIZE -> masked_dot_many G i K a b masks s = Fail EInvalidSize.
  Proof. intros H. unfold masked_dot_many. replace (Nat.eqb (length a) IRIS_CODE_SIZE) with false by (symmetry; apply Nat.eqb_neq, H). reflexivity. Qed.

  (** ** C11 *)
  Lemma setup_run (seeds : pid -> list Z) (s : prfs) : (forall i, length (seeds i) = 32%nat) ->
    honest_run (fun i => setup_prf_from_seed G i (seeds i)) s
      (fun s' _ => prf_synced s' /\ forall i, s' i = prf_new G (seeds i) (seeds (prev i))).
  Proof. intros H. apply wpM_honest, setup_ok, H. Qed.
  Lemma zero_share_run K (s : prfs) : 0 <= K -> prf_synced s ->
    honest_run (fun _ => gen_zero_share G K) s (fun s' z => prf_synced s' /\ (z P0 + z P1 + z P2) mod 2 ^ K = 0).
  Proof. intros HK Hs. apply wpM_honest. eapply wpM_mono; [|apply (gen_zero_share_ok G K s HK Hs)]. intros s' z [H1 [_ H2]]. auto. Qed.
  Lemma bzero_share_run K (s : prfs) : 0 <= K -> prf_synced s ->
    honest_run (fun _ => gen_binary_zero_share G K) s (fun s' z => prf_synced s' /\ Z.lxor (Z.lxor (z P0) (z P1)) (z P2) = 0).
  Proof. intros HK Hs. apply wpM_honest. eapply wpM_mono; [|apply (gen_binary_zero_share_ok G K s HK Hs)]. intros s' z [H1 [_ H2]]. auto. Qed.
  Lemma program_run K cs p (s : prfs) : In K widths -> 3 <= K -> prf_synced s -> eval K cs mem0 = Some p ->
    honest_run (fun i => exec (aby3_api G K i) i cs mem0) s
      (fun s' m => prf_synced s' /\
         vec_shared (arith_shared K) (fun i => areg (m i)) (areg p) /\
         vec_shared aby3_bit (fun i => breg (m i)) (breg p) /\
         (forall i, aout (m i) = aout p) /\ (forall i, bout (m i) = bout p)).
  Proof.
    intros HK HK3 Hs He. apply wpM_honest.
    eapply wpM_mono; [|apply (exec_ok _ _ _ _ _ (aby3_api_ok G K HK HK3) cs (fun _ => mem0) mem0 p s Hs (mem0_shared _ _) He)].
    intros s' m [H1 (H2 & H3 & H4 & H5)]. auto using RL_vec.
  Qed.
  Lemma setup_program_run K cs p seeds (s : prfs) : In K widths -> 3 <= K -> (forall i, length (seeds i) = 32%nat) ->
    eval K cs mem0 = Some p ->
    honest_run (fun i => bindM (setup_prf_from_seed G i (seeds i)) (fun _ => exec (aby3_api G K i) i cs mem0)) s
      (fun s' m => prf_synced s' /\ (forall i, aout (m i) = aout p) /\ (forall i, bout (m i) = bout p)).
  Proof.
    intros HK HK3 Hl He. apply wpM_honest.
    apply (wpM_bind (fun i => setup_prf_from_seed G i (seeds i)) (fun i _ => exec (aby3_api G K i) i cs mem0)).
    eapply wpM_mono; [|apply (setup_ok G seeds s Hl)]. intros s1 _ [Hs1 _].
    eapply wpM_mono; [|apply (exec_ok _ _ _ _ _ (aby3_api_ok G K HK HK3) cs (fun _ => mem0) mem0 p s1 Hs1 (mem0_shared _ _) He)].
    intros s' m [H1 (H2 & H3 & H4 & H5)]. auto.
  Qed.

  (** ** C12 *)
  Lemma and_run K X x Y y (s : prfs) : In K widths -> prf_synced s -> bin_shared K X x -> bin_shared K Y y ->
    honest_run (fun i => and_ G i K (X i) (Y i)) s (fun s' W => prf_synced s' /\ bin_shared K W (Z.land x y)).
  Proof. intros. apply wpM_honest, and_ok; assumption. Qed.
  Lemma and_many_run K X xs Y ys (s : prfs) : In K widths -> prf_synced s ->
    vec_shared (bin_shared K) X xs -> vec_shared (bin_shared K) Y ys -> length xs = length ys ->
    honest_run (fun i => and_many G i K (X i) (Y i)) s
      (fun s' W => prf_synced s' /\ vec_shared (bin_shared K) W (map2 Z.land xs ys)).
  Proof.
    intros HK Hs HX HY Hl. apply wpM_honest. eapply wpM_mono; [|apply (and_many_ok G K X xs Y ys s HK Hs (vec_RL _ _ _ HX) (vec_RL _ _ _ HY) Hl)].
    intros s' W [H1 H2]. split; [exact H1|apply RL_vec, H2].
  Qed.
  Lemma or_run K X x Y y (s : prfs) : In K widths -> prf_synced s -> bin_shared K X x -> bin_shared K Y y ->
    honest_run (fun i => b_or (aby3_bin G i K) (X i) (Y i)) s (fun s' W => prf_synced s' /\ bin_shared K W (Z.lor x y)).
  Proof.
    intros HK Hs HX HY. apply wpM_honest. eapply wpM_mono; [|apply (or_ok _ _ _ _ (aby3_bin_ok G) K HK tt s X x Y y Hs); split; assumption].
    intros s' W [H1 [_ H2]]. auto.
  Qed.
  Lemma or_many_run K X xs Y ys (s : prfs) : In K widths -> prf_synced s ->
    vec_shared (bin_shared K) X xs -> vec_shared (bin_shared K) Y ys -> length xs = length ys ->
    honest_run (fun i => or_many (aby3_bin G i K) (X i) (Y i)) s
      (fun s' W => prf_synced s' /\ vec_shared (bin_shared K) W (map2 Z.lor xs ys)).
  Proof.
    intros HK Hs HX HY Hl. apply wpM_honest.
    apply vec_RL, (RL_brel K _ _ HK) in HX. apply vec_RL, (RL_brel K _ _ HK) in HY.
    eapply wpM_mono; [|apply (or_many_ok _ _ _ _ (aby3_bin_ok G) K HK tt s X xs Y ys Hs HX HY Hl)].
    intros s' W [H1 H2]. split; [exact H1|apply RL_vec, (RL_brel K _ _ HK), H2].
  Qed.

  (** ** C13 *)
  Lemma a2b_run K X x (s : prfs) : In K widths -> prf_synced s -> arith_shared K X x ->
    honest_run (fun i => arithmetic_to_binary G i K (X i)) s (fun s' W => prf_synced s' /\ bin_shared K W x).
  Proof. intros. apply wpM_honest, arithmetic_to_binary_ok; assumption. Qed.
  Lemma a2b_many_run K X xs (s : prfs) : In K widths -> prf_synced s -> vec_shared (arith_shared K) X xs ->
    honest_run (fun i => arithmetic_to_binary_many G i K (X i)) s (fun s' W => prf_synced s' /\ vec_shared (bin_shared K) W xs).
  Proof.
    intros HK Hs HX. apply wpM_honest. eapply wpM_mono; [|apply (arithmetic_to_binary_many_ok G K X xs s HK Hs (vec_RL _ _ _ HX))].
    intros s' W [H1 H2]. split; [exact H1|apply RL_vec, H2].
  Qed.
  Lemma add3_run K X1 x1 X2 x2 X3 x3 (s : prfs) : In K widths -> prf_synced s ->
    bin_shared K X1 x1 -> bin_shared K X2 x2 -> bin_shared K X3 x3 ->
    honest_run (fun i => binary_add_3 (aby3_bin G i K) (X1 i) (X2 i) (X3 i)) s
      (fun s' W => prf_synced s' /\ bin_shared K W ((x1 + x2 + x3) mod 2 ^ K)).
  Proof.
    intros HK Hs H1 H2 H3. apply wpM_honest.
    eapply wpM_mono; [|apply (binary_add_3_ok _ _ _ _ (aby3_bin_ok G) K HK tt s X1 x1 X2 x2 X3 x3 Hs); split; assumption].
    intros s' W [Ha [_ Hb]]. auto.
  Qed.

  (** ** C14 *)
  Lemma msb_run K X x (s : prfs) : In K widths -> prf_synced s -> arith_shared K X x ->
    honest_run (fun i => get_msb_share G i K (X i)) s (fun s' W => prf_synced s' /\ bin_shared 1 W (Z.b2z (Z.testbit x (K - 1)))).
  Proof. intros. apply wpM_honest, get_msb_share_ok; assumption. Qed.
  Lemma msb_many_run K X xs (s : prfs) : In K widths -> 1 < K -> prf_synced s -> xs <> [] -> vec_shared (arith_shared K) X xs ->
    honest_run (fun i => get_msb_many G i K (X i)) s
      (fun s' W => prf_synced s' /\ vec_shared (bin_shared 1) W (map (fun x => Z.b2z (Z.testbit x (K - 1))) xs)).
  Proof.
    intros HK HK1 Hs Hne HX. apply wpM_honest. assert (HK3 : 3 <= K) by (pose proof (width_cases K HK); lia).
    eapply wpM_mono; [|apply (get_msb_many_ok G K HK HK3 X xs s Hs)].
    - intros s' W [H1 H2]. split; [exact H1|apply RL_vec, H2].
    - destruct xs; [congruence|cbn; lia].
    - apply vec_RL, HX.
  Qed.
  Lemma msb_many_empty K (i : pid) (s : prf G) : 1 < K -> no_result (get_msb_many G i K [] s).
  Proof.
    intros HK. unfold get_msb_many, msb_adder_many. cbn [map length Nat.eqb negb orb].
    assert (E : transpose_pack_u128 K [] = repeat [] (S (S (Z.to_nat K - 2)))).
    { replace (S (S (Z.to_nat K - 2))) with (Z.to_nat K) by lia. reflexivity. }
    rewrite !E. clear E. generalize (Z.to_nat K - 2)%nat as k. intros k.
    assert (Em : forall n, map2 (map2 sh_xor) (repeat [] n) (repeat [] n) = repeat [] n) by (induction n as [|n IH]; cbn [repeat map2]; [reflexivity|f_equal; exact IH]).
    unfold transposed_pack_xor. rewrite !Em. unfold pop.
    assert (Er : forall n, rev (repeat ([] : list share) n) = repeat [] n).
    { induction n as [|n IH]; [reflexivity|]. cbn [repeat rev]. rewrite IH. clear. induction n as [|n IH]; [reflexivity|]. cbn [repeat app]. f_equal. exact IH. }
    rewrite !Er. cbn [repeat]. unfold bindM, resM, liftM. cbn [of_res bind fst snd rev]. rewrite Er.
    apply no_result_bind_l. unfold transposed_pack_and, bindM, resM, liftM.
    assert (Ei : repeat [] k ++ [[]] = [] :: repeat ([] : list share) k)
      by (clear; induction k as [|k IH]; [reflexivity|cbn [repeat app]; f_equal; exact IH]).
    rewrite Ei. cbn [index nth_error of_res bind fst snd length Nat.eqb].
    apply no_result_bind_r. intros sa. apply nr_fail.
  Qed.

  (** ** C16 *)
  Lemma reduce_or_run X (bs : list bool) chunk (s : prfs) : prf_synced s -> (0 < chunk)%nat -> bs <> [] ->
    vec_shared (bin_shared 1) X (map Z.b2z bs) ->
    honest_run (fun i => aby3_reduce_binary_or G i (X i) chunk) s
      (fun s' W => prf_synced s' /\ bin_shared 1 W (Z.b2z (existsb (fun b => b) bs))).
  Proof.
    intros Hs Hc Hne HX. apply wpM_honest, aby3_reduce_binary_or_ok; try assumption.
    - destruct bs; [congruence|cbn; lia].
    - apply RL_bits, vec_RL, HX.
  Qed.
End S.

(** ** C06 *)
Lemma confluence (A : Type) (P : pid -> prog A) s f : steps s (start P) f -> stuck f ->
  forall s' c, steps s' (start P) c ->
    (length s' <= length s)%nat /\
    (exists s'', steps s'' c f /\ (length s' + length s'' = length s)%nat) /\ (stuck c -> c = f).
Proof.
  intros H Hf s' c Hc. destruct (any_steps_complete _ _ _ Hc _ _ H Hf) as (s'' & H1 & H2).
  split; [lia|]. split; [exists s''; split; [exact H1|lia]|].
  intros Hst. inversion H1 as [|i s0 c0 c1 c2 Hi]; subst; [reflexivity|]. exfalso. exact (Hst _ _ Hi).
Qed.
Lemma ring_exchange : evals (fun i => send_and_receive i [pid_num i]) (fun i => [pid_num (prev i)]).
Proof.
  destruct (wp_send_and_receive (fun i => [pid_num i]) (fun r => forall i, r i = [pid_num (prev i)])) as (R & HR & HQ).
  - intros i. reflexivity.
  - eapply evals_ext; [reflexivity|exact HQ|exact HR].
Qed.
(** ** C09 *)
Lemma linear_arith K X x Y y c : 0 <= K -> arith_shared K X x -> arith_shared K Y y ->
  arith_shared K (fun i => sh_add K (X i) (Y i)) ((x + y) mod 2 ^ K) /\
  arith_shared K (fun i => sh_sub K (X i) (Y i)) ((x - y) mod 2 ^ K) /\
  arith_shared K (fun i => sh_neg K (X i)) ((- x) mod 2 ^ K) /\
  arith_shared K (fun i => sh_mulc K (X i) c) ((x * c) mod 2 ^ K) /\
  arith_shared K (fun i => sh_add_const i K (X i) c) ((x + c) mod 2 ^ K) /\
  arith_shared K (fun i => sh_sub_const i K (X i) c) ((x - c) mod 2 ^ K).
Proof. intros HK HX HY. auto 10 using sh_add_ok, sh_sub_ok, sh_neg_ok, sh_mulc_ok, sh_add_const_ok, sh_sub_const_ok. Qed.
Lemma linear_bin K X x Y y c n : 0 < K -> inr K c -> bin_shared K X x -> bin_shared K Y y ->
  bin_shared K (fun i => sh_xor (X i) (Y i)) (Z.lxor x y) /\
  bin_shared K (fun i => sh_andc (X i) c) (Z.land x c) /\
  bin_shared K (fun i => sh_xor_const i (X i) c) (Z.lxor x c) /\
  bin_shared K (fun i => sh_shl K (X i) n) (rshl K x n) /\
  bin_shared K (fun i => sh_not K (X i)) (2 ^ K - 1 - x).
Proof.
  intros HK Hc HX HY. assert (0 <= K) by lia. split; [apply sh_xor_ok; assumption|]. split; [apply sh_andc_ok; assumption|].
  split; [apply sh_xor_const_ok; assumption|]. split; [apply sh_shl_ok; assumption|apply sh_not_ok; assumption].
Qed.
