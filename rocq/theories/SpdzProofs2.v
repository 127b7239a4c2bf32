(** Honest runs of the SPDZ-wise engine, part 2: shuffling, triple generation and verification, MAC
    verification. *)
From Verif Require Import Base Ring RingProofs Prog Sched Conc Rng Rel Net BinTrait BitArith BinProofs AddProofs Iris IrisSpec IrisProofs
  Protocol MpcSpec Plain Aby3 ShareSpec Aby3Proofs Aby3Proofs2 SlicedProofs OrProofs EngineProofs Client Jmp JmpProofs Aby3Mal Aby3MalProofs Aby3MalProofs2
  Spdz TripleSpec TripleProofs SpdzProofs.
From Coq Require Import ZifyBool ZifyNat.

(** n precomputed words of AND triples. *)
Definition words_shared (n : nat) (A B C : pid -> list share) : Prop :=
  exists a b, length a = n /\ length b = n /\
    RL (bin_shared 128) A a /\ RL (bin_shared 128) B b /\ RL (bin_shared 128) C (map2 Z.land a b).
Definition prec_inv (n : nat) (T : pid -> triples) : Prop :=
  (forall i, t_bits (T i) = 128) /\ words_shared n (fun i => t_a (T i)) (fun i => t_b (T i)) (fun i => t_c (T i)).

Lemma words_ext3 n A B C A' B' C' : (forall i, A i = A' i) -> (forall i, B i = B' i) -> (forall i, C i = C' i) ->
  words_shared n A B C -> words_shared n A' B' C'.
Proof.
  intros EA EB EC (a & b & L1 & L2 & H1 & H2 & H3). exists a, b. split; [exact L1|]. split; [exact L2|].
  split; [apply (RL_ext _ A); assumption|]. split; [apply (RL_ext _ B); assumption|apply (RL_ext _ C); assumption].
Qed.
Lemma words_len n A B C : words_shared n A B C -> forall i, length (A i) = n /\ length (B i) = n /\ length (C i) = n.
Proof.
  intros (a & b & L1 & L2 & H1 & H2 & H3) i. rewrite (RL_length _ _ _ H1), (RL_length _ _ _ H2), (RL_length _ _ _ H3), map2_length_min. lia.
Qed.
Lemma words_firstn n m A B C : (m <= n)%nat -> words_shared n A B C ->
  words_shared m (fun i => firstn m (A i)) (fun i => firstn m (B i)) (fun i => firstn m (C i)).
Proof.
  intros Hm (a & b & L1 & L2 & H1 & H2 & H3). exists (firstn m a), (firstn m b). rewrite !firstn_length, <- firstn_map2.
  split; [lia|]. split; [lia|]. split; [apply RL_firstn, H1|]. split; [apply RL_firstn, H2|apply RL_firstn, H3].
Qed.
Lemma words_skipn n m A B C : (m <= n)%nat -> words_shared n A B C ->
  words_shared (n - m) (fun i => skipn m (A i)) (fun i => skipn m (B i)) (fun i => skipn m (C i)).
Proof.
  intros Hm (a & b & L1 & L2 & H1 & H2 & H3). exists (skipn m a), (skipn m b). rewrite !skipn_length, <- skipn_map2 by congruence.
  split; [lia|]. split; [lia|]. split; [apply RL_skipn, H1|]. split; [apply RL_skipn, H2|apply RL_skipn, H3].
Qed.
Lemma words_app n m A B C A' B' C' : words_shared n A B C -> words_shared m A' B' C' ->
  words_shared (n + m) (fun i => A i ++ A' i) (fun i => B i ++ B' i) (fun i => C i ++ C' i).
Proof.
  intros (a & b & L1 & L2 & H1 & H2 & H3) (a' & b' & L1' & L2' & H1' & H2' & H3'). exists (a ++ a'), (b ++ b').
  rewrite !app_length, map2_app by congruence. split; [lia|]. split; [lia|].
  split; [apply RL_app; assumption|]. split; [apply RL_app; assumption|apply RL_app; assumption].
Qed.
Lemma swap_words_shared n A B C i j : words_shared n A B C -> (i < 128 * n)%nat -> (j < 128 * n)%nat ->
  words_shared n (fun p => swap_bit (A p) i j) (fun p => swap_bit (B p) i j) (fun p => swap_bit (C p) i j).
Proof.
  intros (a & b & L1 & L2 & H1 & H2 & H3) Hi Hj. exists (swap_words a i j), (swap_words b i j).
  rewrite !swap_words_length. split; [exact L1|]. split; [exact L2|].
  assert (Fa : Forall (inr 128) a) by (apply (brel_Forall 128 A); apply RL_brel; [exact in128|exact H1]).
  assert (Fb : Forall (inr 128) b) by (apply (brel_Forall 128 B); apply RL_brel; [exact in128|exact H2]).
  rewrite <- (swap_op _ _ bitop_land) by (auto; lia).
  split; [apply swap_bit_ok; auto; lia|]. split; [apply swap_bit_ok; auto; lia|apply swap_bit_ok; auto; rewrite map2_length_min; lia].
Qed.
(** The shuffle with a common generator. *)
Definition col1 {A B C} (t : A * B * C) := fst (fst t).
Definition col2 {A B C} (t : A * B * C) := snd (fst t).
Definition col3 {A B C} (t : A * B * C) := snd t.
Lemma shuffle_ok G n A B C r : words_shared n A B C ->
  words_shared n (fun i => col1 (shuffle G r (A i) (B i) (C i))) (fun i => col2 (shuffle G r (A i) (B i) (C i))) (fun i => col3 (shuffle G r (A i) (B i) (C i))).
Proof.
  intros HW. unfold shuffle. assert (LA : forall i, length (A i) = n) by (intros i; apply (words_len _ _ _ _ HW)).
  assert (E : forall js r A B C, Forall (fun j => j < n * 128)%nat js -> words_shared n A B C ->
     let F := fun i => snd (fold_left (fun (s : rstate G * (list share * list share * list share)) j =>
         let '(r, (a, b, c)) := s in let '(r', k) := gen_range G r j (n * 128) in
         (r', (swap_bit a k j, swap_bit b k j, swap_bit c k j))) js (r, (A i, B i, C i))) in
     words_shared n (fun i => col1 (F i)) (fun i => col2 (F i)) (fun i => col3 (F i))).
  { clear. induction js as [|j js IH]; intros r A B C HF HW; cbn [fold_left]; [exact HW|].
    inversion HF as [|? ? Hj HFs]; subst. pose proof (gen_range_spec G r j (n * 128) Hj) as Hr.
    destruct (gen_range G r j (n * 128)) as [r1 k]. cbn [snd] in Hr.
    apply (IH r1 (fun i => swap_bit (A i) k j) (fun i => swap_bit (B i) k j) (fun i => swap_bit (C i) k j) HFs).
    apply swap_words_shared; [exact HW|lia..]. }
  specialize (E (seq 0 (n * 128)) r A B C). cbv zeta in E.
  eapply words_ext3; [..|apply E; [|exact HW]]; try (intros i; rewrite LA; reflexivity).
  apply Forall_forall. intros j Hj. apply in_seq in Hj. lia.
Qed.

Section Spdz.
  Variable G : rng.
  Variable H : hasher.
  Variables (U r : Z).
  Hypothesis HU : In U widths.
  Let HU0 : 0 <= U. Proof. apply in_widths_pos in HU. lia. Qed.
  Notation ST := (sst G).
  Notation jinv := (jmp_inv G).

  (** The invariant of honest runs: (words precomputed, AND gates waiting to be verified). *)
  Definition spdz_inv (g : nat * Z) (s : pid -> ST) : Prop :=
    jinv (fun i => s_j G (s i)) /\ arith_shared U (fun i => s_mac G (s i)) r /\
    (exists vs, RL (auth_shared U r) (fun i => s_vq G (s i)) vs) /\
    prec_inv (fst g) (fun i => s_prec G (s i)) /\ pool_inv (snd g) (fun i => s_tb G (s i)).
  Definition frame (s s' : pid -> ST) : Prop :=
    forall i, s_mac G (s' i) = s_mac G (s i) /\ s_vq G (s' i) = s_vq G (s i) /\ s_prec G (s' i) = s_prec G (s i) /\ s_tb G (s' i) = s_tb G (s i).
  Lemma frame_refl s : frame s s. Proof using Type. intros i. auto. Qed.
  Lemma frame_trans s1 s2 s3 : frame s1 s2 -> frame s2 s3 -> frame s1 s3.
  Proof using Type. intros A B i. destruct (A i) as (A1 & A2 & A3 & A4), (B i) as (B1 & B2 & B3 & B4). repeat split; congruence. Qed.

  Lemma on_j_raw {A} (p : pid -> M (jst G) A) (s : pid -> ST) Q : jinv (fun i => s_j G (s i)) ->
    wpM p (fun i => s_j G (s i)) (fun j a => jinv j /\ Q a) ->
    wpM (fun i => on_j G (p i)) s (fun s' a => jinv (fun i => s_j G (s' i)) /\ frame s s' /\ Q a).
  Proof using Type.
    intros Hj Hw. unfold on_j. apply wpM_zoom. eapply wpM_mono; [|exact Hw]. intros j a [Hj' Ha].
    split; [exact Hj'|]. split; [|exact Ha]. intros i. cbn. auto.
  Qed.
  Lemma on_aby_raw {A} (p : pid -> M (prf G) A) (s : pid -> ST) Q : jinv (fun i => s_j G (s i)) ->
    wpM p (fun i => j_prf G (s_j G (s i))) (fun f a => prf_synced f /\ Q a) ->
    wpM (fun i => on_aby G (p i)) s (fun s' a => jinv (fun i => s_j G (s' i)) /\ frame s s' /\ Q a).
  Proof using Type.
    intros Hj Hw. unfold on_aby. apply (on_j_raw (fun i => on_prf G (p i))); [exact Hj|].
    apply (on_prf_ok G p (fun i => s_j G (s i)) Q Hj Hw).
  Qed.
  Lemma inv_frame g s s' : spdz_inv g s -> jinv (fun i => s_j G (s' i)) -> frame s s' -> spdz_inv g s'.
  Proof using Type.
    intros (H1 & H2 & (vs & H3) & H4 & H5) Hj HF. split; [exact Hj|]. split; [|split; [|split]].
    - eapply arel_ext; [|exact H2]. intros i. symmetry. apply HF.
    - exists vs. eapply RL_ext; [|exact H3]. intros i. symmetry. apply HF.
    - destruct H4 as [H4 H4']. split; [intros i; rewrite (proj1 (proj2 (proj2 (HF i)))); apply H4|].
      eapply words_ext3; [..|exact H4']; intros i; rewrite (proj1 (proj2 (proj2 (HF i)))); reflexivity.
    - assert (E : forall i, s_tb G (s' i) = s_tb G (s i)) by (intros i; apply HF).
      destruct H5 as (B1 & B2 & a & b & B3 & B4 & B5 & B6 & B7). split; [exact B1|]. split; [intros i; rewrite E; apply B2|].
      exists a, b. split; [exact B3|]. split; [exact B4|].
      split; [|split]; (eapply pcomp_ext; [|eassumption]); intros i; rewrite E; reflexivity.
  Qed.
  Lemma on_j_ok {A} (p : pid -> M (jst G) A) g (s : pid -> ST) Q : spdz_inv g s ->
    wpM p (fun i => s_j G (s i)) (fun j a => jinv j /\ Q a) ->
    wpM (fun i => on_j G (p i)) s (fun s' a => spdz_inv g s' /\ frame s s' /\ Q a).
  Proof using Type.
    intros Hs Hw. eapply wpM_mono; [|apply (on_j_raw p s Q); [apply Hs|exact Hw]].
    cbn beta. intros s' a (Hj & HF & HQ). split; [eapply inv_frame; eassumption|auto].
  Qed.
  Lemma on_aby_ok {A} (p : pid -> M (prf G) A) g (s : pid -> ST) Q : spdz_inv g s ->
    (prf_synced (fun i => j_prf G (s_j G (s i))) -> wpM p (fun i => j_prf G (s_j G (s i))) (fun f a => prf_synced f /\ Q a)) ->
    wpM (fun i => on_aby G (p i)) s (fun s' a => spdz_inv g s' /\ frame s s' /\ Q a).
  Proof using Type.
    intros Hs Hw. eapply wpM_mono; [|apply (on_aby_raw p s Q); [apply Hs|apply Hw; apply Hs]].
    cbn beta. intros s' a (Hj & HF & HQ). split; [eapply inv_frame; eassumption|auto].
  Qed.

  (** *** Shuffling *)
  Lemma permute_ok n A B C g s : spdz_inv g s -> words_shared n A B C ->
    wpM (fun i => permute G i (A i) (B i) (C i)) s (fun s' R => spdz_inv g s' /\ frame s s' /\
      words_shared n (fun i => col1 (R i)) (fun i => col2 (R i)) (fun i => col3 (R i))).
  Proof using Type.
    intros Hs HW. unfold permute.
    apply (wpM_ext (fun i => bindM (on_j G (coin G i)) (fun seed => retM (shuffle G (rseed G seed) (A i) (B i) (C i))))).
    { intros i. destruct (words_len _ _ _ _ HW i) as (-> & -> & ->). rewrite Nat.eqb_refl. reflexivity. }
    wbind. eapply wpM_mono; [|apply (on_j_ok (fun i => coin G i) g s (fun c => exists d, forall i, c i = d) Hs)].
    - intros s1 c (Hs1 & HF & d & Hd). apply wpM_ret. split; [exact Hs1|]. split; [exact HF|].
      eapply words_ext3; [..|apply (shuffle_ok G n A B C (rseed G d) HW)]; intros i; rewrite Hd; reflexivity.
    - eapply wpM_mono; [|apply coin_ok; apply Hs]. cbn beta. intros j c (Hj & d & _ & Hd). split; [exact Hj|]. eexists. exact Hd.
  Qed.

  (** *** Opening binary words *)
  Lemma open_bin_many_ok K X xs g s : In K widths -> spdz_inv g s -> RL (bin_shared K) X xs ->
    wpM (fun i => open_bin_many G i K (X i)) s (fun s' v => spdz_inv g s' /\ frame s s' /\ forall i, v i = xs).
  Proof using Type.
    intros HK Hs HX. unfold open_bin_many. destruct (brel_cols _ _ _ HX) as (C1 & C2 & C3). wbind.
    eapply wpM_mono; [|apply (on_j_ok _ g s (fun v => forall i, v i = map sb (X (prev i))) Hs)].
    - intros s1 v (Hs1 & HF & Hv). apply wpM_ret. split; [exact Hs1|]. split; [exact HF|]. intros i. rewrite Hv. apply (open_cols_b K), HX.
    - apply wpM_lift. apply (wp_sar_iter K (fun i => map sb (X i)) (length xs) _ HK).
      + intros i. rewrite C2. apply C1.
      + intros i. rewrite map_length. apply C3.
      + split; [apply Hs|]. reflexivity.
  Qed.
  Lemma jmp_open_bin_many_ok K X xs g s : In K widths -> spdz_inv g s -> RL (bin_shared K) X xs ->
    wpM (fun i => jmp_open_bin_many G H i K (X i)) s (fun s' v => spdz_inv g s' /\ frame s s' /\ forall i, v i = xs).
  Proof using Type.
    intros HK Hs HX. unfold jmp_open_bin_many. wbind.
    eapply wpM_mono; [|apply (on_j_ok _ g s (fun v => forall i, v i = xs) Hs); apply reconstruct_binary_many_ok; [exact HK|exact HX|apply Hs]].
    intros s1 v (Hs1 & HF & Hv). wbind.
    eapply wpM_mono; [|apply (on_j_ok (fun i => jmp_verify G H i) g s1 (fun _ => True) Hs1); eapply wpM_mono; [|apply jmp_verify_ok, Hs1]].
    - cbn beta. intros s2 ? (Hs2 & HF2 & _). apply wpM_ret. split; [exact Hs2|]. split; [eapply frame_trans; eassumption|exact Hv].
    - cbn beta. intros j ? [Hj _]. auto.
  Qed.

  (** *** The zero check for binary sharings *)
  Lemma bin_zero_bytes_eq X : bin_shared 128 X 0 ->
    forall i, bin_zero_bytes i (X i) = hash_bytes 128 (sa (X P0)) ++ hash_bytes 128 (sa (X P1)) ++ hash_bytes 128 (sa (X P2)).
  Proof using Type.
    intros (A1 & A2 & A3).
    assert (E : forall a b c, Z.lxor (Z.lxor a b) c = 0 -> rxor a b = c) by (intros a b c E; apply Z.lxor_eq; exact E).
    intros i. unfold bin_zero_bytes. destruct i; rewrite A2; cbn [prev]; symmetry in A3.
    - rewrite (E (sa (X P0)) (sa (X P2)) (sa (X P1))); [reflexivity|]. rewrite <- A3. bitsolve.
    - rewrite (E (sa (X P1)) (sa (X P0)) (sa (X P2))); [reflexivity|]. rewrite <- A3. bitsolve.
    - rewrite (E (sa (X P2)) (sa (X P1)) (sa (X P0))); [reflexivity|]. rewrite <- A3. bitsolve.
  Qed.
  Lemma bin_zero_verify_ok W zs (s : pid -> jst G) : RL (bin_shared 128) W zs -> Forall (fun z => z = 0) zs -> jinv s ->
    wpM (fun i => bin_zero_verify G H i (W i)) s (fun s' _ => jinv s').
  Proof using Type.
    intros HW Hz Hs. unfold bin_zero_verify.
    assert (E : exists d, forall i, flat_map (bin_zero_bytes i) (W i) = d).
    { clear Hs. induction HW as [X HX|X Y X0 y ys HX HY HR IH].
      - exists []. intros i. rewrite HX. reflexivity.
      - inversion Hz as [|? ? Hy Hys]; subst. destruct (IH Hys) as [d Hd].
        eexists. intros i. rewrite HX. cbn [flat_map]. rewrite (bin_zero_bytes_eq Y HY), Hd. reflexivity. }
    destruct E as [d Hd]. wbind. apply wpM_get. wbind. apply (wpM_put s (fun i => j_hashed G [flat_map (bin_zero_bytes i) (W i)] (s i))). wbind. apply wpM_lift.
    apply (wp_broadcast (fun i => hfun H (flat_map (bin_zero_bytes i) (W i)))).
    apply (wpM_ext (fun _ => retM tt)).
    { intros i. rewrite !Hd. unfold index. cbn. rewrite bytes_eqb_refl. reflexivity. }
    apply wpM_ret. exact Hs.
  Qed.

  (** *** Verifying triples against triples *)
  Lemma verify_triples_ok n A B C X Y W g s : spdz_inv g s -> words_shared n A B C -> words_shared n X Y W ->
    wpM (fun i => verify_triples G H i (A i) (B i) (C i) (X i) (Y i) (W i)) s (fun s' _ => spdz_inv g s' /\ frame s s').
  Proof using Type.
    intros Hs (a & b & La & Lb & HA & HB & HC) (x & y & Lx & Ly & HX & HY & HWc). unfold verify_triples.
    assert (HP : RL (bin_shared 128) (fun i => map2 (fun a x => sh_xor x a) (A i) (X i) ++ map2 (fun b y => sh_xor y b) (B i) (Y i))
                   (map2 (fun a x => Z.lxor x a) a x ++ map2 (fun b y => Z.lxor y b) b y)).
    { apply RL_app.
      - apply (RL_map2 (bin_shared 128) (bin_shared 128) (bin_shared 128) (fun _ a x => sh_xor x a) (fun a x => Z.lxor x a)); auto.
        intros; apply sh_xor_ok; auto; lia.
      - apply (RL_map2 (bin_shared 128) (bin_shared 128) (bin_shared 128) (fun _ b y => sh_xor y b) (fun b y => Z.lxor y b)); auto.
        intros; apply sh_xor_ok; auto; lia. }
    wbind. eapply wpM_mono; [|apply (jmp_open_bin_many_ok 128 _ _ g s in128 Hs HP)].
    intros s1 pq (Hs1 & HF & Hpq). cbn beta zeta.
    set (p := map2 (fun a x => Z.lxor x a) a x) in *. set (q := map2 (fun b y => Z.lxor y b) b y) in *.
    assert (Lp : length p = n) by (unfold p; rewrite map2_length_min; lia). assert (Lq : length q = n) by (unfold q; rewrite map2_length_min; lia).
    assert (Fx : forall u v, Forall (inr 128) u -> Forall (inr 128) v -> Forall (inr 128) (map2 (fun a x => Z.lxor x a) u v)).
    { intros u v Hu. revert v. induction Hu as [|w u Hw Hu IH]; intros [|w' v] Hv; cbn; constructor; inversion Hv; subst; [apply inr_lxor; auto; lia|auto]. }
    assert (BF : forall X0 l, RL (bin_shared 128) X0 l -> Forall (inr 128) l) by (intros X0 l Hl; apply (brel_Forall 128 X0); apply RL_brel; [exact in128|exact Hl]).
    assert (Fp : Forall (inr 128) p) by (apply Fx; eapply BF; eassumption). assert (Fq : Forall (inr 128) q) by (apply Fx; eapply BF; eassumption).
    eapply wpM_mono; [|apply (on_j_ok _ g s1 (fun _ => True) Hs1);
      eapply wpM_mono; [|apply (bin_zero_verify_ok _
        (map2 (fun cab zpq => Z.lxor (Z.lxor (Z.lxor (Z.lxor (fst zpq) (fst cab)) (Z.land (fst (snd cab)) (snd (snd zpq)))) (Z.land (snd (snd cab)) (fst (snd zpq)))) (Z.land (fst (snd zpq)) (snd (snd zpq))))
           (combine (map2 Z.land a b) (combine a b)) (combine (map2 Z.land x y) (combine p q))) (fun i => s_j G (s1 i)))]].
    - cbn beta. intros s2 ? (Hs2 & HF2 & _). split; [exact Hs2|]. eapply frame_trans; eassumption.
    - cbn beta. intros j ? Hj. auto.
    - pose proof (RL_combine _ _ _ _ _ _ HC (RL_combine _ _ _ _ _ _ HA HB)) as HL.
      assert (Ep : forall i, firstn (length (A i)) (pq i) = p). { intros i. rewrite Hpq, (RL_length _ _ _ HA), La, <- Lp. apply firstn_length_app. }
      assert (Eq : forall i, skipn (length (A i)) (pq i) = q). { intros i. rewrite Hpq, (RL_length _ _ _ HA), La, <- Lp. apply skipn_length_app. }
      assert (HPp : RL (fun V v => public V v /\ inr 128 v) (fun i => firstn (length (A i)) (pq i)) p).
      { apply (RL_ext _ (fun _ => p)); [intros i; symmetry; apply Ep|]. clear -Fp. induction Fp as [|x0 l0 Hx0 Fl IHl]; [apply RL_nil'|]. apply (RL_cons' _ (fun _ => x0)); [split; [intros i; reflexivity|assumption]|assumption]. }
      assert (HPq : RL (fun V v => public V v /\ inr 128 v) (fun i => skipn (length (A i)) (pq i)) q).
      { apply (RL_ext _ (fun _ => q)); [intros i; symmetry; apply Eq|]. clear -Fq. induction Fq as [|x0 l0 Hx0 Fl IHl]; [apply RL_nil'|]. apply (RL_cons' _ (fun _ => x0)); [split; [intros i; reflexivity|assumption]|assumption]. }
      pose proof (RL_combine _ _ _ _ _ _ HWc (RL_combine _ _ _ _ _ _ HPp HPq)) as HR.
      eapply (RL_map2 _ _ (bin_shared 128) (fun i cab zpq => and_triple_check i (fst (snd cab)) (snd (snd cab)) (fst cab) (fst zpq) (fst (snd zpq)) (snd (snd zpq)))) with (2 := HL) (3 := HR).
      intros V v V' v' (V1 & V2 & V3) (V1' & (V2' & V2r) & (V3' & V3r)). unfold and_triple_check.
      eapply brel_ext; [|apply (sh_xor_const_ok 128 ltac:(lia) (fun i => sh_xor (sh_xor (sh_xor (fst (V' i)) (fst (V i))) (sh_andc (fst (snd (V i))) (snd (snd v')))) (sh_andc (snd (snd (V i))) (fst (snd v'))))
         _ (Z.land (fst (snd v')) (snd (snd v'))))].
      + intros i. cbn beta. rewrite V2', V3'. reflexivity.
      + apply inr_land; auto; lia.
      + apply sh_xor_ok; [lia| |]. { apply sh_xor_ok; [lia| |]. { apply sh_xor_ok; [lia|assumption|assumption]. } apply sh_andc_ok; [lia|assumption|assumption]. }
        apply sh_andc_ok; [lia|assumption|assumption].
    - unfold p, q. clear -La Lb Lx Ly. revert a b x y La Lb Lx Ly. induction n as [|n IH]; intros [|a0 a] [|b0 b] [|x0 x] [|y0 y] La Lb Lx Ly; try discriminate; [constructor|].
      cbn [map2 combine]. constructor; [|apply IH; cbn in *; lia]. cbn [fst snd].
      apply Z.bits_inj'. intros k Hk. rewrite Z.bits_0. repeat (rewrite Z.lxor_spec || rewrite Z.land_spec).
      destruct (Z.testbit a0 k), (Z.testbit b0 k), (Z.testbit x0 k), (Z.testbit y0 k); reflexivity.
    - apply Hs1.
  Qed.
  (** *** Generating triples *)
  Lemma gen_bin_many_ok n g s : spdz_inv g s ->
    wpM (fun _ => on_aby G (mapM (fun _ => gen_rand G 128) (repeat tt n))) s
      (fun s' W => spdz_inv g s' /\ frame s s' /\ exists rs, length rs = n /\ RL (bin_shared 128) W rs).
  Proof using Type.
    intros Hs. apply (on_aby_ok (fun _ => mapM (fun _ => gen_rand G 128) (repeat tt n)) g s (fun W => exists rs, length rs = n /\ RL (bin_shared 128) W rs) Hs).
    intros Hp.
    eapply wpM_mono; [|apply (wpM_mapM prf_synced (fun (_ : pid -> unit) (_ : unit) => True)
       (fun Y (_ : unit) => exists r, bin_shared 128 Y r /\ True) (fun _ _ => gen_rand G 128) (fun _ => tt)) with
       (X := fun _ => repeat tt n) (ys := repeat tt n)].
    - intros s' W [Hs' HW]. split; [exact Hs'|]. destruct (RL_exists _ (fun _ _ => True) _ _ HW) as (zs & Hz & HF).
      exists zs. split; [|exact Hz]. rewrite (Forall2_len _ _ _ HF), map_length, repeat_length. reflexivity.
    - intros s0 Y y Hs0 _. eapply wpM_mono; [|apply gen_rand_bin_ok; [lia|exact Hs0]].
      intros s' W (Hs' & r' & Hr). split; [exact Hs'|]. exists r'. auto.
    - exact Hp.
    - apply (RL_repeat (fun _ _ => True) (fun _ => tt) tt). exact Logic.I.
  Qed.
  Lemma aby_and_many_ok K X xs Y ys g s : In K widths -> spdz_inv g s -> RL (bin_shared K) X xs -> RL (bin_shared K) Y ys -> length xs = length ys ->
    wpM (fun i => on_aby G (and_many G i K (X i) (Y i))) s (fun s' W => spdz_inv g s' /\ frame s s' /\ RL (bin_shared K) W (map2 Z.land xs ys)).
  Proof using Type. intros HK Hs HX HY HL. apply on_aby_ok; [exact Hs|]. intros Hp. apply and_many_ok; assumption. Qed.

  Lemma generate_triples_ok num g s : spdz_inv g s ->
    wpM (fun i => generate_triples G H i num) s (fun s' T => spdz_inv g s' /\ frame s s' /\
      prec_inv (Nat.max num min_batch) T).
  Proof using Type.
    intros Hs. unfold generate_triples. set (n := Nat.max num min_batch). clearbody n. clear num.
    wbind. eapply wpM_mono; [|apply gen_bin_many_ok, Hs]. intros s1 A (Hs1 & F1 & a & La & HA).
    wbind. eapply wpM_mono; [|apply gen_bin_many_ok, Hs1]. intros s2 B (Hs2 & F2 & b & Lb & HB).
    wbind. eapply wpM_mono; [|apply (aby_and_many_ok 128 A a B b (fst g, snd g) s2 in128); [destruct g; exact Hs2|assumption|assumption|congruence]].
    intros s3 C (Hs3 & F3 & HC). replace (fst g, snd g) with g in Hs3 by (destruct g; reflexivity).
    assert (HW : words_shared (2 * n + 1) A B C) by (exists a, b; auto).
    pose proof (words_skipn (2 * n + 1) n _ _ _ ltac:(lia) HW) as HW2. pose proof (words_firstn (2 * n + 1) n _ _ _ ltac:(lia) HW) as HW1.
    replace (2 * n + 1 - n)%nat with (S n) in HW2 by lia.
    wbind. eapply wpM_mono; [|apply (permute_ok (S n) _ _ _ g s3 Hs3 HW2)]. cbn beta. intros s4 R (Hs4 & F4 & x & y & Lx & Ly & HX & HY & HZ).
    destruct (snoc_cases x) as [->|(x' & x0 & ->)]; [discriminate|]. destruct (snoc_cases y) as [->|(y' & y0 & ->)]; [discriminate|].
    rewrite app_length in Lx, Ly. cbn in Lx, Ly. rewrite map2_app in HZ by lia. cbn [map2] in HZ.
    destruct (RL_inv_snoc _ _ _ _ HX) as (X' & X0 & EX & HX' & HX0). destruct (RL_inv_snoc _ _ _ _ HY) as (Y' & Y0 & EY & HY' & HY0).
    destruct (RL_inv_snoc _ _ _ _ HZ) as (Z' & Z0 & EZ & HZ' & HZ0).
    assert (PS : forall {A} (l : list A) u, pop (l ++ [u]) = Ok (l, u)).
    { intros T l u. unfold pop. rewrite rev_app_distr. cbn [rev app]. rewrite rev_involutive. reflexivity. }
    apply (wpM_ext (fun i => bindM (resM (pop (col1 (R i)))) (fun x => bindM (resM (pop (col2 (R i)))) (fun y => bindM (resM (pop (col3 (R i)))) (fun z =>
      bindM (open_bin_many G i 128 [snd x; snd y; snd z]) (fun opened => bindM (resM (index opened 0)) (fun o0 => bindM (resM (index opened 1)) (fun o1 => bindM (resM (index opened 2)) (fun o2 =>
      if negb (rand_ o0 o1 =? o2) then failM EVerify
      else bindM (verify_triples G H i (firstn n (A i)) (firstn n (B i)) (firstn n (C i)) (fst x) (fst y) (fst z)) (fun _ => retM (triples_new (firstn n (A i)) (firstn n (B i)) (firstn n (C i))))))))))))).
    { intros i. destruct (R i) as [[? ?] ?]. reflexivity. }
    wbind. apply (wpM_res _ (fun i => (X' i, X0 i))). { intros i. rewrite EX. apply PS. }
    wbind. apply (wpM_res _ (fun i => (Y' i, Y0 i))). { intros i. rewrite EY. apply PS. }
    wbind. apply (wpM_res _ (fun i => (Z' i, Z0 i))). { intros i. rewrite EZ. apply PS. }
    cbn [fst snd].
    wbind. eapply wpM_mono; [|apply (open_bin_many_ok 128 (fun i => [X0 i; Y0 i; Z0 i]) [x0; y0; Z.land x0 y0] g s4 in128 Hs4);
      repeat (apply RL_cons'; [assumption|]); apply RL_nil'].
    intros s5 v (Hs5 & F5 & Hv).
    wbind. apply (wpM_res _ (fun _ => x0)). { intros i. rewrite Hv. reflexivity. }
    wbind. apply (wpM_res _ (fun _ => y0)). { intros i. rewrite Hv. reflexivity. }
    wbind. apply (wpM_res _ (fun _ => Z.land x0 y0)). { intros i. rewrite Hv. reflexivity. }
    unfold rand_. rewrite Z.eqb_refl. cbn [negb].
    wbind. eapply wpM_mono; [|apply (verify_triples_ok n _ _ _ X' Y' Z' g s5 Hs5 HW1)].
    - intros s6 ? (Hs6 & F6). apply wpM_ret. split; [exact Hs6|]. split.
      + repeat (eapply frame_trans; [eassumption|]). apply frame_refl.
      + split; [reflexivity|]. exact HW1.
    - exists x', y'. split; [lia|]. split; [lia|]. auto.
  Qed.

  (** *** The pool of precomputed triples *)
  Lemma prec_len n T : prec_inv n T -> forall i, t_len (T i) = n.
  Proof using Type. intros [_ HW] i. apply (words_len _ _ _ _ HW). Qed.
  Definition g_pre (amount : Z) (g : nat * Z) : nat * Z :=
    let amount := Z.to_nat ((amount + 127) / 128) in
    if Nat.leb (fst g) amount then ((fst g + Nat.max (amount - fst g) min_batch)%nat, snd g) else g.
  Lemma precompute_ok amount g s : spdz_inv g s ->
    wpM (fun i => precompute_and_triples G H i amount) s (fun s' _ => spdz_inv (g_pre amount g) s').
  Proof using Type.
    intros Hs. unfold precompute_and_triples. wbind. apply wpM_get.
    assert (EL : forall i, t_len (s_prec G (s i)) = fst g) by (apply prec_len, Hs).
    unfold g_pre. set (am := Z.to_nat ((amount + 127) / 128)). cbv zeta.
    destruct (Nat.leb (fst g) am) eqn:EC.
    - apply (wpM_ext (fun i => bindM (generate_triples G H i (am - fst g)) (fun t => bindM getM (fun s => bindM (resM (t_extend (s_prec G s) t)) (fun prec =>
        putM (SSt G (s_j G s) (s_mac G s) (s_vq G s) prec (s_tb G s))))))).
      { intros i. rewrite EL, EC. reflexivity. }
      wbind. eapply wpM_mono; [|apply generate_triples_ok, Hs]. intros s1 T (Hs1 & F1 & HT1 & HT2).
      wbind. apply wpM_get. wbind.
      apply (wpM_res _ (fun i => Triples (t_a (s_prec G (s1 i)) ++ t_a (T i)) (t_b (s_prec G (s1 i)) ++ t_b (T i)) (t_c (s_prec G (s1 i)) ++ t_c (T i)) (t_bits (s_prec G (s1 i))))).
      { intros i. unfold t_extend. rewrite HT1. reflexivity. }
      apply (wpM_put s1 (fun i => SSt G (s_j G (s1 i)) (s_mac G (s1 i)) (s_vq G (s1 i)) (Triples (t_a (s_prec G (s1 i)) ++ t_a (T i)) (t_b (s_prec G (s1 i)) ++ t_b (T i)) (t_c (s_prec G (s1 i)) ++ t_c (T i)) (t_bits (s_prec G (s1 i)))) (s_tb G (s1 i)))).
      destruct Hs1 as (J1 & J2 & J3 & (J4 & J4') & J5). split; [exact J1|]. split; [exact J2|]. split; [exact J3|]. split; [|exact J5].
      split; [exact J4|]. cbn [fst s_prec t_a t_b t_c]. apply words_app; assumption.
    - apply (wpM_ext (fun i => retM tt)); [intros i; rewrite EL, EC; reflexivity|]. apply wpM_ret. exact Hs.
  Qed.

  Definition gates_words (g : Z) : nat := Z.to_nat (words_of g).
  Definition queue_ok (g : nat * Z) : Prop := snd g = 0 \/ (Nat.max (gates_words (snd g)) min_batch <= fst g)%nat.
  Definition g_verq (g : nat * Z) : nat * Z := if snd g =? 0 then g else ((fst g - Nat.max (gates_words (snd g)) min_batch)%nat, 0).
  Lemma pool_words g T : pool_inv g T -> words_shared (gates_words g) (fun i => t_a (T i)) (fun i => t_b (T i)) (fun i => t_c (T i)).
  Proof using Type. intros (B1 & B2 & a & b & B3 & B4 & [B5 _] & [B6 _] & [B7 _]). unfold gates_words. rewrite <- B3, Nat2Z.id. exists a, b. auto. Qed.
  Lemma pool0 : pool_inv 0 (fun _ => triples0).
  Proof using Type.
    split; [lia|]. split; [reflexivity|]. exists [], []. cbn. repeat (split; [reflexivity|]).
    unfold pcomp. repeat split; try apply RL_nil'; cbn; lia.
  Qed.
  Lemma verify_queue_ok g s : spdz_inv g s -> queue_ok g ->
    wpM (fun i => verify_triple_queue G H i) s (fun s' _ => spdz_inv (g_verq g) s').
  Proof using Type.
    intros Hs Hq. unfold verify_triple_queue, g_verq. wbind. apply wpM_get.
    pose proof (pool_words _ _ (proj2 (proj2 (proj2 (proj2 Hs))))) as HP.
    assert (EL : forall i, t_len (s_tb G (s i)) = gates_words (snd g)) by (intros i; apply (words_len _ _ _ _ HP)).
    assert (Hg0 : 0 <= snd g) by apply Hs.
    destruct (Z.eqb_spec (snd g) 0) as [E0|E0].
    { apply (wpM_ext (fun i => retM tt)); [|apply wpM_ret; exact Hs]. intros i. cbv zeta. rewrite EL, E0. reflexivity. }
    assert (Hn : (0 < gates_words (snd g))%nat) by (unfold gates_words, words_of; lia).
    destruct Hq as [Hq|Hq]; [congruence|]. set (len := gates_words (snd g)) in *. set (n := Nat.max len min_batch) in *.
    destruct Hs as (J1 & J2 & J3 & (J4 & J4') & J5).
    apply (wpM_ext (fun i => bindM (putM (SSt G (s_j G (s i)) (s_mac G (s i)) (s_vq G (s i)) (s_prec G (s i)) triples0)) (fun _ =>
      bindM (resM (t_get (s_prec G (s i)) n)) (fun r => let '(prec, (x, y, z)) := r in
      bindM (putM (SSt G (s_j G (s i)) (s_mac G (s i)) (s_vq G (s i)) prec triples0)) (fun _ =>
      bindM (permute G i x y z) (fun xyz => let '(x, y, z) := xyz in
      verify_triples G H i (t_a (s_tb G (s i))) (t_b (s_tb G (s i))) (t_c (s_tb G (s i))) (firstn len x) (firstn len y) (firstn len z))))))).
    { intros i. cbv zeta. rewrite EL. replace (Nat.eqb len 0) with false by lia. reflexivity. }
    wbind. apply (wpM_put s (fun i => SSt G (s_j G (s i)) (s_mac G (s i)) (s_vq G (s i)) (s_prec G (s i)) triples0)).
    assert (LP : forall i, t_len (s_prec G (s i)) = fst g) by (intros i; apply (words_len _ _ _ _ J4')).
    wbind. apply (wpM_res _ (fun i => (Triples (skipn n (t_a (s_prec G (s i)))) (skipn n (t_b (s_prec G (s i)))) (skipn n (t_c (s_prec G (s i)))) 128,
           (firstn n (t_a (s_prec G (s i))), firstn n (t_b (s_prec G (s i))), firstn n (t_c (s_prec G (s i))))))).
    { intros i. unfold t_get. rewrite LP. replace (Nat.ltb (fst g) n) with false by lia. reflexivity. }
    cbn beta iota.
    set (s2 := fun i => SSt G (s_j G (s i)) (s_mac G (s i)) (s_vq G (s i)) (Triples (skipn n (t_a (s_prec G (s i)))) (skipn n (t_b (s_prec G (s i)))) (skipn n (t_c (s_prec G (s i)))) 128) triples0).
    wbind. apply (wpM_put _ s2).
    assert (Hs2 : spdz_inv ((fst g - n)%nat, 0) s2).
    { split; [exact J1|]. split; [exact J2|]. split; [exact J3|]. split; [|exact pool0]. split; [reflexivity|].
      cbn [fst s2 s_prec t_a t_b t_c]. apply words_skipn; assumption. }
    wbind. eapply wpM_mono; [|apply (permute_ok n _ _ _ _ s2 Hs2 (words_firstn _ n _ _ _ Hq J4'))].
    cbn beta. intros s3 R (Hs3 & F3 & HR).
    apply (wpM_ext (fun i => verify_triples G H i (t_a (s_tb G (s i))) (t_b (s_tb G (s i))) (t_c (s_tb G (s i))) (firstn len (col1 (R i))) (firstn len (col2 (R i))) (firstn len (col3 (R i))))).
    { intros i. destruct (R i) as [[? ?] ?]. reflexivity. }
    eapply wpM_mono; [|apply (verify_triples_ok len _ _ _ _ _ _ _ s3 Hs3 HP); apply (words_firstn n); [lia|exact HR]].
    cbn beta. intros s4 ? [Hs4 _]. exact Hs4.
  Qed.
End Spdz.
