(** Honest runs of joint message passing, coins, the hash-based zero check and reconstruction. *)
From Verif Require Import Base Ring RingProofs Prog Sched Conc Rng Rel Net BitArith Aby3 ShareSpec Aby3Proofs Jmp.
From Coq Require Import ZifyBool ZifyNat.

Ltac wbind := lazymatch goal with |- wpM (fun i => bindM (@?P i) (@?F i)) ?s ?Q => apply (wpM_bind P F s Q) end.

Lemma bytes_eqb_refl l : bytes_eqb l l = true.
Proof. induction l as [|x l IH]; [reflexivity|]. cbn. rewrite Z.eqb_refl. exact IH. Qed.
Lemma bytes_eqb_spec a b : bytes_eqb a b = true <-> a = b.
Proof.
  split; [|intros ->; apply bytes_eqb_refl]. revert b.
  induction a as [|x a IH]; intros [|y b] H; cbn in H; try discriminate; [reflexivity|].
  apply andb_true_iff in H. destruct H as [H1 H2]. apply Z.eqb_eq in H1. rewrite H1, (IH _ H2). reflexivity.
Qed.

Lemma wpM_zoom {S T A} (get : T -> S) (set : T -> S -> T) (p : pid -> M S A) (s : pid -> T) Q :
  wpM p (fun i => get (s i)) (fun s' a => Q (fun i => set (s i) (s' i)) a) -> wpM (fun i => zoom get set (p i)) s Q.
Proof.
  intros H. unfold wpM, zoom in *. apply wp_bind. eapply wp_mono; [|exact H].
  intros R HQ. apply wp_ret. exact HQ.
Qed.

Lemma wp_broadcast (d : pid -> msg) (Q : (pid -> list msg) -> Prop) :
  Q (fun _ => [d P0; d P1; d P2]) -> wp (fun i => broadcast i (d i)) Q.
Proof.
  intros HQ. apply wp_cwp. unfold broadcast. cbn [send_all recv_all pid_eqb bind]. crun. cbn [bind].
  eapply cwp_ret; [..|exact HQ]; reflexivity.
Qed.

Section Proofs.
  Variable G : rng.
  Variable H : hasher.
  Notation ST := (jst G).

  (** In an honest run: generators in lock step, and what i has received from its predecessor is what
      its successor has buffered. *)
  Definition jmp_inv (s : pid -> ST) : Prop :=
    prf_synced (fun i => j_prf G (s i)) /\ forall i, j_rcv G (s i) = j_snd G (s (next i)).

  Lemma on_prf_ok {A} (p : pid -> M (prf G) A) s Q : jmp_inv s ->
    wpM p (fun i => j_prf G (s i)) (fun s' a => prf_synced s' /\ Q a) ->
    wpM (fun i => on_prf G (p i)) s (fun s' a => jmp_inv s' /\ Q a).
  Proof.
    intros [Hp Hq] Hw. unfold on_prf. apply wpM_zoom. eapply wpM_mono; [|exact Hw].
    intros s' a [Hs Ha]. split; [|exact Ha]. split; [exact Hs|]. intros i. cbn. apply Hq.
  Qed.

  Lemma jmp_send_receive_ok K (x y : pid -> Z) s : In K widths -> (forall i, inr K (x i)) ->
    (forall i, x (prev i) = y (next i)) -> jmp_inv s ->
    wpM (fun i => jmp_send_receive G i K (x i) (y i)) s (fun s' v => jmp_inv s' /\ forall i, v i = x (prev i)).
  Proof.
    intros HK Hx Hxy [Hp Hq]. unfold jmp_send_receive. wbind. unfold jmp_buffer. wbind. apply wpM_get.
    apply (wpM_put s (fun i => JSt G (j_prf G (s i)) (add_to_bytes K (y i) (j_snd G (s i))) (j_rcv G (s i)) (j_log G (s i)))).
    set (s1 := fun i => JSt G (j_prf G (s i)) (add_to_bytes K (y i) (j_snd G (s i))) (j_rcv G (s i)) (j_log G (s i))).
    apply (wpM_ext (fun i => bindM (liftM (send_and_receive_value i K (x i))) (fun v =>
       bindM getM (fun s => bindM (putM (JSt G (j_prf G s) (j_snd G s) (add_to_bytes K v (j_rcv G s)) (j_log G s))) (fun _ => retM v))))).
    { intros i. reflexivity. }
    wbind. apply wpM_lift. apply wp_sar_value; auto. wbind. apply wpM_get. wbind.
    apply (wpM_put s1 (fun i => JSt G (j_prf G (s1 i)) (j_snd G (s1 i)) (add_to_bytes K (x (prev i)) (j_rcv G (s1 i))) (j_log G (s1 i)))).
    apply wpM_ret. split; [|reflexivity]. split.
    - exact Hp.
    - intros i. cbn. rewrite Hq, Hxy. reflexivity.
  Qed.

  Lemma jmp_send_receive_many_ok K (x y : pid -> list Z) n s : In K widths -> (forall i, Forall (inr K) (x i)) ->
    (forall i, length (x i) = n) -> (forall i, x (prev i) = y (next i)) -> jmp_inv s ->
    wpM (fun i => jmp_send_receive_many G i K (x i) (y i)) s (fun s' v => jmp_inv s' /\ forall i, v i = x (prev i)).
  Proof.
    intros HK Hx Hn Hxy [Hp Hq]. unfold jmp_send_receive_many. wbind. unfold jmp_buffer_many. wbind. apply wpM_get.
    apply (wpM_put s (fun i => JSt G (j_prf G (s i)) (fold_left (fun out v => add_to_bytes K v out) (y i) (j_snd G (s i))) (j_rcv G (s i)) (j_log G (s i)))).
    set (s1 := fun i => JSt G (j_prf G (s i)) (fold_left (fun out v => add_to_bytes K v out) (y i) (j_snd G (s i))) (j_rcv G (s i)) (j_log G (s i))).
    apply (wpM_ext (fun i => bindM (liftM (send_slice_and_receive_vec i K (x i))) (fun v =>
       bindM getM (fun s => bindM (putM (JSt G (j_prf G s) (j_snd G s) (fold_left (fun out v => add_to_bytes K v out) v (j_rcv G s)) (j_log G s))) (fun _ => retM v))))).
    { intros i. reflexivity. }
    wbind. apply wpM_lift. apply (wp_sar_vec K x n); auto. wbind. apply wpM_get. wbind.
    apply (wpM_put s1 (fun i => JSt G (j_prf G (s1 i)) (j_snd G (s1 i)) (fold_left (fun out v => add_to_bytes K v out) (x (prev i)) (j_rcv G (s1 i))) (j_log G (s1 i)))).
    apply wpM_ret. split; [|reflexivity]. split.
    - exact Hp.
    - intros i. cbn. rewrite Hq, Hxy. reflexivity.
  Qed.

  Lemma jmp_verify_ok s : jmp_inv s ->
    wpM (fun i => jmp_verify G H i) s (fun s' _ => jmp_inv s' /\ forall i, j_snd G (s' i) = [] /\ j_rcv G (s' i) = []).
  Proof.
    intros [Hp Hq]. unfold jmp_verify. wbind. apply wpM_get. wbind.
    apply (wpM_put s (fun i => JSt G (j_prf G (s i)) [] [] (j_log G (s i) ++ [j_snd G (s i); j_rcv G (s i)]))). wbind. apply wpM_lift.
    apply (wp_send_prev_recv_next (fun i => hfun H (j_snd G (s i)))).
    apply (wpM_ext (fun i => retM tt)).
    { intros i. rewrite Hq, bytes_eqb_refl. reflexivity. }
    apply wpM_ret. split; [|auto]. split; [exact Hp|reflexivity].
  Qed.

  (** ** Coins *)
  Lemma draw_bytes_length n (r : rstate G) : length (snd (draw_bytes G n r)) = n.
  Proof.
    revert r. induction n as [|n IH]; intros r; [reflexivity|]. cbn. destruct (draw G 8 r) as [s1 v].
    specialize (IH s1). destruct (draw_bytes G n s1). cbn in *. congruence.
  Qed.
  Lemma draw_bytes_range n (r : rstate G) : Forall (inr 8) (snd (draw_bytes G n r)).
  Proof.
    revert r. induction n as [|n IH]; intros r; [constructor|]. cbn. pose proof (draw_range G 8 r ltac:(lia)) as Hr.
    destruct (draw G 8 r) as [s1 v]. specialize (IH s1). destruct (draw_bytes G n s1). cbn in *. constructor; assumption.
  Qed.
  Lemma gen_rands_seed_ok (s : pid -> prf G) : prf_synced s ->
    wpM (fun _ => gen_rands_seed G) s (fun s' W => prf_synced s' /\
      exists d, (forall i, Forall (inr 8) (d i) /\ length (d i) = 32%nat) /\ forall i, W i = (d i, d (prev i))).
  Proof.
    intros Hs. unfold wpM.
    pose (D := fun i => draw_bytes G 32 (my_prf G (s i))).
    apply (wp_ext (fun i => Ret (Prf G (fst (D i)) (fst (D (prev i))), (snd (D i), snd (D (prev i)))))).
    { intros i. unfold gen_rands_seed, D. rewrite (Hs i).
      destruct (draw_bytes G 32 (my_prf G (s i))), (draw_bytes G 32 (my_prf G (s (prev i)))). reflexivity. }
    apply wp_ret. split.
    - intros i. reflexivity.
    - exists (fun i => snd (D i)). split; [|reflexivity]. intros i. split; [apply draw_bytes_range|apply draw_bytes_length].
  Qed.

  (** The xor of three byte strings, byte by byte. *)
  Definition xor3 (a b c : list Z) : list Z := map2 Z.lxor a (map2 Z.lxor b c).
  Lemma coin_ok s : jmp_inv s ->
    wpM (fun i => coin G i) s (fun s' c => jmp_inv s' /\
      exists d, (forall i, Forall (inr 8) (d i) /\ length (d i) = 32%nat) /\ forall i, c i = xor3 (d P0) (d P1) (d P2)).
  Proof.
    intros Hs. unfold coin. wbind.
    eapply wpM_mono; [|apply (on_prf_ok (fun _ => gen_rands_seed G) s
       (fun W => exists d, (forall i, Forall (inr 8) (d i) /\ length (d i) = 32%nat) /\ forall i, W i = (d i, d (prev i))) Hs);
       apply gen_rands_seed_ok, Hs].
    intros s1 W (Hs1 & d & Hd & HW). wbind.
    eapply wpM_mono; [|apply (jmp_send_receive_many_ok 8 (fun i => snd (W i)) (fun i => fst (W i)) 32 s1); auto].
    - cbn beta. intros s2 v [Hs2 Hv]. apply wpM_ret. split; [exact Hs2|]. exists d. split; [exact Hd|].
      intros i. rewrite Hv, !HW. cbn [fst snd].
      assert (E : forall a b c : list Z, length a = 32%nat -> length b = 32%nat -> length c = 32%nat ->
        map2 (fun s1 s23 => rxor s1 (rxor (snd s23) (fst s23))) a (combine b c) = xor3 a c b).
      { unfold xor3. assert (E0 : forall n (a b c : list Z), length a = n -> length b = n -> length c = n ->
          map2 (fun s1 s23 => rxor s1 (rxor (snd s23) (fst s23))) a (combine b c) = map2 Z.lxor a (map2 Z.lxor c b)).
        { induction n as [|n IH]; intros [|x a] [|y b] [|z c] L1 L2 L3; try discriminate; [reflexivity|].
          cbn. f_equal. apply IH; injection L1; injection L2; injection L3; auto. }
        intros; eapply E0; eassumption. }
      rewrite E by apply Hd.
      assert (C : forall n (a b c : list Z), length a = n -> length b = n -> length c = n -> xor3 a b c = xor3 b c a).
      { unfold xor3. induction n as [|n IH]; intros [|x a] [|y b] [|z c] L1 L2 L3; try discriminate; [reflexivity|].
        cbn. f_equal; [bitsolve|]. apply IH; injection L1; injection L2; injection L3; auto. }
      destruct i; cbn [prev]; rewrite ?(C 32%nat (d P1)), ?(C 32%nat (d P2)) by apply Hd; reflexivity.
    - right; left; reflexivity.
    - intros i. rewrite HW. apply Hd.
    - intros i. rewrite HW. apply Hd.
    - intros i. rewrite !HW. cbn [fst snd]. destruct i; reflexivity.
  Qed.

  (** ** Zero check *)
  Lemma zero_bytes_eq U X : 0 <= U -> arith_shared U X 0 ->
    forall i, zero_bytes i U (X i) = hash_bytes U (sa (X P0)) ++ hash_bytes U (sa (X P1)) ++ hash_bytes U (sa (X P2)).
  Proof.
    intros HU (A1 & A2 & A3).
    assert (E : forall a b c, (a + b + c) mod 2 ^ U = 0 -> inr U a -> rsub U (rneg U b) c = a).
    { intros a b c Hm Ha. transitivity (a mod 2 ^ U); [|apply Z.mod_small, Ha].
      transitivity ((a - (a + b + c)) mod 2 ^ U); [modring|].
      rewrite Zminus_mod, Hm, Z.sub_0_r, Zmod_mod. reflexivity. }
    intros i. unfold zero_bytes. destruct i; rewrite A2; cbn [prev]; symmetry in A3.
    - rewrite (E (sa (X P1)) (sa (X P0)) (sa (X P2))); auto. rewrite <- A3. f_equal. lia.
    - rewrite (E (sa (X P2)) (sa (X P1)) (sa (X P0))); auto. rewrite <- A3. f_equal. lia.
    - rewrite (E (sa (X P0)) (sa (X P2)) (sa (X P1))); auto. rewrite <- A3. f_equal. lia.
  Qed.
  Lemma zero_verify_ok U W zs s : 0 <= U -> RL (arith_shared U) W zs -> Forall (fun z => z = 0) zs -> jmp_inv s ->
    wpM (fun i => zero_verify G H i U (W i)) s (fun s' _ => jmp_inv s').
  Proof.
    intros HU HW Hz Hs. unfold zero_verify.
    assert (E : exists d, forall i, flat_map (zero_bytes i U) (W i) = d).
    { clear Hs. induction HW as [X HX|X Y X0 y ys HX HY HR IH].
      - exists []. intros i. rewrite HX. reflexivity.
      - inversion Hz as [|? ? Hy Hys]; subst. destruct (IH Hys) as [d Hd].
        eexists. intros i. rewrite HX. cbn [flat_map]. rewrite (zero_bytes_eq U Y HU HY), Hd. reflexivity. }
    destruct E as [d Hd]. wbind. apply wpM_get. wbind. apply (wpM_put s (fun i => j_hashed G [flat_map (zero_bytes i U) (W i)] (s i))). wbind. apply wpM_lift. apply (wp_broadcast (fun i => hfun H (flat_map (zero_bytes i U) (W i)))).
    apply (wpM_ext (fun _ => retM tt)).
    { intros i. rewrite !Hd. unfold index. cbn. rewrite bytes_eqb_refl. reflexivity. }
    apply wpM_ret. exact Hs.
  Qed.

  (** ** Reconstruction *)
  Lemma reconstruct_ok K X x s : In K widths -> arith_shared K X x -> jmp_inv s ->
    wpM (fun i => reconstruct G i K (X i)) s (fun s' v => jmp_inv s' /\ forall i, v i = x).
  Proof.
    intros HK (A1 & A2 & A3) Hs. unfold reconstruct. wbind.
    eapply wpM_mono; [|apply (jmp_send_receive_ok K (fun i => sb (X i)) (fun i => sa (X i)) s HK); auto].
    - intros s' v [Hs' Hv]. apply wpM_ret. split; [exact Hs'|]. intros i. rewrite Hv, !A2. subst x.
      destruct i; cbn [prev]; modring.
    - intros i. cbn beta. rewrite A2. apply A1.
    - intros i. cbn beta. rewrite A2. destruct i; reflexivity.
  Qed.
  Lemma arel_cols K X xs : RL (arith_shared K) X xs ->
    (forall i, Forall (inr K) (map sa (X i))) /\ (forall i, map sb (X i) = map sa (X (prev i))) /\ forall i, length (X i) = length xs.
  Proof.
    induction 1 as [X HX|X Y X0 y ys HX (A1 & A2 & _) HR (I1 & I2 & I3)]; (split; [|split]); intros i; rewrite ?HX;
      cbn [map length]; try constructor; rewrite ?A2, ?I2, ?I3; auto.
  Qed.
  Lemma brel_cols K X xs : RL (bin_shared K) X xs ->
    (forall i, Forall (inr K) (map sa (X i))) /\ (forall i, map sb (X i) = map sa (X (prev i))) /\ forall i, length (X i) = length xs.
  Proof.
    induction 1 as [X HX|X Y X0 y ys HX (A1 & A2 & _) HR (I1 & I2 & I3)]; (split; [|split]); intros i; rewrite ?HX;
      cbn [map length]; try constructor; rewrite ?A2, ?I2, ?I3; auto.
  Qed.
  Lemma prev_prev i : prev (prev i) = next i. Proof. destruct i; reflexivity. Qed.
  Lemma open_cols_a K X xs : RL (arith_shared K) X xs -> forall i,
    map2 (fun s c => radd K (radd K c (sa s)) (sb s)) (X i) (map sb (X (prev i))) = xs.
  Proof.
    intros HX i. induction HX as [X HX|X Y X0 y ys HX (A1 & A2 & A3) HR IH]; rewrite !HX; [reflexivity|].
    cbn [map map2]. rewrite IH. f_equal. rewrite !A2, prev_prev. subst y. destruct i; cbn [prev next]; modring.
  Qed.
  Lemma open_cols_b K X xs : RL (bin_shared K) X xs -> forall i,
    map2 (fun s c => rxor (rxor c (sa s)) (sb s)) (X i) (map sb (X (prev i))) = xs.
  Proof.
    intros HX i. induction HX as [X HX|X Y X0 y ys HX (A1 & A2 & A3) HR IH]; rewrite !HX; [reflexivity|].
    cbn [map map2]. rewrite IH. f_equal. rewrite !A2, prev_prev. subst y. unfold rxor. destruct i; cbn [prev next]; bitsolve.
  Qed.
  Lemma reconstruct_many_ok K X xs s : In K widths -> RL (arith_shared K) X xs -> jmp_inv s ->
    wpM (fun i => reconstruct_many G i K (X i)) s (fun s' v => jmp_inv s' /\ forall i, v i = xs).
  Proof.
    intros HK HX Hs. unfold reconstruct_many. destruct (arel_cols _ _ _ HX) as (C1 & C2 & C3). wbind.
    eapply wpM_mono; [|apply (jmp_send_receive_many_ok K (fun i => map sb (X i)) (fun i => map sa (X i)) (length xs) s HK); auto].
    - intros s' v [Hs' Hv]. apply wpM_ret. split; [exact Hs'|]. intros i. rewrite Hv. apply open_cols_a, HX.
    - intros i. cbn beta. rewrite C2. apply C1.
    - intros i. rewrite map_length. apply C3.
    - intros i. cbn beta. rewrite C2, prev_prev. reflexivity.
  Qed.
  Lemma reconstruct_binary_many_ok K X xs s : In K widths -> RL (bin_shared K) X xs -> jmp_inv s ->
    wpM (fun i => reconstruct_binary_many G i K (X i)) s (fun s' v => jmp_inv s' /\ forall i, v i = xs).
  Proof.
    intros HK HX Hs. unfold reconstruct_binary_many. destruct (brel_cols _ _ _ HX) as (C1 & C2 & C3). wbind.
    eapply wpM_mono; [|apply (jmp_send_receive_many_ok K (fun i => map sb (X i)) (fun i => map sa (X i)) (length xs) s HK); auto].
    - intros s' v [Hs' Hv]. apply wpM_ret. split; [exact Hs'|]. intros i. rewrite Hv. apply open_cols_b with (K := K), HX.
    - intros i. cbn beta. rewrite C2. apply C1.
    - intros i. rewrite map_length. apply C3.
    - intros i. cbn beta. rewrite C2, prev_prev. reflexivity.
  Qed.
End Proofs.
