(** The AND-triple check against a malicious party: the whole generation. *)
From Coq Require Import Permutation.
From Verif Require Import Base Ring RingProofs Prog Sched Conc Rng Rel Net BinTrait BitArith BinProofs AddProofs IrisProofs MpcSpec Aby3 ShareSpec Aby3Proofs Aby3Proofs2 SlicedProofs Jmp JmpProofs
  Session SessionProofs Aby3Mal Aby3MalProofs SacrificeProofs SpecProofs Duo DuoProofs PropLemmas5 Spdz TripleSpec TripleProofs TripleProofs2 SpdzProofs SpdzProofs2 MacSpec MacProofs
  TripleMalSpec FyCount TripleMal TripleMalDuo TripleMalMain.
From Coq Require Import ZifyBool ZifyNat.

Definition cols (d : pid -> list Z) (p : pid) : list share := map2 Share (d p) (d (prev p)).
Lemma cols_shared L d : (forall p, length (d p) = L) -> (forall p, Forall (inr 128) (d p)) -> RL (bin_shared 128) (cols d) (xor_all d).
Proof.
  revert d. induction L as [|L IH]; intros d HL HF.
  - assert (E : forall p, d p = []) by (intros p; apply length_zero_iff_nil, HL). unfold xor_all. rewrite !E. cbn [map2].
    eapply RL_ext; [|apply RL_nil']. intros p. unfold cols. rewrite !E. reflexivity.
  - assert (E : forall p, exists x l, d p = x :: l) by (intros p; specialize (HL p); destruct (d p); [discriminate|eauto]).
    set (h := fun p => hd 0 (d p)). set (r := fun p => tl (d p)).
    assert (ED : forall p, d p = h p :: r p) by (intros p; unfold h, r; destruct (E p) as (x & l & ->); reflexivity).
    assert (HF' : forall p, inr 128 (h p) /\ Forall (inr 128) (r p)) by (intros p; specialize (HF p); rewrite ED in HF; inversion HF; auto).
    unfold xor_all. rewrite !ED. cbn [map2].
    eapply RL_ext; [|apply (RL_cons' _ (fun p => Share (h p) (h (prev p))) _ (cols r))].
    + intros p. unfold cols. rewrite !ED. reflexivity.
    + split; [intros p; apply HF'|split; [reflexivity|reflexivity]].
    + apply IH; [intros p; specialize (HL p); rewrite ED in HL; cbn in HL; lia|intros p; apply HF'].
Qed.

Section W.
  Variable G : rng.
  Lemma after_add K m n r : after G K (m + n) r = after G K n (after G K m r).
  Proof. revert r. induction m; intros r; cbn; auto. Qed.
  Lemma block_rnd L m N r : (m + 1 <= N)%nat -> block L m (rnd G 128 (N * L) r) = rnd G 128 L (after G 128 (m * L) r).
  Proof.
    intros HN. unfold block. replace (N * L)%nat with (m * L + (L + (N - m - 1) * L))%nat by nia. rewrite rnd_app.
    rewrite skipn_app, rnd_length, Nat.sub_diag, skipn_all2 by (rewrite rnd_length; lia). cbn [skipn app]. apply rnd_firstn.
  Qed.
  Lemma and_words (a b : list share) m1 m2 : length a = length b ->
    mapM2 (fun x y => bindM (gen_binary_zero_share G 128) (fun r => retM (rxor (local_and x y) r))) a b (Prf G m1 m2) =
    Ret (Prf G (after G 128 (length a) m1) (after G 128 (length a) m2),
         map2 (fun xy z => Z.lxor (and_part (fst xy) (snd xy)) z) (combine a b) (map2 Z.lxor (rnd G 128 (length a) m1) (rnd G 128 (length a) m2))).
  Proof.
    revert b m1 m2. induction a as [|x a IH]; intros [|y b] m1 m2 E; try discriminate; [reflexivity|].
    cbn [mapM2 length rnd after map2 combine]. unfold bindM at 1. unfold bindM at 1, gen_binary_zero_share, bindM at 1, gen_rands. cbn [my_prf next_prf].
    destruct (draw G 128 m1) as [r1 v1] eqn:E1, (draw G 128 m2) as [r2 v2] eqn:E2. cbn [bind fst snd retM].
    unfold bindM. unfold gen_binary_zero_share, bindM, gen_rands in IH. rewrite IH by (cbn in E; lia). reflexivity.
  Qed.
End W.

Section D.
  Variables (G : rng) (H : hasher).
  Notation ST := (sst G).
  Notation upd s f := (SSt G (JSt G f (j_snd G (s_j G s)) (j_rcv G (s_j G s)) (j_log G (s_j G s))) (s_mac G s) (s_vq G s) (s_prec G s) (s_tb G s)).
  Notation R := (rnd G 128).
  Notation aft := (after G 128).

  Definition own_shares (L m : nat) (r1 r2 : rstate G) : list share := map2 Share (block L m (R (3 * L) r1)) (block L m (R (3 * L) r2)).
  Definition own_words (L : nat) (r1 r2 : rstate G) : list Z :=
    map2 (fun xy z => Z.lxor (and_part (fst xy) (snd xy)) z) (combine (own_shares L 0 r1 r2) (own_shares L 1 r1 r2)) (map2 Z.lxor (block L 2 (R (3 * L) r1)) (block L 2 (R (3 * L) r2))).
  Lemma block_length L m r : (m < 3)%nat -> length (block L m (R (3 * L) r)) = L.
  Proof. intros. rewrite block_rnd by lia. apply rnd_length. Qed.
  Lemma own_shares_length L m r1 r2 : (m < 3)%nat -> length (own_shares L m r1 r2) = L.
  Proof. intros. unfold own_shares. rewrite map2_length_eq; rewrite !block_length; lia. Qed.
  Lemma own_words_length L r1 r2 : length (own_words L r1 r2) = L.
  Proof. unfold own_words. rewrite map2_length_eq; rewrite combine_length, !own_shares_length by lia; [lia|]. rewrite map2_length_eq; rewrite !block_length; lia. Qed.

  Lemma generate_eq p num (s : ST) m1 m2 : j_prf G (s_j G s) = Prf G m1 m2 ->
    let n := Nat.max num min_batch in let L := (2 * n + 1)%nat in
    peq (generate_triples G H p num s)
      (Send (next p) (ring_slice_to_bytes 128 (own_words L m1 m2)) (Recv (prev p) (fun m =>
        match ring_iter_from_bytes 128 m L with
        | Ok W => tcheck G H p n (own_shares L 0 m1 m2) (own_shares L 1 m1 m2) (map2 Share (own_words L m1 m2) W) (upd s (Prf G (aft (3 * L) m1) (aft (3 * L) m2)))
        | Err e => Fail e
        end))).
  Proof.
    intros Hf n L. rewrite generate_split. cbv zeta. fold n. fold L.
    unfold bindM at 1. erewrite on_aby_ret by (rewrite gen_rand_list; reflexivity). rewrite Hf. cbn [bind fst snd my_prf next_prf].
    unfold bindM at 1. erewrite on_aby_ret by (cbn [s_j j_prf]; rewrite gen_rand_list; reflexivity). cbn [bind fst snd my_prf next_prf s_j j_prf j_snd j_rcv j_log s_mac s_vq s_prec s_tb].
    rewrite !repeat_length.
    assert (E0 : map2 Share (R L m1) (R L m2) = own_shares L 0 m1 m2) by (unfold own_shares; rewrite !block_rnd by lia; reflexivity).
    assert (E1 : map2 Share (R L (aft L m1)) (R L (aft L m2)) = own_shares L 1 m1 m2) by (unfold own_shares; rewrite !block_rnd, !Nat.mul_1_l by lia; reflexivity).
    rewrite E0, E1.
    unfold bindM at 1, on_aby, on_j, on_prf, zoom. cbn [bind fst snd s_vq s_j s_mac s_prec s_tb j_snd j_rcv j_log j_prf].
    unfold and_many at 1. rewrite !own_shares_length, Nat.eqb_refl by lia. cbn [negb]. unfold bindM at 1. rewrite and_words by (rewrite !own_shares_length; lia).
    rewrite own_shares_length by lia. cbn [bind fst snd].
    assert (E2 : forall r, R L (aft L (aft L r)) = block L 2 (R (3 * L) r)).
    { intros r. rewrite block_rnd by lia. replace (2 * L)%nat with (L + L)%nat by lia. rewrite after_add. reflexivity. }
    rewrite !E2. fold (own_words L m1 m2).
    unfold reshare_many, bindM at 1, liftM at 1, send_slice_and_receive_iter, send_and_receive. cbn [bind fst snd].
    apply peq_send, peq_recv. intros m. rewrite own_words_length.
    destruct (ring_iter_from_bytes 128 m L) as [W|e]; cbn [of_res bind fst snd retM]; [|apply peq_fail].
    assert (E3 : forall r, aft L (aft L (aft L r)) = aft (3 * L) r).
    { intros r. replace (3 * L)%nat with (L + (L + L))%nat by lia. rewrite !after_add. reflexivity. }
    rewrite !E3. apply peq_refl.
  Qed.
End D.

(** The third party's difference is the error of the products. *)
Lemma word_errors_off a b c o : c = Z.lxor (Z.land a b) o -> word_errors a b c = map (fun k => Z.testbit o (Z.of_nat k)) (seq 0 128).
Proof.
  intros ->. unfold word_errors. apply map_ext. intros k. rewrite Z.lxor_spec, Z.land_spec. destruct (Z.testbit a _), (Z.testbit b _), (Z.testbit o _); reflexivity.
Qed.
Definition pwords (x y z : pid -> list Z) (p : pid) : list Z :=
  map2 (fun xy z => Z.lxor (and_part (fst xy) (snd xy)) z) (combine (cols x p) (cols y p)) (map2 Z.lxor (z p) (z (prev p))).
Lemma off_errors i L x y z W : (forall p, length (x p) = L) -> (forall p, length (y p) = L) -> (forall p, length (z p) = L) -> length W = L ->
  errors (xor_all x) (xor_all y) (xor_all (by_pid i (pwords x y z i) (pwords x y z (next i)) W)) = bits_of (map2 Z.lxor W (pwords x y z (prev i))).
Proof.
  revert x y z W. induction L as [|L IH]; intros x y z W Lx Ly Lz LW.
  - assert (forall p, x p = []) as Ex by (intros p; apply length_zero_iff_nil, Lx). assert (W = []) as -> by (apply length_zero_iff_nil, LW).
    unfold xor_all. rewrite !Ex. reflexivity.
  - assert (E : forall d : pid -> list Z, (forall p, length (d p) = S L) -> exists h r, (forall p, d p = h p :: r p) /\ (forall p, length (r p) = L)).
    { intros d HL. exists (fun p => hd 0 (d p)), (fun p => tl (d p)). split; intros p; specialize (HL p); destruct (d p); try discriminate; [reflexivity|cbn in *; lia]. }
    destruct (E x Lx) as (hx & rx & Ex & Lx'). destruct (E y Ly) as (hy & ry & Ey & Ly'). destruct (E z Lz) as (hz & rz & Ez & Lz').
    destruct W as [|w W]; [discriminate|]. cbn in LW.
    specialize (IH rx ry rz W Lx' Ly' Lz' ltac:(lia)).
    set (hw := fun p => Z.lxor (and_part (Share (hx p) (hx (prev p))) (Share (hy p) (hy (prev p)))) (Z.lxor (hz p) (hz (prev p)))).
    assert (EW : forall p, pwords x y z p = hw p :: pwords rx ry rz p) by (intros p; unfold pwords, cols, hw; rewrite !Ex, !Ey, !Ez; reflexivity).
    assert (EV : xor_all (by_pid i (pwords x y z i) (pwords x y z (next i)) (w :: W)) =
      Z.lxor (Z.lxor (by_pid i (hw i) (hw (next i)) w P0) (by_pid i (hw i) (hw (next i)) w P1)) (by_pid i (hw i) (hw (next i)) w P2)
       :: xor_all (by_pid i (pwords rx ry rz i) (pwords rx ry rz (next i)) W)).
    { rewrite !EW. unfold xor_all, by_pid. destruct i; reflexivity. }
    rewrite EV, EW. unfold xor_all at 1 2. rewrite !Ex, !Ey. cbn [map2 errors bits_of flat_map]. f_equal; [|exact IH].
    apply word_errors_off. unfold hw, and_part, by_pid. clear. cbn [sa sb]. apply Z.bits_inj'. intros k Hk. destruct i; cbn [pid_eqb next prev]; repeat (rewrite Z.lxor_spec || rewrite Z.land_spec);
    destruct (Z.testbit (hx P0) k), (Z.testbit (hx P1) k), (Z.testbit (hx P2) k), (Z.testbit (hy P0) k), (Z.testbit (hy P1) k), (Z.testbit (hy P2) k),
      (Z.testbit (hz P0) k), (Z.testbit (hz P1) k), (Z.testbit (hz P2) k), (Z.testbit w k); reflexivity.
Qed.

Section Main.
  Variables (G : rng) (H : hasher) (i : pid).
  Notation j := (next i).
  Notation ST := (sst G).
  Notation coll s t := (hash_collision G H (s_j G s) (s_j G t)).
  Notation prf1 s := (j_prf G (s_j G s)).
  (** What the three generators output, and the seed tossed afterwards. *)
  Definition gen_draws (L : nat) (s t : ST) : pid -> list Z :=
    by_pid i (rnd G 128 (3 * L) (my_prf G (prf1 s))) (rnd G 128 (3 * L) (my_prf G (prf1 t))) (rnd G 128 (3 * L) (next_prf G (prf1 s))).
  Definition gen_seed (L : nat) (s t : ST) : list Z :=
    let w r := snd (draw_bytes G 32 (after G 128 (3 * L) r)) in xor3 (w (my_prf G (prf1 s))) (w (my_prf G (prf1 t))) (w (next_prf G (prf1 s))).
  Lemma generate_duo num (s t : ST) : synced2 G (s_j G s) (s_j G t) ->
    let n := Nat.max num min_batch in let L := (2 * n + 1)%nat in let d := gen_draws L s t in
    duoR i (generate_triples G H i num s) (generate_triples G H j num t) [] [] (fun l x y =>
      exists off A B C a b c, third_words i L d l off /\ length off = L /\
        RL (bin_shared 128) A a /\ RL (bin_shared 128) B b /\ RL (bin_shared 128) C c /\ length a = L /\ length b = L /\ length c = L /\
        snd x = triples_new (firstn n (A i)) (firstn n (B i)) (firstn n (C i)) /\ snd y = triples_new (firstn n (A j)) (firstn n (B j)) (firstn n (C j)) /\
        errors a b c = bits_of off /\
        (coll (fst x) (fst y) \/ errors (firstn n a) (firstn n b) (firstn n c) ++ repeat false 128 =
           fisher_yates (picks G (rseed G (gen_seed L s t)) (128 * (n + 1))) (errors (skipn n a) (skipn n b) (skipn n c)))).
  Proof.
    intros Hs n L d. unfold synced2 in Hs.
    destruct (j_prf G (s_j G s)) as [m1 m2] eqn:E1. destruct (j_prf G (s_j G t)) as [q1 q2] eqn:E2. cbn [my_prf next_prf] in Hs. subst q2.
    eapply duoR_peq; [apply generate_eq; exact E1|apply generate_eq; exact E2|]. cbv zeta. fold n. fold L.
    apply duoR_send_next. cbn [app]. apply duoR_r_send_next. apply duoR_recv_prev. intros m Bm. apply duoR_r_recv_prev.
    set (x := fun p => block L 0 (d p)). set (y := fun p => block L 1 (d p)). set (z := fun p => block L 2 (d p)).
    assert (HD : forall p, exists r, d p = rnd G 128 (3 * L) r).
    { intros p. unfold d, gen_draws, by_pid. destruct (pid_eqb p i); [|destruct (pid_eqb p j)]; eexists; reflexivity. }
    assert (Lb : forall q p, (q < 3)%nat -> length (block L q (d p)) = L) by (intros q p Hq; destruct (HD p) as (r & ->); apply block_length, Hq).
    assert (Fb : forall q p, (q < 3)%nat -> Forall (inr 128) (block L q (d p))).
    { intros q p Hq; destruct (HD p) as (r & ->). rewrite block_rnd by lia. apply rnd_range. lia. }
    assert (Di : d i = rnd G 128 (3 * L) m1) by (unfold d, gen_draws, by_pid; rewrite E1; destruct i; reflexivity).
    assert (Dj : d j = rnd G 128 (3 * L) q1) by (unfold d, gen_draws, by_pid; rewrite E2; destruct i; reflexivity).
    assert (Dk : d (prev i) = rnd G 128 (3 * L) m2) by (unfold d, gen_draws, by_pid; rewrite E1; destruct i; reflexivity).
    assert (PJ : prev j = i) by (destruct i; reflexivity).
    assert (W1 : own_words G L m1 m2 = pwords x y z i) by (unfold own_words, own_shares, pwords, cols, x, y, z; rewrite Di, Dk; reflexivity).
    assert (W2 : own_words G L q1 m1 = pwords x y z j) by (unfold own_words, own_shares, pwords, cols, x, y, z; rewrite PJ, Di, Dj; reflexivity).
    assert (A1 : own_shares G L 0 m1 m2 = cols x i) by (unfold own_shares, cols, x; rewrite Di, Dk; reflexivity).
    assert (A2 : own_shares G L 0 q1 m1 = cols x j) by (unfold own_shares, cols, x; rewrite PJ, Di, Dj; reflexivity).
    assert (B1 : own_shares G L 1 m1 m2 = cols y i) by (unfold own_shares, cols, y; rewrite Di, Dk; reflexivity).
    assert (B2 : own_shares G L 1 q1 m1 = cols y j) by (unfold own_shares, cols, y; rewrite PJ, Di, Dj; reflexivity).
    rewrite W1, W2, A1, A2, B1, B2.
    assert (Lw : forall p, length (pwords x y z p) = L).
    { intros p. unfold pwords, cols. rewrite map2_length_eq; rewrite combine_length, !map2_length_eq; unfold x, y, z; rewrite ?Lb; lia. }
    assert (RA : RL (bin_shared 128) (cols x) (xor_all x)) by (apply (cols_shared L); intros p; [apply Lb|apply Fb]; lia).
    assert (RB : RL (bin_shared 128) (cols y) (xor_all y)) by (apply (cols_shared L); intros p; [apply Lb|apply Fb]; lia).
    assert (IX : forall u v, inr 128 u -> inr 128 v -> inr 128 (Z.lxor u v)) by (intros; apply inr_lxor; auto; lia).
    assert (IA : forall u v, inr 128 u -> inr 128 v -> inr 128 (Z.land u v)) by (intros; apply inr_land; auto; lia).
    assert (Fw : forall p, Forall (inr 128) (pwords x y z p)).
    { intros p. unfold pwords, cols.
      assert (F : forall l1 l2 l3 l4 l5 l6, Forall (inr 128) l1 -> Forall (inr 128) l2 -> Forall (inr 128) l3 -> Forall (inr 128) l4 -> Forall (inr 128) l5 -> Forall (inr 128) l6 ->
        Forall (inr 128) (map2 (fun xy z => Z.lxor (and_part (fst xy) (snd xy)) z) (combine (map2 Share l1 l2) (map2 Share l3 l4)) (map2 Z.lxor l5 l6))).
      { clear - IX IA. induction l1 as [|u1 l1 IH]; intros [|u2 l2] [|u3 l3] [|u4 l4] [|u5 l5] [|u6 l6] F1 F2 F3 F4 F5 F6; cbn [map2 combine]; try constructor;
          inversion F1; inversion F2; inversion F3; inversion F4; inversion F5; inversion F6; subst; [unfold and_part; cbn [fst snd sa sb]; auto 8|apply IH; assumption]. }
      apply F; apply Fb; lia. }
    rewrite <- (Lw i) at 2. rewrite iter_roundtrip by (exact in128 || apply Fw).
    destruct (ring_iter_from_bytes 128 m L) as [W|e] eqn:EM; [|apply duoR_fail_l].
    pose proof (iter_len _ _ _ _ EM) as LW. pose proof (iter_range 128 in128 _ _ _ EM Bm) as FW.
    set (w := by_pid i (pwords x y z i) (pwords x y z j) W).
    assert (RC : RL (bin_shared 128) (cols w) (xor_all w)).
    { apply (cols_shared L); intros p; unfold w, by_pid; (destruct (pid_eqb p i); [|destruct (pid_eqb p j)]); auto. }
    assert (C1 : map2 Share (pwords x y z i) W = cols w i) by (unfold cols, w, by_pid; destruct i; reflexivity).
    assert (C2 : map2 Share (pwords x y z j) (pwords x y z i) = cols w j) by (unfold cols, w, by_pid; destruct i; reflexivity).
    rewrite C1, C2.
    assert (LC : forall u : pid -> list Z, (forall p, length (u p) = L) -> length (xor_all u) = L).
    { intros u Hu. unfold xor_all. rewrite !map2_length_eq; rewrite ?map2_length_eq; rewrite ?Hu; lia. }
    assert (Lx : length (xor_all x) = L) by (apply LC; intros p; apply Lb; lia). assert (Ly : length (xor_all y) = L) by (apply LC; intros p; apply Lb; lia).
    assert (Lz : length (xor_all w) = L) by (apply LC; intros p; unfold w, by_pid; destruct (pid_eqb p i); [|destruct (pid_eqb p j)]; auto).
    eapply duoR_mono; [|apply duoR_duo; refine (tcheck_duo G H i n (cols x) (cols y) (cols w) _ _ _ _ _ _ RA RB RC Lx Ly Lz); reflexivity].
    intros l [s' a] [t' b]. cbn [fst snd s_j j_prf]. intros (X1 & X2 & X3).
    exists (map2 Z.lxor W (pwords x y z (prev i))), (cols x), (cols y), (cols w), (xor_all x), (xor_all y), (xor_all w).
    split; [exists m, l, W; split; [reflexivity|split; [exact EM|reflexivity]]|].
    split; [rewrite map2_length_eq; rewrite ?Lw; exact LW|].
    repeat (split; [assumption|]). split; [apply (off_errors i L); auto; intros p; apply Lb; lia|].
    destruct X3 as [X3|X3]; [left; exact X3|right]. rewrite X3. unfold duo_seed, gen_seed. cbn [s_j j_prf my_prf]. rewrite E1, E2. reflexivity.
  Qed.
End Main.
