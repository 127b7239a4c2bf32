(** Property C56: the AND-triple check of the SPDZ-wise engine against a malicious party. *)
From Coq Require Import Permutation Factorial.
From Verif Require Import Base Ring RingProofs Prog Sched Conc Rng Rel Net BinTrait BitArith BinProofs AddProofs MpcSpec Aby3 ShareSpec Aby3Proofs Jmp JmpProofs Session SessionProofs Aby3Mal Aby3MalProofs
  SacrificeProofs PropLemmas PropLemmas2 SpecProofs Duo DuoProofs PropLemmas5 Spdz TripleSpec TripleProofs TripleProofs2 SpdzProofs SpdzProofs2 MacSpec MacProofs
  TripleMalSpec FyCount TripleMal TripleMalDuo TripleMalMain TripleMalGen Emits TripleMalMet.
From Coq Require Import ZifyBool ZifyNat.

(** The setting: i and i+1 are honest, k = i-1 sends arbitrary bytes.  Generating n triples per party draws
    L = 2n + 1 words three times from each of the three generators (the one of i and k, and the one of k and
    i+1, are known to k; the one of i and i+1 is not), then tosses a coin: the exclusive or of 32 further bytes
    of each generator. *)
Definition triple_batch (num : nat) : nat := Nat.max num (Z.to_nat 8192).
Definition triple_randoms (G : rng) (L : nat) (i : pid) (s t : sst G) : pid -> list Z :=
  by_pid i (rnd G 128 (3 * L) (my_prf G (j_prf G (s_j G s)))) (rnd G 128 (3 * L) (my_prf G (j_prf G (s_j G t)))) (rnd G 128 (3 * L) (next_prf G (j_prf G (s_j G s)))).
Definition triple_coin (G : rng) (L : nat) (s t : sst G) : list Z :=
  let w r := snd (draw_bytes G 32 (after G 128 (3 * L) r)) in
  map2 Z.lxor (map2 Z.lxor (w (my_prf G (j_prf G (s_j G s)))) (w (my_prf G (j_prf G (s_j G t))))) (w (next_prf G (j_prf G (s_j G s)))).
(** The two honest parties hold the same generator. *)
Definition same_key (G : rng) (s t : sst G) : Prop := next_prf G (j_prf G (s_j G t)) = my_prf G (j_prf G (s_j G s)).
(** The columns of a pool at i and at i+1 are theirs in a sharing of the words a, b, c. *)
Definition pool_shares (i : pid) (x y : triples) (a b c : list Z) : Prop :=
  exists A B C, vec_shared (bin_shared 128) A a /\ vec_shared (bin_shared 128) B b /\ vec_shared (bin_shared 128) C c /\
    length b = length a /\ length c = length a /\
    t_a x = A i /\ t_b x = B i /\ t_c x = C i /\ t_a y = A (next i) /\ t_b y = B (next i) /\ t_c y = C (next i).

(** The shuffles of a list of n elements, as sequences of picks: each exactly once, n! of them. *)
Theorem C56_shuffles : forall n, (forall ks, In ks (all_picks n) <-> picks_ok n ks) /\ NoDup (all_picks n) /\ length (all_picks n) = fact n.
Proof. intros n. split; [exact (all_picks_in n)|split; [apply all_picks_nodup|apply all_picks_length]]. Qed.
Print Assumptions C56_shuffles.

Lemma xor3_eq a b c : xor3 a b c = map2 Z.lxor (map2 Z.lxor a b) c.
Proof.
  unfold xor3. revert b c. induction a as [|x a IH]; intros [|y b] [|z c]; cbn; try reflexivity. rewrite IH, Z.lxor_assoc. reflexivity.
Qed.
Lemma bits_of_app u v : bits_of (u ++ v) = bits_of u ++ bits_of v.
Proof. unfold bits_of. apply flat_map_app. Qed.
Lemma bits_of_length l : length (bits_of l) = (128 * length l)%nat.
Proof. induction l as [|x l IH]; [reflexivity|]. change (bits_of (x :: l)) with (map (fun k => Z.testbit x (Z.of_nat k)) (seq 0 128) ++ bits_of l). rewrite app_length, IH, map_length, seq_length. cbn [length]. lia. Qed.

(** C56.  If both honest parties accept the batch, their shares are consistent; the products are off by exactly
    what the third party added to its message; and the errors of the n products kept are, followed by 128
    correct gates (the opened one), a shuffle of the errors of the others, the shuffle being given by the coin
    tossed after the third party has sent its message.  Or the hash collides. *)
Theorem C56_generate : forall G H i num (s t s' t' : sst G) x y l, same_key G s t ->
  duo_trace i (generate_triples G H i num) (generate_triples G H (next i) num) s t s' t' x y l ->
  let n := triple_batch num in let L := (2 * n + 1)%nat in
  exists off a b c, third_words i L (triple_randoms G L i s t) l off /\ length off = L /\
    pool_shares i x y a b c /\ length a = n /\ errors a b c = bits_of (firstn n off) /\
    (hash_collision G H (s_j G s') (s_j G t') \/
     bits_of (firstn n off) ++ repeat false 128 = fisher_yates (picks G (rseed G (triple_coin G L s t)) (128 * (n + 1))) (bits_of (skipn n off))).
Proof.
  intros G H i num s t s' t' x y l Hs HR n L.
  apply (duo_trace_sound i _ _ _ _ _ _ _ _ _ _ (generate_duo G H i num s t Hs)) in HR. cbn [fst snd] in HR.
  change (Nat.max num min_batch) with n in HR. fold L in HR. change (gen_draws G i L s t) with (triple_randoms G L i s t) in HR.
  assert (EC : gen_seed G L s t = triple_coin G L s t) by (unfold gen_seed, triple_coin; apply xor3_eq). rewrite EC in HR.
  destruct HR as (off & A & B & C & a & b & c & HT & Lo & HA & HB & HC & La & Lb & Lc & -> & -> & HE & HF).
  assert (LF : forall u : list Z, length u = L -> length (firstn n u) = n /\ length (skipn n u) = (n + 1)%nat) by (intros u Hu; rewrite firstn_length, skipn_length, Hu; unfold L; lia).
  destruct (LF _ La) as [La1 La2]. destruct (LF _ Lb) as [Lb1 Lb2]. destruct (LF _ Lc) as [Lc1 Lc2]. destruct (LF _ Lo) as [Lo1 Lo2].
  assert (HE' : errors (firstn n a) (firstn n b) (firstn n c) = bits_of (firstn n off) /\ errors (skipn n a) (skipn n b) (skipn n c) = bits_of (skipn n off)).
  { rewrite <- (firstn_skipn n a), <- (firstn_skipn n b), <- (firstn_skipn n c), <- (firstn_skipn n off), errors_app, bits_of_app in HE by congruence.
    apply app_inj_len in HE; [exact HE|]. rewrite errors_length, bits_of_length by congruence. lia. }
  destruct HE' as [E1 E2]. rewrite E1, E2 in HF.
  exists off, (firstn n a), (firstn n b), (firstn n c). split; [exact HT|]. split; [exact Lo|].
  split; [|split; [exact La1|split; [exact E1|exact HF]]].
  exists (fun p => firstn n (A p)), (fun p => firstn n (B p)), (fun p => firstn n (C p)).
  pose proof (RL_vec _ _ _ (RL_firstn _ _ _ n HA)). pose proof (RL_vec _ _ _ (RL_firstn _ _ _ n HB)). pose proof (RL_vec _ _ _ (RL_firstn _ _ _ n HC)).
  repeat (split; [assumption || congruence || reflexivity|]). reflexivity.
Qed.
Print Assumptions C56_generate.

(** How often can a wrong triple get through?  Fix the differences [off] the third party adds, wrong at one of
    the products kept.  Of the N! shuffles, N = 128 (n + 1) > 2^20, at most one in N is bad. *)
Theorem C56_detect : forall n off, length off = (2 * n + 1)%nat -> In true (bits_of (firstn n off)) ->
  let N := (128 * (n + 1))%nat in
  exists bad : list (list nat), (N * length bad <= length (all_picks N))%nat /\
    forall G H i num (s t s' t' : sst G) x y l, triple_batch num = n -> same_key G s t ->
      third_words i (2 * n + 1) (triple_randoms G (2 * n + 1) i s t) l off ->
      duo_trace i (generate_triples G H i num) (generate_triples G H (next i) num) s t s' t' x y l ->
      hash_collision G H (s_j G s') (s_j G t') \/ In (picks G (rseed G (triple_coin G (2 * n + 1) s t)) N) bad.
Proof.
  intros n off Lo Ht N. set (f := bits_of (skipn n off)). set (g := bits_of (firstn n off) ++ repeat false 128).
  assert (Lf : length f = N) by (unfold f; rewrite bits_of_length, skipn_length, Lo; unfold N; lia).
  assert (Lg : length g = N) by (unfold g; rewrite app_length, bits_of_length, firstn_length, Lo, repeat_length; unfold N; lia).
  exists (hits f g). split.
  - rewrite <- Lf. apply hits_few; [congruence|unfold g; apply in_or_app; left; exact Ht|unfold g; apply in_or_app; right; left; reflexivity].
  - intros G H i num s t s' t' x y l <- Hs HT HR.
    destruct (C56_generate _ _ _ _ _ _ _ _ _ _ _ Hs HR) as (off' & a & b & c & HT' & _ & _ & _ & _ & HE).
    destruct HE as [HE|HE]; [left; exact HE|right].
    assert (off' = off) as -> by (destruct HT as (m & r & W & -> & E1 & ->), HT' as (m' & r' & W' & E & E1' & ->); injection E as <- <-; congruence).
    apply hits_in. split; [rewrite Lf; apply picks_valid|]. symmetry. exact HE.
Qed.
Print Assumptions C56_detect.

(** Checking the AND gates of a computation.  The gates used (words a, b, c) are compared with random triples
    (x, y, z) of the pool, shuffled with a coin tossed after the gates were computed: the errors are those of
    as many shuffled triples.  In particular, if the pool is right, so is every gate. *)
Theorem C56_queue : forall G H i a b c x y z (s t s' t' : sst G), same_key G s t ->
  pool_shares i (s_tb G s) (s_tb G t) a b c -> pool_shares i (s_prec G s) (s_prec G t) x y z -> a <> [] ->
  duo_run i (verify_triple_queue G H i) (verify_triple_queue G H (next i)) s t s' t' tt tt ->
  let m := Nat.max (length a) (Z.to_nat 8192) in
  hash_collision G H (s_j G s') (s_j G t') \/
  errors a b c = firstn (128 * length a) (fisher_yates (picks G (rseed G (triple_coin G 0 s t)) (128 * m)) (errors (firstn m x) (firstn m y) (firstn m z))).
Proof.
  intros G H i a b c x y z s t s' t' Hs (A & B & C & HA & HB & HC & Lb & Lc & A1 & B1 & C1 & A2 & B2 & C2) (X & Y & W & HX & HY & HW & Ly & Lz & X1 & Y1 & W1 & X2 & Y2 & W2) Ha HR m.
  pose proof (verify_queue_duo G H i A B C X Y W a b c x y z s t Hs (vec_RL _ _ _ HA) (vec_RL _ _ _ HB) (vec_RL _ _ _ HC) (vec_RL _ _ _ HX) (vec_RL _ _ _ HY) (vec_RL _ _ _ HW) Lb Lc Ly Lz Ha
    A1 B1 C1 X1 Y1 W1 A2 B2 C2 X2 Y2 W2) as D.
  cbv zeta in D. apply (duo_run_sound _ _ _ _ _ _ _ _ _ _ D) in HR. rename HR into HQ. cbv beta in HQ. destruct HQ as [HQ|HQ]; [left; exact HQ|right].
  rewrite HQ. unfold duo_seed, triple_coin. rewrite xor3_eq. reflexivity.
Qed.
Print Assumptions C56_queue.
Lemma firstn_incl {T} n (l : list T) k : In k (firstn n l) -> In k l.
Proof. intros Hk. rewrite <- (firstn_skipn n l). apply in_or_app. left. exact Hk. Qed.
Lemma fy_incl {T} ks : forall (l : list T) k, In k (fisher_yates ks l) -> In k l.
Proof.
  induction ks as [|q ks IH]; intros l k Hk; [exact Hk|]. cbn [fisher_yates] in Hk.
  assert (HX : forall u, In u (exchange q 0 l) -> In u l).
  { intros u. unfold exchange. destruct (nth_error l q) eqn:E1; [|exact (fun h => h)]. destruct (nth_error l 0) eqn:E2; [|exact (fun h => h)].
    pose proof (proj1 (nth_error_Some l q)) as R1. pose proof (proj1 (nth_error_Some l 0)) as R2. rewrite E1 in R1. rewrite E2 in R2.
    pose proof (exchange_perm q 0 l (R1 ltac:(discriminate)) (R2 ltac:(discriminate))) as HP. unfold exchange in HP. rewrite E1, E2 in HP. apply (Permutation_in _ HP). }
  destruct (exchange q 0 l) as [|u r]; [destruct Hk|]. destruct Hk as [<-|Hk]; apply HX; [left; reflexivity|right; apply (IH r), Hk].
Qed.
Theorem C56_queue_sound : forall G H i a b c x y z (s t s' t' : sst G), same_key G s t ->
  pool_shares i (s_tb G s) (s_tb G t) a b c -> pool_shares i (s_prec G s) (s_prec G t) x y z ->
  (forall k, In k (errors x y z) -> k = false) ->
  duo_run i (verify_triple_queue G H i) (verify_triple_queue G H (next i)) s t s' t' tt tt ->
  hash_collision G H (s_j G s') (s_j G t') \/ forall k, In k (errors a b c) -> k = false.
Proof.
  intros G H i a b c x y z s t s' t' Hs HP HX HE HR. destruct a as [|a0 a]; [right; intros k []|].
  destruct (C56_queue _ _ _ _ _ _ _ _ _ _ _ _ _ Hs HP HX ltac:(discriminate) HR) as [HQ|HQ]; [left; exact HQ|right].
  intros k Hk. rewrite HQ in Hk. apply firstn_incl in Hk.
  set (m := Nat.max (length (a0 :: a)) (Z.to_nat 8192)) in *.
  apply fy_incl in Hk. apply HE. rewrite errors_firstn in Hk. eapply firstn_incl, Hk.
Qed.
Print Assumptions C56_queue_sound.

(** The hypotheses are met: whatever the keys, the two parties finish if the third follows the protocol too. *)
Lemma fresh_inv G (f : pid -> prf G) : prf_synced f -> spdz_inv G 64 0 (0%nat, 0) (fun p => spdz_new G (f p)).
Proof.
  intros Hf. split; [split; [exact Hf|intros p; cbn; auto]|]. cbn [spdz_new s_mac s_vq s_prec s_tb].
  split; [split; [intros p; cbn; unfold inr; lia|split; [reflexivity|reflexivity]]|]. split; [exists []; apply RL_nil'|]. split; [|apply pool0].
  split; [reflexivity|]. exists [], []. repeat split; apply RL_nil'.
Qed.
Lemma honest_duo {S A} i (P : pid -> M S A) (s : pid -> S) (R : pid -> S * A) : evals (fun p => P p (s p)) R -> emitsM (P (prev i)) ->
  duo_run i (P i) (P (next i)) (s i) (s (next i)) (fst (R i)) (fst (R (next i))) (snd (R i)) (snd (R (next i))).
Proof.
  intros (sched & Hst) HE. exists (fun p => P p (s p)), sched, (finished R). repeat (split; [reflexivity|]).
  split; [apply emits_sends, HE|]. split; [exact Hst|]. destruct i; cbn; destruct (R P0), (R P1), (R P2); split; reflexivity.
Qed.
Theorem C56_generate_met : forall G H i num (f : pid -> prf G), (forall x, bytes (hfun H x)) -> prf_synced f ->
  same_key G (spdz_new G (f i)) (spdz_new G (f (next i))) /\
  exists s' t' x y l, duo_trace i (generate_triples G H i num) (generate_triples G H (next i) num) (spdz_new G (f i)) (spdz_new G (f (next i))) s' t' x y l.
Proof.
  intros G H i num f HH Hf. split; [unfold same_key; cbn; rewrite Hf; destruct i; reflexivity|].
  destruct (generate_triples_ok G H 64 0 num (0%nat, 0) _ (fresh_inv G f Hf)) as (R & HE & _).
  pose proof (honest_duo i (fun p => generate_triples G H p num) _ R HE (generate_emits G H (prev i) HH num)) as HD.
  destruct (duo_run_trace _ _ _ _ _ _ _ _ _ HD) as [l Hl]. exists (fst (R i)), (fst (R (next i))), (snd (R i)), (snd (R (next i))), l. exact Hl.
Qed.
Print Assumptions C56_generate_met.
(** One word of gates, 1 AND 1 in all 128 positions, to be checked against a freshly generated pool. *)
Definition ones : Z := 2 ^ 128 - 1.
Definition ones_share (p : pid) : share := match p with P0 => Share ones 0 | P1 => Share 0 ones | P2 => Share 0 0 end.
Definition ones_pool (p : pid) : triples := Triples [ones_share p] [ones_share p] [ones_share p] 128.
Lemma ones_ok : RL (bin_shared 128) (fun p => [ones_share p]) [ones].
Proof.
  apply (RL_cons' _ ones_share ones (fun _ => [])); [|apply RL_nil']. split; [|split].
  - intros []; unfold inr, ones; cbn [ones_share sa]; unfold ones; split; lia || (cbn; lia).
  - intros []; reflexivity.
  - reflexivity.
Qed.
Theorem C56_queue_met : forall G H i (f : pid -> prf G), (forall x, bytes (hfun H x)) -> prf_synced f ->
  exists x y z (s t s' t' : sst G), same_key G s t /\ pool_shares i (s_tb G s) (s_tb G t) [ones] [ones] [ones] /\ pool_shares i (s_prec G s) (s_prec G t) x y z /\
    length x = Z.to_nat 8192 /\
    duo_run i (verify_triple_queue G H i) (verify_triple_queue G H (next i)) s t s' t' tt tt.
Proof.
  intros G H i f HH Hf.
  destruct (generate_triples_ok G H 64 0 0 (0%nat, 0) _ (fresh_inv G f Hf)) as (R & _ & HI & _ & HT). cbn [Nat.max] in HT.
  set (s := fun p => SSt G (s_j G (fst (R p))) (s_mac G (fst (R p))) (s_vq G (fst (R p))) (snd (R p)) (ones_pool p)).
  assert (HS : spdz_inv G 64 0 (min_batch, 128) s).
  { destruct HI as (I1 & I2 & I3 & _ & _). split; [exact I1|]. split; [exact I2|]. split; [exact I3|]. split; [exact HT|].
    split; [cbn; lia|]. split; [reflexivity|]. exists [ones], [ones]. split; [reflexivity|]. split; [reflexivity|].
    assert (HP : pcomp 128 (fun p => [ones_share p]) [ones]).
    { split; [exact ones_ok|]. intros p. change (last_bits 128) with 128. change (last [ones_share p] szero) with (ones_share p). unfold inr, ones. destruct p; cbn [ones_share sa]; unfold ones; split; lia || (cbn; lia). }
    split; [exact HP|]. split; [exact HP|]. exact HP. }
  destruct (verify_queue_ok G H 64 0 (min_batch, 128) s HS) as (R' & HE & _); [right; cbn [snd fst]; unfold gates_words; apply Nat.max_lub; [|apply le_n]|].
  { change (words_of 128) with 1. unfold min_batch. apply Z2Nat.inj_le; lia. }
  pose proof (honest_duo i (fun p => verify_triple_queue G H p) _ R' HE (queue_emits G H (prev i) HH)) as HD. cbv beta in HD.
  destruct HT as (_ & x & y & Lx & Ly & HX & HY & HZ).
  exists x, y, (map2 Z.land x y), (s i), (s (next i)), (fst (R' i)), (fst (R' (next i))).
  split. { destruct HS as ((I1 & _) & _). unfold same_key. rewrite I1. destruct i; reflexivity. }
  split. { pose proof (RL_vec _ _ _ ones_ok) as HO. exists (fun p => [ones_share p]), (fun p => [ones_share p]), (fun p => [ones_share p]). repeat (split; [assumption || reflexivity|]). reflexivity. }
  split. { exists (fun p => t_a (snd (R p))), (fun p => t_b (snd (R p))), (fun p => t_c (snd (R p))).
    split; [apply RL_vec, HX|]. split; [apply RL_vec, HY|]. split; [apply RL_vec, HZ|]. split; [congruence|]. split; [rewrite map2_length_eq; congruence|]. repeat (split; [reflexivity|]). reflexivity. }
  split; [exact Lx|]. destruct (snd (R' i)), (snd (R' (next i))). exact HD.
Qed.
Print Assumptions C56_queue_met.
(** The bound is attained: three elements, one wrong on either side, two of the six shuffles are bad.  An error
    in one word. *)
Example C56_example : length (all_picks 3) = 6%nat /\
  length (filter (fun ks => match fisher_yates ks [true; false; false] with [true; false; false] => true | _ => false end) (all_picks 3)) = 2%nat /\
  errors [6] [3] [6] = [false; false; true] ++ repeat false 125 /\ (exists off, length off = 3%nat /\ In true (bits_of (firstn 1 off))).
Proof. split; [reflexivity|]. split; [reflexivity|]. split; [reflexivity|]. exists [1; 0; 0]. split; [reflexivity|]. left. reflexivity. Qed.
