(** Property C26: the batched MAC check against a malicious party. *)
From Verif Require Import Base Ring RingProofs Prog Sched Conc Rng Rel Net BinTrait BitArith BinProofs MpcSpec Aby3 ShareSpec Aby3Proofs Jmp JmpProofs Aby3Mal
  SacrificeProofs PropLemmas PropLemmas2 SpecProofs Duo DuoProofs PropLemmas5 Spdz MacSpec MacProofs MacCount Properties4.
From Coq Require Import ZifyBool ZifyNat.

(** The setting: i and i+1 are honest, k = i-1 sends arbitrary bytes.  The queue holds values x + d with MACs
    x * r + e (all as replicated sharings, the errors d, e arbitrary), the key is r.  The generators of i and
    i+1 output n + 3 values each; those of the third party's generator are [third]. *)
Record mac_case (G : rng) (U : Z) (i : pid) (V M : pid -> list share) (key : pid -> share) (xs ds es : list Z) (r : Z) (s t : sst G) : Prop := {
  mc_width : In U widths; mc_some : xs <> []; mc_ds : length ds = length xs; mc_es : length es = length xs;
  mc_values : vec_shared (arith_shared U) V (map2 (fun x d => (x + d) mod 2 ^ U) xs ds);
  mc_macs : vec_shared (arith_shared U) M (map2 (fun x e => (x * r + e) mod 2 ^ U) xs es);
  mc_key : arith_shared U key r;
  mc_vi : map av (s_vq G s) = V i; mc_mi : map am (s_vq G s) = M i; mc_ki : s_mac G s = key i;
  mc_vj : map av (s_vq G t) = V (next i); mc_mj : map am (s_vq G t) = M (next i); mc_kj : s_mac G t = key (next i);
  mc_sync : next_prf G (j_prf G (s_j G t)) = my_prf G (j_prf G (s_j G s)) }.
(** What the three generators output during the check. *)
Definition mac_randoms (G : rng) (U : Z) (n : nat) (i : pid) (s t : sst G) : pid -> list Z :=
  by_pid i (rnd G U (n + 3) (my_prf G (j_prf G (s_j G s)))) (rnd G U (n + 3) (my_prf G (j_prf G (s_j G t)))) (rnd G U (n + 3) (next_prf G (j_prf G (s_j G s)))).
(** The third party's messages to i: two words W0, W1, then one word W2; how far they are from the honest
    ones (W2: from what the protocol computes from the W0 it sent). *)
Definition third_off (U : Z) (i : pid) (V M : pid -> list share) (key : pid -> share) (n : nat) (d : pid -> list Z) (l : list msg) (e0 e1 e2 : Z) : Prop :=
  let k := prev i in exists m1 m2 rest W0 W1 W2,
    l = m1 :: m2 :: rest /\ ring_iter_from_bytes U m1 2 = Ok [W0; W1] /\ from_bytes U m2 = Ok W2 /\
    e0 = W0 - sum_word U n d 0 (V k) k /\ e1 = W1 - sum_word U n d 1 (M k) k /\
    e2 = W2 - product_word U n d (Share W0 (sum_word U n d 0 (V (next i)) (next i))) (key k) k.

(** C26.  If both honest parties accept, the explicit relation holds (or the hash collides). *)
Theorem C26_relation : forall G H U i V M key xs ds es r (s t s' t' : sst G) l,
  mac_case G U i V M key xs ds es r s t ->
  duo_trace i (verify_macs G H i U) (verify_macs G H (next i) U) s t s' t' tt tt l ->
  let d := mac_randoms G U (length xs) i s t in
  exists e0 e1 e2, third_off U i V M key (length xs) d l e0 e1 e2 /\
    (hash_collision G H (s_j G s') (s_j G t') \/ mac_relation U r (coef (length xs) d) ds es e0 e1 e2).
Proof.
  intros G H U i V M key xs ds es r s t s' t' l [HU Hx Ld Le HV HM HK V1 M1 K1 V2 M2 K2 Hs] HR d.
  assert (Lv : length (map2 (fun x d => (x + d) mod 2 ^ U) xs ds) = length xs) by (apply map2_length_eq; auto).
  assert (Lm : length (map2 (fun x e => (x * r + e) mod 2 ^ U) xs es) = length xs) by (apply map2_length_eq; auto).
  assert (Hv : map2 (fun x d => (x + d) mod 2 ^ U) xs ds <> []) by (intros E; rewrite E in Lv; destruct xs; [congruence|discriminate]).
  pose proof (mac_check_duo G H U HU i V M key _ _ r s t (vec_RL _ _ _ HV) (vec_RL _ _ _ HM) HK Hv ltac:(congruence) V1 V2 M1 M2 K1 K2 Hs) as D.
  apply (duo_trace_sound i _ _ _ _ _ _ _ _ _ _ D) in HR. cbn [fst snd] in HR. destruct HR as (m1 & m2 & rest & W0 & W1 & W2 & E & E1 & E2 & HR).
  unfold third_error0, third_error1, third_error2, mac_draws in HR. rewrite Lv in HR.
  do 3 eexists. split; [exists m1, m2, rest, W0, W1, W2; repeat (split; [eassumption || reflexivity|]); reflexivity|].
  destruct HR as [HR|HR]; [left; exact HR|right]. unfold mac_relation. fold (mac_randoms G U (length xs) i s t) in HR. fold d in HR.
  erewrite mac_relation_eq in HR; [exact HR| | | |reflexivity|reflexivity]. all: unfold coef, sum3.
  all: assert (LD : forall p, length (d p) = (length xs + 3)%nat) by (intros p; unfold d, mac_randoms, by_pid; destruct (pid_eqb p i); [|destruct (pid_eqb p (next i))]; apply rnd_length).
  all: rewrite !map2_length_eq; rewrite ?map2_length_eq, ?firstn_length_le; rewrite ?LD; lia || (rewrite !firstn_length_le; rewrite ?LD; lia).
Qed.
Print Assumptions C26_relation.
(** How often can that happen?  Fix the errors, a position pos whose value is wrong modulo 2^K, and all
    coefficients but the one at pos ([rho], whose entry at pos is irrelevant).  Of the 2^(2U) pairs (key, coefficient at pos) at most (U+1) * 2^(U+K-1) are bad. *)
Theorem C26_detect : forall K U pos rho ds es e0 e1 e2, 1 <= K <= U -> (pos < length rho)%nat -> length ds = length rho -> length es = length rho ->
  nth pos ds 0 mod 2 ^ K <> 0 ->
  exists bad : list (Z * Z), Z.of_nat (length bad) <= (U + 1) * 2 ^ (U + K - 1) /\
    forall G H i V M key xs r (s t s' t' : sst G) l,
      mac_case G U i V M key xs ds es r s t ->
      let d := mac_randoms G U (length xs) i s t in
      (forall q, q <> pos -> nth q (coef (length xs) d) 0 = nth q rho 0) -> third_off U i V M key (length xs) d l e0 e1 e2 ->
      duo_trace i (verify_macs G H i U) (verify_macs G H (next i) U) s t s' t' tt tt l ->
      hash_collision G H (s_j G s') (s_j G t') \/ In (r, nth pos (coef (length xs) d) 0 mod 2 ^ U) bad.
Proof.
  intros K U pos rho ds es e0 e1 e2 HK Hp Ld Le Hd. exists (bad_pairs U pos rho ds es e0 e1 e2).
  split; [apply bad_pairs_few; assumption|]. intros G H i V M key xs r s t s' t' l HC d Hrho HT HR.
  assert (LD : length (coef (length xs) d) = length xs).
  { assert (LD : forall p, length (d p) = (length xs + 3)%nat) by (intros p; unfold d, mac_randoms, by_pid; destruct (pid_eqb p i); [|destruct (pid_eqb p (next i))]; apply rnd_length).
    unfold coef, sum3. rewrite !map2_length_eq; rewrite ?map2_length_eq, ?firstn_length_le; rewrite ?LD; lia || (rewrite !firstn_length_le; rewrite ?LD; lia). }
  destruct (C26_relation _ _ _ _ _ _ _ _ _ _ _ _ _ _ _ _ HC HR) as (f0 & f1 & f2 & HT' & HX). fold d in HT', HX.
  destruct HX as [HX|HX]; [left; exact HX|right].
  destruct HT as (m1 & m2 & rest & W0 & W1 & W2 & El & E1 & E2 & -> & -> & ->). destruct HT' as (m1' & m2' & rest' & W0' & W1' & W2' & El' & E1' & E2' & -> & -> & ->).
  rewrite El in El'. injection El' as <- <- <-. rewrite E1 in E1'. injection E1' as <- <-. rewrite E2 in E2'. injection E2' as <-.
  pose proof (mc_ds _ _ _ _ _ _ _ _ _ _ _ _ HC). pose proof (mc_es _ _ _ _ _ _ _ _ _ _ _ _ HC). pose proof (mc_key _ _ _ _ _ _ _ _ _ _ _ _ HC) as Hkey.
  apply bad_pairs_in; try lia; [| |exact HX].
  - intros c. symmetry. apply with_coef_ext; [lia|exact Hrho].
  - destruct Hkey as (_ & _ & ->). apply Z.mod_pos_bound, Z.pow_pos_nonneg; lia.
Qed.
Print Assumptions C26_detect.

(** Every execution under a schedule gives such a record. *)
Theorem C26_executions : forall S A i (p q : M S A) s t s' t' x y, duo_run i p q s t s' t' x y -> exists l, duo_trace i p q s t s' t' x y l.
Proof. intros S A i p q s t s' t' x y. apply duo_run_trace. Qed.
Print Assumptions C26_executions.
(** A concrete case: value 5 off by one, MAC 35 off by 7 (the attacker guessed the key 7), accepted; and one
    with the MAC left alone, where the relation (three times seven is zero) does not hold. *)
Definition mac_state (v m : Z) (p : pid) : sst one_rng :=
  SSt one_rng fresh (one_sided 7 p) [AShare (one_sided v p) (one_sided m p)] (s_prec one_rng (spdz_new one_rng (j_prf one_rng fresh))) (s_tb one_rng (spdz_new one_rng (j_prf one_rng fresh))).
Lemma one_sided_ok x : inr 64 x -> arith_shared 64 (one_sided x) x.
Proof. intros Hx. split; [intros []; cbn; unfold inr in *; lia|]. split; [intros []; reflexivity|]. cbn. rewrite !Z.add_0_r. symmetry. apply Z.mod_small. exact Hx. Qed.
Example C26_example :
  mac_case one_rng 64 P0 (fun p => [one_sided 6 p]) (fun p => [one_sided 42 p]) (one_sided 7) [5] [1] [7] 7 (mac_state 6 42 P0) (mac_state 6 42 P1) /\
  (exists s' t' l, duo_trace P0 (verify_macs one_rng pad_hasher P0 64) (verify_macs one_rng pad_hasher P1 64) (mac_state 6 42 P0) (mac_state 6 42 P1) s' t' tt tt l) /\
  coef 1 (mac_randoms one_rng 64 1 P0 (mac_state 6 42 P0) (mac_state 6 42 P1)) = [3] /\
  mac_relation 64 7 [3] [1] [7] 0 0 0 /\ ~ mac_relation 64 7 [3] [1] [0] 0 0 0.
Proof.
  split; [|split; [|split; [reflexivity|split; [reflexivity|intros C; discriminate C]]]].
  - split; try reflexivity; try (cbn; tauto); try discriminate; try (apply one_sided_ok; unfold inr; lia).
    + apply RL_vec. apply (RL_cons' (arith_shared 64) (one_sided 6) 6 (fun _ => []) []); [apply one_sided_ok; unfold inr; lia|apply RL_nil'].
    + apply RL_vec. apply (RL_cons' (arith_shared 64) (one_sided 42) 42 (fun _ => []) []); [apply one_sided_ok; unfold inr; lia|apply RL_nil'].
  - destruct (duo_example P0 (verify_macs one_rng pad_hasher P0 64) (verify_macs one_rng pad_hasher P1 64)
      (Send P0 (repeat 0 16) (Send P0 (repeat 0 8) (Send P0 (repeat 0 64) (Send P1 (repeat 0 64) (Fail EOther))))) (mac_state 6 42 P0) (mac_state 6 42 P1)
      ([P2; P2; P2; P2] ++ [P0; P0; P1; P1] ++ [P0; P0; P1; P1] ++ [P0; P0; P1; P1] ++ [P0; P0; P1; P1])) as (s' & t' & [] & [] & HR).
    + repeat (apply sends_bytes_send; [repeat constructor; unfold inr; cbn; lia|]). apply sends_bytes_fail.
    + reflexivity.
    + destruct (duo_run_trace _ _ _ _ _ _ _ _ _ HR) as [l Hl]. exists s', t', l. exact Hl.
Qed.
