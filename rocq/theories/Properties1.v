(** Properties C01 - C09 (ring elements, iris codes, scheduling, ABY3 sharing). *)
From Verif Require Import Base Ring RingProofs Prog Sched Rel Rng Net BinTrait Iris IrisSpec IrisProofs MpcSpec ShareSpec Aby3
  Aby3Proofs PropLemmas PropLemmas2 PropLemmas3.

(** C01: writing then reading an element returns it and consumes exactly the written bytes. *)
Theorem C01_element_roundtrip : forall K x rest, In K widths -> inr K x ->
  take_from_bytes K (to_bytes K x ++ rest) = Ok (x, rest) /\
  from_bytes K (to_bytes K x) = Ok x /\
  length (to_bytes K x) = nbytes K /\ Forall byte (to_bytes K x).
Proof. exact (fun K x rest HK Hx => conj (take_to_bytes K x rest HK Hx) (conj (from_to_bytes K x HK Hx) (conj (to_bytes_length K x) (to_bytes_bytes K x)))). Qed.
Print Assumptions C01_element_roundtrip.

(** C01: the decoder accepts nothing but the encodings (so the codec is a bijection). *)
Theorem C01_element_canonical : forall K bs x, In K widths -> Forall byte bs -> from_bytes K bs = Ok x ->
  inr K x /\ bs = to_bytes K x.
Proof. exact (fun K bs x HK Hb H => conj (from_bytes_range K bs x HK Hb H) (from_bytes_canonical K bs x HK Hb H)). Qed.
Print Assumptions C01_element_canonical.

Theorem C01_vector_roundtrip : forall K l, In K widths -> Forall (inr K) l ->
  ring_vec_from_bytes K (ring_slice_to_bytes K l) (length l) = Ok l /\
  ring_iter_from_bytes K (ring_slice_to_bytes K l) (length l) = Ok l.
Proof. exact (fun K l HK H => conj (vec_roundtrip K l HK H) (iter_roundtrip K l HK H)). Qed.
Print Assumptions C01_vector_roundtrip.

Theorem C01_vector_canonical : forall K bs n l, In K widths -> Forall byte bs ->
  ring_vec_from_bytes K bs n = Ok l \/ ring_iter_from_bytes K bs n = Ok l ->
  Forall (inr K) l /\ length l = n /\ bs = ring_slice_to_bytes K l.
Proof. exact (fun K bs n l HK Hb H => match H with or_introl A => vec_canonical K bs n l HK Hb A | or_intror B => iter_canonical K bs n l HK Hb B end). Qed.
Print Assumptions C01_vector_canonical.

Theorem C01_wrong_length : forall K bs n, length bs <> (n * nbytes K)%nat ->
  ring_vec_from_bytes K bs n = Err EConversion /\ ring_iter_from_bytes K bs n = Err EConversion.
Proof. exact (fun K bs n H => conj (vec_wrong_length K bs n H) (iter_wrong_length K bs n H)). Qed.
Print Assumptions C01_wrong_length.

Example C01_example : In 16 widths /\ Forall (inr 16) [513; 65535] /\
  ring_slice_to_bytes 16 [513; 65535] = [2; 1; 255; 255] /\ map nbytes widths = [1; 1; 2; 4; 8; 16]%nat.
Proof. repeat split; try (vm_compute; tauto); repeat constructor; vm_compute; congruence. Qed.

(** C02 holds for the vector parser, for single elements, and for every type but Bit... *)
Theorem C02_partial : forall K bs n e,
  (ring_vec_from_bytes K bs n = Err e -> e = EConversion) /\
  (from_bytes K bs = Err e -> e = EConversion) /\
  (In K widths -> K <> 1 -> ring_iter_from_bytes K bs n <> Err EPanic).
Proof. exact (fun K bs n e => conj (vec_no_panic K bs n e) (conj (from_no_panic K bs e) (fun HK H => iter_no_panic K bs n HK H))). Qed.
Print Assumptions C02_partial.
(** ... and is false for vectors of Bits: opening a vector of bit shares panics when the peer sends the
    byte 2. *)
Theorem C02_refuted : exists (m : msg), Forall byte m /\
  forall G (s : prf G), exists out k,
    open_bit_many G P0 [szero] s = Send P1 out (Recv P2 k) /\ k m = Fail EPanic.
Proof. exact bit_panic. Qed.
Print Assumptions C02_refuted.

(** C03: inverses modulo 2^K; u128 is not implemented. *)
Theorem C03_inverse_odd : forall K x, In K [8; 16; 32; 64] -> inr K x -> Z.odd x = true ->
  exists y, inverse K x = Some (Ok y) /\ inr K y /\ (x * y) mod 2 ^ K = 1.
Proof. exact inverse_odd. Qed.
Print Assumptions C03_inverse_odd.
Theorem C03_inverse_even : forall K x, In K [1; 8; 16; 32; 64] -> inr K x -> Z.odd x = false ->
  inverse K x = Some (Err ENoInverse).
Proof. exact inverse_even. Qed.
Print Assumptions C03_inverse_even.
Theorem C03_inverse_bit_one : inverse 1 1 = Some (Ok 1).
Proof. exact eq_refl. Qed.
Print Assumptions C03_inverse_bit_one.
Example C03_example : inr 16 12345 /\ Z.odd 12345 = true /\ inverse 16 12345 = Some (Ok 48649).
Proof. repeat split; vm_compute; congruence. Qed.

(** C04: an iris code is an array of 12800 independent bits. *)
Theorem C04_set_get : forall c i v, wf_code c -> 0 <= i < 12800 ->
  exists c', set_bit c i v = Ok c' /\ wf_code c' /\ Iris.get_bit c' i = Ok v /\
    (forall j, 0 <= j < 12800 -> j <> i -> Iris.get_bit c' j = Iris.get_bit c j).
Proof. exact set_get. Qed.
Print Assumptions C04_set_get.
Theorem C04_flip_get : forall c i, wf_code c -> 0 <= i < 12800 ->
  exists c' b, flip_bit c i = Ok c' /\ wf_code c' /\ Iris.get_bit c i = Ok b /\ Iris.get_bit c' i = Ok (negb b) /\
    (forall j, 0 <= j < 12800 -> j <> i -> Iris.get_bit c' j = Iris.get_bit c j).
Proof. exact flip_get. Qed.
Print Assumptions C04_flip_get.
Theorem C04_out_of_range : forall c i v, wf_code c -> 12800 <= i ->
  Iris.get_bit c i = Err EPanic /\ set_bit c i v = Err EPanic /\ flip_bit c i = Err EPanic.
Proof. exact (fun c i v H Hi => conj (get_bit_oob c i H Hi) (conj (set_bit_oob c i v H Hi) (flip_bit_oob c i H Hi))). Qed.
Print Assumptions C04_out_of_range.
Theorem C04_bits_iterator : forall c, wf_code c -> exists l, bits c = Ok l /\ length l = IRIS_CODE_SIZE /\
  forall n b, nth_error l n = Some b -> Iris.get_bit c (Z.of_nat n) = Ok b.
Proof. exact bits_get. Qed.
Print Assumptions C04_bits_iterator.
Theorem C04_count_ones : forall c, wf_code c -> count_ones c = count (bit_at c).
Proof. exact count_ones_spec. Qed.
Print Assumptions C04_count_ones.
Theorem C04_bitwise : forall a b i, wf_code a -> wf_code b -> 0 <= i < 12800 ->
  exists x y, Iris.get_bit a i = Ok x /\ Iris.get_bit b i = Ok y /\
    Iris.get_bit (code_and a b) i = Ok (x && y) /\ Iris.get_bit (code_xor a b) i = Ok (xorb x y).
Proof. exact ops_get. Qed.
Print Assumptions C04_bitwise.
Example C04_example : wf_code ONES /\ wf_code ZERO /\ count_ones ONES = 12800 /\
  exists c, set_bit ZERO 12799 true = Ok c /\ Iris.get_bit c 12799 = Ok true.
Proof.
  destruct codes_wf as [W0 W1]. split; [exact W1|]. split; [exact W0|]. split.
  - rewrite count_ones_spec by exact W1. apply count_all, bit_at_ONES.
  - destruct (set_get ZERO 12799 true W0 ltac:(lia)) as (c & H1 & _ & H2 & _). exists c. auto.
Qed.

(** C05: the plain matching rule, in terms of sets of positions, with the exact integer thresholds. *)
Theorem C05_is_close : forall a b, wf_iris a -> wf_iris b ->
  (is_close a b = Err EPanic <-> ~ enough_valid a b) /\
  (is_close a b = Ok true <-> enough_valid a b /\ close a b) /\
  (is_close a b = Ok false <-> enough_valid a b /\ ~ close a b).
Proof. exact is_close_spec. Qed.
Print Assumptions C05_is_close.
Theorem C05_symmetric : forall a b, wf_iris a -> wf_iris b -> is_close a b = is_close b a.
Proof. exact is_close_sym. Qed.
Print Assumptions C05_symmetric.
Theorem C05_reflexive : forall a, wf_iris a -> 100 * count (bit_at (ir_mask a)) >= 70 * 12800 -> is_close a a = Ok true.
Proof. exact is_close_refl. Qed.
Print Assumptions C05_reflexive.
Example C05_example : wf_iris ir0 /\ wf_iris ir1 /\ is_close ir0 ir1 = Ok false /\ is_close ir0 ir0 = Ok true.
Proof.
  destruct ir_wf as [W0 W1]. split; [exact W0|]. split; [exact W1|]. split.
  - apply (is_close_spec _ _ W0 W1). split; [apply ir_enough; cbn; tauto|apply ir_close].
  - apply (is_close_spec _ _ W0 W0). split; [apply ir_enough; cbn; tauto|apply ir_close].
Qed.

(** C06: if some schedule reaches a configuration where nobody can move, every schedule reaches that
    same configuration, after the same number of steps; a run that finishes with results R always does. *)
Theorem C06_confluence : forall (A : Type) (P : pid -> prog A) s f, steps s (start P) f -> stuck f ->
  forall s' c, steps s' (start P) c ->
    (length s' <= length s)%nat /\
    (exists s'', steps s'' c f /\ (length s' + length s'' = length s)%nat) /\ (stuck c -> c = f).
Proof. exact confluence. Qed.
Print Assumptions C06_confluence.
Theorem C06_finished : forall (A : Type) (P : pid -> prog A) R, evals P R -> always_evals P R.
Proof. exact @evals_always. Qed.
Print Assumptions C06_finished.
Theorem C06_unique_result : forall (A : Type) (P : pid -> prog A) R R', evals P R -> evals P R' -> forall i, R i = R' i.
Proof. exact @evals_unique. Qed.
Print Assumptions C06_unique_result.
Example C06_example : evals (fun i => send_and_receive i [pid_num i]) (fun i => [pid_num (prev i)]).
Proof. exact ring_exchange. Qed.

(** C07: share/open and input/open round trips, at every party, under every schedule. *)
Theorem C07_share_open : forall (G D : rng) K x r (s : pid -> prf G), In K widths -> inr K x ->
  let '(_, (x0, x1, x2)) := share_value D K x r in
  honest_run (fun i => open G i K (match i with P0 => x0 | P1 => x1 | P2 => x2 end)) s
    (fun s' v => s' = s /\ forall i, v i = x).
Proof. exact share_open. Qed.
Print Assumptions C07_share_open.
Theorem C07_input_open : forall (G : rng) K v p x (s : pid -> prf G), In K widths -> inr K x -> v p = Some x -> prf_synced s ->
  honest_run (fun i => bindM (input G i K (v i) (pid_num p)) (open G i K)) s
    (fun s' r => prf_synced s' /\ forall i, r i = x).
Proof. exact input_open. Qed.
Print Assumptions C07_input_open.
Theorem C07_open_many : forall (G : rng) K X xs (s : pid -> prf G), In K widths -> vec_shared (arith_shared K) X xs ->
  honest_run (fun i => open_many G i K (X i)) s (fun s' v => s' = s /\ forall i, v i = xs).
Proof. exact open_many_run. Qed.
Print Assumptions C07_open_many.
Theorem C07_open_bit : forall (G : rng) X (b : bool) (s : pid -> prf G), bin_shared 1 X (Z.b2z b) ->
  honest_run (fun i => open_bit G i (X i)) s (fun s' v => s' = s /\ forall i, v i = b).
Proof. exact open_bit_run. Qed.
Print Assumptions C07_open_bit.
Theorem C07_open_bit_many : forall (G : rng) X (bs : list bool) (s : pid -> prf G), vec_shared (bin_shared 1) X (map Z.b2z bs) ->
  honest_run (fun i => open_bit_many G i (X i)) s (fun s' v => s' = s /\ forall i, v i = bs).
Proof. exact open_bit_many_run. Qed.
Print Assumptions C07_open_bit_many.
Theorem C07_input_rejected : forall (G : rng) K i (s : prf G),
  (forall v id, 3 <= id -> input G i K v id s = Fail (EId id)) /\ input G i K None (pid_num i) s = Fail EValue.
Proof. exact (fun G K i s => conj (fun v id H => input_bad_id G K v id i s H) (input_none G K i s)). Qed.
Print Assumptions C07_input_rejected.
(** The hypotheses are met: generators right after setup, and a dealt sharing. *)
Example C07_example : prf_synced (fun i => prf_new lcg [pid_num i] [pid_num (prev i)]) /\
  arith_shared 16 (dealt 16 40000 7 60000) 40000 /\ bin_shared 1 (fun i => match i with P0 => Share 1 0 | P1 => Share 0 1 | P2 => Share 0 0 end) 1.
Proof.
  split; [intros []; reflexivity|]. split; [apply dealt_shared; unfold inr; lia|].
  split; [intros []; unfold inr; cbn; lia|]. split; [intros []; reflexivity|reflexivity].
Qed.

(** C08 (ABY3): for every secret x, party i and possible share (u, v) exactly one choice (a, b) of the
    dealer's two random ring elements gives party i that share: the share is uniformly distributed,
    whatever x is. *)
Theorem C08_aby3_share_uniform : forall K x i u v, 0 <= K -> inr K x -> inr K u -> inr K v ->
  exists a b, (inr K a /\ inr K b /\ dealt K x a b i = Share u v) /\
    forall a' b', inr K a' -> inr K b' -> dealt K x a' b' i = Share u v -> a' = a /\ b' = b.
Proof. exact dealt_unique. Qed.
Print Assumptions C08_aby3_share_uniform.
(** [dealt] is what [share] computes from its two draws, and it is a sharing of x. *)
Theorem C08_aby3_dealt : forall (G : rng) K x r,
  snd (share_value G K x r) =
  let a := snd (draw G K r) in let b := snd (draw G K (fst (draw G K r))) in
  (dealt K x a b P0, dealt K x a b P1, dealt K x a b P2).
Proof. exact share_value_dealt. Qed.
Print Assumptions C08_aby3_dealt.
Theorem C08_aby3_dealt_shares : forall K x a b, 0 <= K -> inr K x -> inr K a -> inr K b -> arith_shared K (dealt K x a b) x.
Proof. exact dealt_shared. Qed.
Print Assumptions C08_aby3_dealt_shares.
Example C08_example : dealt 8 200 17 100 P2 = Share 83 100 /\ dealt 8 5 78 100 P2 = Share 83 100.
Proof. split; reflexivity. Qed.

(** C09: linear operations, local (they are functions of one party's shares). *)
Theorem C09_arithmetic : forall K X x Y y c, 0 <= K -> arith_shared K X x -> arith_shared K Y y ->
  arith_shared K (fun i => sh_add K (X i) (Y i)) ((x + y) mod 2 ^ K) /\
  arith_shared K (fun i => sh_sub K (X i) (Y i)) ((x - y) mod 2 ^ K) /\
  arith_shared K (fun i => sh_neg K (X i)) ((- x) mod 2 ^ K) /\
  arith_shared K (fun i => sh_mulc K (X i) c) ((x * c) mod 2 ^ K) /\
  arith_shared K (fun i => sh_add_const i K (X i) c) ((x + c) mod 2 ^ K) /\
  arith_shared K (fun i => sh_sub_const i K (X i) c) ((x - c) mod 2 ^ K).
Proof. exact linear_arith. Qed.
Print Assumptions C09_arithmetic.
Theorem C09_binary : forall K X x Y y c n, 0 < K -> inr K c -> bin_shared K X x -> bin_shared K Y y ->
  bin_shared K (fun i => sh_xor (X i) (Y i)) (Z.lxor x y) /\
  bin_shared K (fun i => sh_andc (X i) c) (Z.land x c) /\
  bin_shared K (fun i => sh_xor_const i (X i) c) (Z.lxor x c) /\
  bin_shared K (fun i => sh_shl K (X i) n) (rshl K x n) /\
  bin_shared K (fun i => sh_not K (X i)) (2 ^ K - 1 - x).
Proof. exact linear_bin. Qed.
Print Assumptions C09_binary.
Example C09_example : arith_shared 16 (fun i => sh_add 16 (dealt 16 40000 7 60000 i) (dealt 16 40000 1 2 i)) 14464.
Proof. exact (sh_add_ok 16 ltac:(lia) _ 40000 _ 40000 (proj1 (proj2 C07_example)) (dealt_shared 16 40000 1 2 ltac:(lia) ltac:(unfold inr; lia) ltac:(unfold inr; lia) ltac:(unfold inr; lia))). Qed.
