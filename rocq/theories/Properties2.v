(** Properties C10 - C16 and C31 (ABY3 arithmetic and binary protocols). *)
From Verif Require Import Base Ring RingProofs Prog Sched Rel Rng Net BinTrait Iris IrisSpec MpcSpec ShareSpec Client Apis Aby3
  Aby3Proofs PropLemmas PropLemmas2 PropLemmas3 EngineProofs.

(** C10: products.  For every generator family and every synchronised generator state, under every
    schedule, the parties end with a sharing of the product. *)
Theorem C10_mul : forall (G : rng) K X x Y y (s : pid -> prf G), In K widths -> prf_synced s ->
  arith_shared K X x -> arith_shared K Y y ->
  honest_run (fun i => mul G i K (X i) (Y i)) s (fun s' W => prf_synced s' /\ arith_shared K W ((x * y) mod 2 ^ K)).
Proof. exact mul_run. Qed.
Print Assumptions C10_mul.
Theorem C10_mul_many : forall (G : rng) K X xs Y ys (s : pid -> prf G), In K widths -> prf_synced s ->
  vec_shared (arith_shared K) X xs -> vec_shared (arith_shared K) Y ys ->
  honest_run (fun i => mul_many G i K (X i) (Y i)) s
    (fun s' W => prf_synced s' /\ vec_shared (arith_shared K) W (map2 (fun x y => (x * y) mod 2 ^ K) xs ys)).
Proof. exact mul_many_run. Qed.
Print Assumptions C10_mul_many.
Theorem C10_dot : forall (G : rng) K X xs Y ys (s : pid -> prf G), In K widths -> prf_synced s ->
  vec_shared (arith_shared K) X xs -> vec_shared (arith_shared K) Y ys -> length xs = length ys ->
  honest_run (fun i => dot G i K (X i) (Y i)) s (fun s' W => prf_synced s' /\ arith_shared K W (dotp xs ys mod 2 ^ K)).
Proof. exact dot_run. Qed.
Print Assumptions C10_dot.
Theorem C10_dot_many : forall (G : rng) K X xss Y yss (s : pid -> prf G), In K widths -> prf_synced s ->
  vec_shared (vec_shared (arith_shared K)) X xss -> vec_shared (vec_shared (arith_shared K)) Y yss ->
  Forall2 (fun xs ys => length xs = length ys) xss yss ->
  honest_run (fun i => dot_many G i K (X i) (Y i)) s
    (fun s' W => prf_synced s' /\ vec_shared (arith_shared K) W (map2 (fun xs ys => dotp xs ys mod 2 ^ K) xss yss)).
Proof. exact dot_many_run. Qed.
Print Assumptions C10_dot_many.
Theorem C10_masked_dot_many : forall (G : rng) K A xs X yss (masks : list code) (s : pid -> prf G), In K widths -> prf_synced s ->
  vec_shared (arith_shared K) A xs -> vec_shared (vec_shared (arith_shared K)) X yss ->
  length xs = IRIS_CODE_SIZE -> Forall (fun ys => length ys = IRIS_CODE_SIZE) yss -> Forall wf_code masks ->
  honest_run (fun i => masked_dot_many G i K (A i) (X i) masks) s
    (fun s' W => prf_synced s' /\
       vec_shared (arith_shared K) W (map2 (fun ys m => mdotp xs ys (mask_bits m) mod 2 ^ K) yss masks)).
Proof. exact masked_dot_many_run. Qed.
Print Assumptions C10_masked_dot_many.
(** Length mismatches are rejected before any message: the program is the failure itself. *)
Theorem C10_sizes : forall (G : rng) K (i : pid) (s : prf G),
  (forall a b, length a <> length b -> dot G i K a b s = Fail EInvalidSize) /\
  (forall a b, length a <> length b -> dot_many G i K a b s = Fail EInvalidSize) /\
  (forall a b n x y, length a = length b -> nth_error a n = Some x -> nth_error b n = Some y -> length x <> length y ->
     dot_many G i K a b s = Fail EInvalidSize) /\
  (forall a b masks, length a <> IRIS_CODE_SIZE -> masked_dot_many G i K a b masks s = Fail EInvalidSize).
Proof.
  exact (fun G K i s => conj (dot_sizes G K i s) (conj (dot_many_outer G K i s) (conj (dot_many_inner G K i s) (masked_dot_outer G K i s)))).
Qed.
Print Assumptions C10_sizes.
Example C10_example : exists (X Y : pid -> list share),
  vec_shared (arith_shared 16) X [3; 65535] /\ vec_shared (arith_shared 16) Y [100; 2] /\ dotp [3; 65535] [100; 2] mod 2 ^ 16 = 298.
Proof.
  assert (H : forall l, Forall (inr 16) l -> vec_shared (arith_shared 16) (fun i => map (fun x => dealt 16 x 77 4242 i) l) l).
  { intros l Hl. apply (deal_vec 16 (fun _ => (77, 4242))); [lia|exact Hl|]. intros _. unfold inr. cbn. lia. }
  eexists. eexists. split; [apply H|split; [apply H|reflexivity]]; repeat constructor; unfold inr; lia.
Qed.

(** C11: setup synchronises the generators; zero shares add up to zero; any client program of
    operations leaves them synchronised (and opens the plain results at every party). *)
Theorem C11_setup : forall (G : rng) (seeds : pid -> list Z) (s : pid -> prf G), (forall i, length (seeds i) = 32%nat) ->
  honest_run (fun i => setup_prf_from_seed G i (seeds i)) s
    (fun s' _ => prf_synced s' /\ forall i, s' i = prf_new G (seeds i) (seeds (prev i))).
Proof. exact setup_run. Qed.
Print Assumptions C11_setup.
Theorem C11_zero_share : forall (G : rng) K (s : pid -> prf G), 0 <= K -> prf_synced s ->
  honest_run (fun _ => gen_zero_share G K) s (fun s' z => prf_synced s' /\ (z P0 + z P1 + z P2) mod 2 ^ K = 0).
Proof. exact zero_share_run. Qed.
Print Assumptions C11_zero_share.
Theorem C11_binary_zero_share : forall (G : rng) K (s : pid -> prf G), 0 <= K -> prf_synced s ->
  honest_run (fun _ => gen_binary_zero_share G K) s (fun s' z => prf_synced s' /\ Z.lxor (Z.lxor (z P0) (z P1)) (z P2) = 0).
Proof. exact bzero_share_run. Qed.
Print Assumptions C11_binary_zero_share.
Theorem C11_any_program : forall (G : rng) K cs p seeds (s : pid -> prf G), In K widths -> 3 <= K ->
  (forall i, length (seeds i) = 32%nat) -> eval K cs mem0 = Some p ->
  honest_run (fun i => bindM (setup_prf_from_seed G i (seeds i)) (fun _ => exec (aby3_api G K i) i cs mem0)) s
    (fun s' m => prf_synced s' /\ (forall i, aout (m i) = aout p) /\ (forall i, bout (m i) = bout p)).
Proof. exact setup_program_run. Qed.
Print Assumptions C11_any_program.
(** Two inputs by different parties, a product, a comparison and an or, then opening. *)
Example C11_example : eval 16 [CInput P0 300; CInput P2 65000; CMul 0 1; CSub 0 1; CMsbMany [0; 1; 3]%nat; CReduceOr [0; 1; 2]%nat 5;
    COpenMany [2; 3]%nat; COpenBitMany [0; 1; 2; 3]%nat] mem0 =
  Some (Mem [300; 65000; 35808; 836] [false; true; false; true] [35808; 836] [false; true; false; true]).
Proof. vm_compute. reflexivity. Qed.

(** C12: binary gates. *)
Theorem C12_and : forall (G : rng) K X x Y y (s : pid -> prf G), In K widths -> prf_synced s -> bin_shared K X x -> bin_shared K Y y ->
  honest_run (fun i => and_ G i K (X i) (Y i)) s (fun s' W => prf_synced s' /\ bin_shared K W (Z.land x y)).
Proof. exact and_run. Qed.
Print Assumptions C12_and.
Theorem C12_and_many : forall (G : rng) K X xs Y ys (s : pid -> prf G), In K widths -> prf_synced s ->
  vec_shared (bin_shared K) X xs -> vec_shared (bin_shared K) Y ys -> length xs = length ys ->
  honest_run (fun i => and_many G i K (X i) (Y i)) s
    (fun s' W => prf_synced s' /\ vec_shared (bin_shared K) W (map2 Z.land xs ys)).
Proof. exact and_many_run. Qed.
Print Assumptions C12_and_many.
Theorem C12_or : forall (G : rng) K X x Y y (s : pid -> prf G), In K widths -> prf_synced s -> bin_shared K X x -> bin_shared K Y y ->
  honest_run (fun i => b_or (aby3_bin G i K) (X i) (Y i)) s (fun s' W => prf_synced s' /\ bin_shared K W (Z.lor x y)).
Proof. exact or_run. Qed.
Print Assumptions C12_or.
Theorem C12_or_many : forall (G : rng) K X xs Y ys (s : pid -> prf G), In K widths -> prf_synced s ->
  vec_shared (bin_shared K) X xs -> vec_shared (bin_shared K) Y ys -> length xs = length ys ->
  honest_run (fun i => or_many (aby3_bin G i K) (X i) (Y i)) s
    (fun s' W => prf_synced s' /\ vec_shared (bin_shared K) W (map2 Z.lor xs ys)).
Proof. exact or_many_run. Qed.
Print Assumptions C12_or_many.
Definition bin_dealt (x a b : Z) (i : pid) : share :=
  match i with P0 => Share a (Z.lxor (Z.lxor x a) b) | P1 => Share b a | P2 => Share (Z.lxor (Z.lxor x a) b) b end.
Example C12_example : bin_shared 8 (bin_dealt 202 17 99) 202 /\ bin_shared 8 (bin_dealt 60 1 2) 60 /\ Z.land 202 60 = 8.
Proof. split; [|split; [|reflexivity]]; (split; [intros []; unfold inr; cbn; lia|split; [intros []; reflexivity|reflexivity]]). Qed.

(** C13: arithmetic to binary conversion, and the adder on its own. *)
Theorem C13_a2b : forall (G : rng) K X x (s : pid -> prf G), In K widths -> prf_synced s -> arith_shared K X x ->
  honest_run (fun i => arithmetic_to_binary G i K (X i)) s (fun s' W => prf_synced s' /\ bin_shared K W x).
Proof. exact a2b_run. Qed.
Print Assumptions C13_a2b.
Theorem C13_a2b_many : forall (G : rng) K X xs (s : pid -> prf G), In K widths -> prf_synced s -> vec_shared (arith_shared K) X xs ->
  honest_run (fun i => arithmetic_to_binary_many G i K (X i)) s (fun s' W => prf_synced s' /\ vec_shared (bin_shared K) W xs).
Proof. exact a2b_many_run. Qed.
Print Assumptions C13_a2b_many.
Theorem C13_adder : forall (G : rng) K X1 x1 X2 x2 X3 x3 (s : pid -> prf G), In K widths -> prf_synced s ->
  bin_shared K X1 x1 -> bin_shared K X2 x2 -> bin_shared K X3 x3 ->
  honest_run (fun i => binary_add_3 (aby3_bin G i K) (X1 i) (X2 i) (X3 i)) s
    (fun s' W => prf_synced s' /\ bin_shared K W ((x1 + x2 + x3) mod 2 ^ K)).
Proof. exact add3_run. Qed.
Print Assumptions C13_adder.
Example C13_example : In 16 widths /\ prf_synced (fun i => prf_new lcg [pid_num i] [pid_num (prev i)]) /\
  arith_shared 16 (dealt 16 40000 7 60000) 40000.
Proof. split; [vm_compute; tauto|]. split; [intros []; reflexivity|]. apply dealt_shared; unfold inr; lia. Qed.

(** C14: most significant bits. *)
Theorem C14_get_msb : forall (G : rng) K X x (s : pid -> prf G), In K widths -> prf_synced s -> arith_shared K X x ->
  honest_run (fun i => get_msb_share G i K (X i)) s (fun s' W => prf_synced s' /\ bin_shared 1 W (Z.b2z (Z.testbit x (K - 1)))).
Proof. exact msb_run. Qed.
Print Assumptions C14_get_msb.
Theorem C14_get_msb_many : forall (G : rng) K X xs (s : pid -> prf G), In K widths -> 1 < K -> prf_synced s -> xs <> [] ->
  vec_shared (arith_shared K) X xs ->
  honest_run (fun i => get_msb_many G i K (X i)) s
    (fun s' W => prf_synced s' /\ vec_shared (bin_shared 1) W (map (fun x => Z.b2z (Z.testbit x (K - 1))) xs)).
Proof. exact msb_many_run. Qed.
Print Assumptions C14_get_msb_many.
(** The empty batch is not served: no result, whatever arrives (the code panics). *)
Theorem C14_empty_batch_refuted : forall (G : rng) K (i : pid) (s : prf G), 1 < K -> no_result (get_msb_many G i K [] s).
Proof. exact msb_many_empty. Qed.
Print Assumptions C14_empty_batch_refuted.
Example C14_example : exists X, vec_shared (arith_shared 16) X (repeat 40000 300) /\ Z.testbit 40000 15 = true.
Proof.
  eexists. split; [|reflexivity]. apply (deal_vec 16 (fun _ => (77, 4242))); [lia| |].
  - apply Forall_forall. intros z Hz. apply repeat_spec in Hz. subst. unfold inr. lia.
  - intros _. unfold inr. cbn. lia.
Qed.

(** C15: transposition.  Entry (row r, word w), bit n, is bit r of input value 128 w + n, and zero
    when there is no such value (the default share is zero). *)
Theorem C15_transpose : forall K (x : list share) r w row sh,
  nth_error (transpose_pack_u128 K x) r = Some row -> nth_error row w = Some sh ->
  forall n, (n < 128)%nat ->
    Z.testbit (sa sh) (Z.of_nat n) = Z.testbit (sa (nth (128 * w + n) x szero)) (Z.of_nat r) /\
    Z.testbit (sb sh) (Z.of_nat n) = Z.testbit (sb (nth (128 * w + n) x szero)) (Z.of_nat r).
Proof. exact transpose_bits. Qed.
Print Assumptions C15_transpose.
Theorem C15_shape : forall K (x : list share), 0 <= K ->
  Z.of_nat (length (transpose_pack_u128 K x)) = K /\
  Forall (fun row => length row = Nat.div (length x + 127) 128) (transpose_pack_u128 K x).
Proof. exact transpose_shape. Qed.
Print Assumptions C15_shape.
Theorem C15_xor : forall x y r w rx ry sx sy,
  nth_error x r = Some rx -> nth_error y r = Some ry -> nth_error rx w = Some sx -> nth_error ry w = Some sy ->
  exists row, nth_error (transposed_pack_xor x y) r = Some row /\ nth_error row w = Some (sh_xor sx sy).
Proof. exact txor_entry. Qed.
Print Assumptions C15_xor.
Example C15_example : nth_error (transpose_pack_u128 8 (repeat (Share 6 1) 130)) 1 =
  Some [Share (2 ^ 128 - 1) 0; Share 3 0].
Proof. vm_compute. reflexivity. Qed.

(** C16: or-reduction of a vector of shared bits, any length, any positive chunk size. *)
Theorem C16_reduce_or : forall (G : rng) X (bs : list bool) chunk (s : pid -> prf G), prf_synced s -> (0 < chunk)%nat -> bs <> [] ->
  vec_shared (bin_shared 1) X (map Z.b2z bs) ->
  honest_run (fun i => aby3_reduce_binary_or G i (X i) chunk) s
    (fun s' W => prf_synced s' /\ bin_shared 1 W (Z.b2z (existsb (fun b => b) bs))).
Proof. exact reduce_or_run. Qed.
Print Assumptions C16_reduce_or.
Example C16_example : vec_shared (bin_shared 1) (fun i => [bin_dealt 1 1 0 i; bin_dealt 0 1 1 i]) (map Z.b2z [true; false]).
Proof.
  split; [intros i; reflexivity|]. intros [|[|[|n]]] x H; cbn in H; try discriminate; injection H as <-;
    eexists; (split; [intros i; reflexivity|]); (split; [intros []; unfold inr; cbn; lia|split; [intros []; reflexivity|reflexivity]]).
Qed.

(** C31 for ABY3 (and, with the same code, malicious ABY3). *)
Theorem C31_aby3_partial : forall K X x, 0 < K -> bin_shared K X x -> bin_shared K (fun i => sh_not K (X i)) (2 ^ K - 1 - x).
Proof. exact (fun K X x HK HX => proj2 (proj2 (proj2 (proj2 (linear_bin K X x X x 0 0 HK (conj (Z.le_refl 0) (Z.pow_pos_nonneg 2 K eq_refl (Z.lt_le_incl _ _ HK))) HX HX))))). Qed.
Print Assumptions C31_aby3_partial.
