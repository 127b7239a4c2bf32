(** C49: what the verification of Swift3's proofs discloses about the gates. *)
From Verif Require Import Base Ring RingProofs Gf2 Poly PolyProofs PolyDiv PolyRem PolyPar Swift3 Dzkp DzkpSpec DzkpAnd GaloisSpec Galois GaloisGates GaloisMul PrivacySpec PrivateGates StreamProofs CheatSpec Rng Prog Swift3Verify Properties10 Properties11.
Local Open Scope list_scope.

(** The receiver of a verification message holds its shares gates2 and regenerates p2; every evaluation point
    outside 0, ..., m hides the gates from it: any other correct gates that agree with its shares produce the same
    messages, after a shift of the prover's random values by some delta that depends neither on those values nor
    on the challenges betas nor on p2.  So the message has the same distribution for all gates. *)
Theorem C49_and : forall l m gates gates' gates1 gates1' gates2 thetas r,
  (N.of_nat m < r)%N -> u64 r -> length gates = (l * m)%nat -> length gates' = (l * m)%nat ->
  gates_joined gates gates1 gates2 -> gates_joined gates' gates1' gates2 -> Forall and_correct gates -> Forall and_correct gates' -> u64s l thetas ->
  exists delta, u64s (6 * l) delta /\ forall betas w p2, u64s m betas -> u64s (6 * l) w -> and_proof_share l m p2 ->
    exists s, and_message l m gates gates1 thetas betas r w p2 = Ok s /\ and_message l m gates' gates1' thetas betas r (map2 N.lxor w delta) p2 = Ok s.
Proof. exact and_private. Qed.
Print Assumptions C49_and.
(** The evaluation points that the code does not draw again are those. *)
Theorem C49_and_point : forall m r, gf_again m r = false <-> (N.of_nat m < r)%N.
Proof. intros m r. unfold gf_again. rewrite N.leb_gt. reflexivity. Qed.
Print Assumptions C49_and_point.
Theorem C49_mul_partial : forall K l m f gates gates' gates1 gates1' gates2 thetas r, In K [8; 16; 32] -> irreducible_poly (mod_degree m) = Ok f ->
  element K (mod_degree m) r -> avoids_points m r -> length gates = (l * m)%nat -> length gates' = (l * m)%nat ->
  mul_joined K gates gates1 gates2 -> mul_joined K gates' gates1' gates2 -> Forall (mul_correct K) gates -> Forall (mul_correct K) gates' -> polys K l thetas ->
  exists delta, elements K (mod_degree m) (6 * l) delta /\
    forall betas w p2, polys K m betas -> elements K (mod_degree m) (6 * l) w -> gr_share K 6 l m p2 ->
    exists s, mul_message K f l m gates gates1 thetas betas r w p2 = Ok s /\ mul_message K f l m gates' gates1' thetas betas r (elements_add K w delta) p2 = Ok s.
Proof.
  intros K l m f gates gates' gates1 gates1' gates2 thetas r HS Hf Hr Ha L L' HJ HJ' HC HC' Ht. pose proof (mul_joined_map _ _ _ _ HJ) as E. pose proof (mul_joined_map _ _ _ _ HJ') as E'.
  destruct HJ as (W1 & W2 & L1 & L2 & _). destruct HJ' as (W1' & _ & L1' & _ & _).
  exact (kind_private K HS m f Hf l mul_inputs (mul_join K) (mul_wf K) (mul_correct K) 6 c_mul pin_zero ltac:(lia) (mul_cf K HS m f) (mul_inp K) (mul_joins K HS)
    (fun g _ => mul_gate K HS m f Hf g) gates gates' gates1 gates1' gates2 thetas r E E' W1 W1' W2 ltac:(lia) ltac:(lia) ltac:(lia) HC HC' Ht Hr Ha).
Qed.
Print Assumptions C49_mul_partial.
Theorem C49_dot_partial : forall K dot l m f gates gates' gates1 gates1' gates2 thetas r, In K [8; 16; 32] -> irreducible_poly (mod_degree m) = Ok f ->
  element K (mod_degree m) r -> avoids_points m r -> length gates = (l * m)%nat -> length gates' = (l * m)%nat ->
  dot_joined K dot gates gates1 gates2 -> dot_joined K dot gates' gates1' gates2 -> Forall (dot_correct K) gates -> Forall (dot_correct K) gates' -> polys K l thetas ->
  exists delta, elements K (mod_degree m) ((4 * dot + 2) * l) delta /\
    forall betas w p2, polys K m betas -> elements K (mod_degree m) ((4 * dot + 2) * l) w -> gr_share K (4 * dot + 2) l m p2 ->
    exists s, dot_message K f dot l m gates gates1 thetas betas r w p2 = Ok s /\ dot_message K f dot l m gates' gates1' thetas betas r (elements_add K w delta) p2 = Ok s.
Proof.
  intros K dot l m f gates gates' gates1 gates1' gates2 thetas r HS Hf Hr Ha L L' HJ HJ' HC HC' Ht. pose proof (dot_joined_map _ _ _ _ _ HJ) as E. pose proof (dot_joined_map _ _ _ _ _ HJ') as E'.
  destruct HJ as (W1 & W2 & L1 & L2 & _). destruct HJ' as (W1' & _ & L1' & _ & _).
  exact (kind_private K HS m f Hf l dot_inputs (dot_join K) (dot_wf K dot) (dot_correct K) (4 * dot + 2) (c_dot dot) din_nil ltac:(lia) (dot_cf K HS m f dot) (dot_inp K dot) (dot_joins K HS dot)
    (dot_gate K HS m f Hf dot) gates gates' gates1 gates1' gates2 thetas r E E' W1 W1' W2 ltac:(lia) ltac:(lia) ltac:(lia) HC HC' Ht Hr Ha).
Qed.
Print Assumptions C49_dot_partial.

(** For multiplications and inner products the code only draws again while the constant coefficient of r is zero
    (protocol.rs:1901-1905), and so admits every odd point.  At such a point the message IS the sending
    verifier's shares of the gates of one column, whatever the prover's random values. *)
Theorem C49_mul_exposed : forall K l m f gates gates1 gates2 thetas betas w p2 k, In K [8; 16; 32] -> irreducible_poly (mod_degree m) = Ok f ->
  mul_joined K gates gates1 gates2 -> length gates = (l * m)%nat -> Forall (mul_correct K) gates ->
  polys K l thetas -> polys K m betas -> polys K (6 * l) w -> gr_share K 6 l m p2 -> (1 <= k <= m)%nat -> Nat.odd k = true ->
  let r := point_bits k ++ repeat 0 (mod_degree m - length (point_bits k)) in
  element K (mod_degree m) r /\ poly_again r = false /\
  exists s, mul_message K f l m gates gates1 thetas betas r w p2 = Ok s /\
    ds_f s = flat_map (fun j => let g := nth (j * m + (k - 1)) gates1 pin_zero in [[p_a0 g]; [p_a1 g]; [p_b0 g]; [p_b1 g]; [p_r g]; [p_s g]]) (seq 0 l).
Proof.
  intros K l m f gates gates1 gates2 thetas betas w p2 k HS Hf HJ L HC Ht Hb Hw Hp Hk Ho r. pose proof (mul_joined_map _ _ _ _ HJ) as E. destruct HJ as (W1 & W2 & L1 & L2 & _).
  split; [apply (fill_element K); [exact (widths_pos K (small_in K HS))|apply point_short; lia|apply GaloisPoints.point_wf; exact (widths_pos K (small_in K HS))]|].
  split; [apply odd_allowed; exact Ho|].
  exact (kind_reveals K HS m f Hf l mul_inputs (mul_join K) (mul_wf K) (mul_correct K) 6 c_mul pin_zero ltac:(lia) (mul_cf K HS m f) (mul_inp K) (mul_joins K HS)
    (fun g _ => mul_gate K HS m f Hf g) (fun g => ltac:(repeat constructor; eexists; reflexivity)) gates gates1 gates2 thetas betas w p2 k E W1 W2 ltac:(lia) ltac:(lia) HC Ht Hb Hw Hp Hk).
Qed.
Print Assumptions C49_mul_exposed.

Theorem C49_dot_exposed : forall K dot l m f gates gates1 gates2 thetas betas w p2 k, In K [8; 16; 32] -> irreducible_poly (mod_degree m) = Ok f ->
  dot_joined K dot gates gates1 gates2 -> length gates = (l * m)%nat -> Forall (dot_correct K) gates ->
  polys K l thetas -> polys K m betas -> polys K ((4 * dot + 2) * l) w -> gr_share K (4 * dot + 2) l m p2 -> (1 <= k <= m)%nat -> Nat.odd k = true ->
  let r := point_bits k ++ repeat 0 (mod_degree m - length (point_bits k)) in
  element K (mod_degree m) r /\ poly_again r = false /\
  exists s, dot_message K f dot l m gates gates1 thetas betas r w p2 = Ok s /\
    ds_f s = flat_map (fun j => let g := nth (j * m + (k - 1)) gates1 din_nil in map (fun x => [x]) (d_a0 g ++ d_a1 g ++ d_b0 g ++ d_b1 g ++ [d_r g; d_s g])) (seq 0 l).
Proof.
  intros K dot l m f gates gates1 gates2 thetas betas w p2 k HS Hf HJ L HC Ht Hb Hw Hp Hk Ho r. pose proof (dot_joined_map _ _ _ _ _ HJ) as E. destruct HJ as (W1 & W2 & L1 & L2 & _).
  split; [apply (fill_element K); [exact (widths_pos K (small_in K HS))|apply point_short; lia|apply GaloisPoints.point_wf; exact (widths_pos K (small_in K HS))]|].
  split; [apply odd_allowed; exact Ho|].
  exact (kind_reveals K HS m f Hf l dot_inputs (dot_join K) (dot_wf K dot) (dot_correct K) (4 * dot + 2) (c_dot dot) din_nil ltac:(lia) (dot_cf K HS m f dot) (dot_inp K dot) (dot_joins K HS dot)
    (dot_gate K HS m f Hf dot) (fun g => ltac:(unfold dot_inputs; apply Forall_forall; intros x Hx; apply in_map_iff in Hx; destruct Hx as (c & <- & _); exists c; reflexivity))
    gates gates1 gates2 thetas betas w p2 k E W1 W2 ltac:(lia) ltac:(lia) HC Ht Hb Hw Hp Hk).
Qed.
Print Assumptions C49_dot_exposed.
(** So the statement of [C49_mul_partial] fails if "avoids the points" is replaced by the test of the code. *)
Theorem C49_mul_refuted : ~ (forall K l m f gates gates' gates1 gates1' gates2 thetas r, In K [8; 16; 32] -> irreducible_poly (mod_degree m) = Ok f ->
  element K (mod_degree m) r -> poly_again r = false -> length gates = (l * m)%nat -> length gates' = (l * m)%nat ->
  mul_joined K gates gates1 gates2 -> mul_joined K gates' gates1' gates2 -> Forall (mul_correct K) gates -> Forall (mul_correct K) gates' -> polys K l thetas ->
  exists delta, elements K (mod_degree m) (6 * l) delta /\
    forall betas w p2, polys K m betas -> elements K (mod_degree m) (6 * l) w -> gr_share K 6 l m p2 ->
    exists s, mul_message K f l m gates gates1 thetas betas r w p2 = Ok s /\ mul_message K f l m gates' gates1' thetas betas r (elements_add K w delta) p2 = Ok s).
Proof.
  intros H. set (z := repeat 0 (mod_degree 1)). set (g := pin_zero). set (g' := PIn 1 0 0 0 0 0).
  assert (Ez : element 8 (mod_degree 1) z) by (split; [apply repeat_length|]; apply Forall_forall; intros x Hx; apply repeat_spec in Hx; subst x; cbv; split; [discriminate|reflexivity]).
  assert (Es : forall n, elements 8 (mod_degree 1) n (repeat z n)) by (intros n; split; [apply repeat_length|]; apply Forall_forall; intros x Hx; apply repeat_spec in Hx; subst x; exact Ez).
  assert (EP : forall d n ps, elements 8 d n ps -> polys 8 n ps) by (intros d n ps (L & W); split; [exact L|]; apply Forall_forall; intros x Hx; rewrite Forall_forall in W; apply W, Hx).
  assert (W0 : mul_wf 8 g) by (repeat constructor; cbv; discriminate || reflexivity). assert (W1 : mul_wf 8 g') by (repeat constructor; cbv; discriminate || reflexivity).
  assert (J : forall x, mul_wf 8 x -> mul_join 8 x g = x -> mul_joined 8 [x] [x] [g]).
  { intros x Wx Ex. split; [constructor; [exact Wx|constructor]|]. split; [constructor; [exact W0|constructor]|]. split; [reflexivity|]. split; [reflexivity|]. intros [|k] Hk; [symmetry; exact Ex|cbn in Hk; lia]. }
  pose proof (J g W0 eq_refl) as J0. pose proof (J g' W1 eq_refl) as J1.
  assert (HF : irreducible_poly (mod_degree 1) = Ok ex_f41) by (vm_compute; reflexivity).
  set (r := point_bits 1 ++ repeat 0 (mod_degree 1 - length (point_bits 1))).
  assert (C0 : Forall (mul_correct 8) [g]) by (repeat constructor). assert (C1 : Forall (mul_correct 8) [g']) by (repeat constructor).
  assert (SH : gr_share 8 6 1 1 (DProof (repeat z (6 * 1)) (repeat z (2 * 1 + 1)))) by (split; eapply EP, Es).
  assert (X : forall x w, mul_wf 8 x -> mul_join 8 x g = x -> mul_correct 8 x -> polys 8 (6 * 1) w -> element 8 (mod_degree 1) r /\ poly_again r = false /\
    exists s, mul_message 8 ex_f41 1 1 [x] [x] (repeat z 1) (repeat z 1) r w (DProof (repeat z (6 * 1)) (repeat z (2 * 1 + 1))) = Ok s /\ ds_f s = [[p_a0 x]; [p_a1 x]; [p_b0 x]; [p_b1 x]; [p_r x]; [p_s x]]).
  { intros x w Wx Ex Cx Hw. apply (C49_mul_exposed 8 1 1 ex_f41 [x] [x] [g] (repeat z 1) (repeat z 1) w (DProof (repeat z (6 * 1)) (repeat z (2 * 1 + 1))) 1 ltac:(left; reflexivity) HF (J x Wx Ex) eq_refl ltac:(constructor; [exact Cx|constructor])
      ltac:(eapply EP, Es) ltac:(eapply EP, Es) Hw SH ltac:(lia) eq_refl). }
  destruct (X g (repeat z (6 * 1)) W0 eq_refl (Forall_inv C0) ltac:(eapply EP, Es)) as (Er & Ar & s & E & F).
  destruct (H 8 1%nat 1%nat ex_f41 [g] [g'] [g] [g'] [g] (repeat z 1) r ltac:(left; reflexivity) HF Er Ar eq_refl eq_refl J0 J1 C0 C1 ltac:(eapply EP, Es)) as (delta & (Ld & Wd) & HD).
  destruct (HD (repeat z 1) (repeat z (6 * 1)) (DProof (repeat z (6 * 1)) (repeat z (2 * 1 + 1))) ltac:(eapply EP, Es) (Es _) SH) as (s' & E1 & E2).
  rewrite E in E1. injection E1 as <-.
  destruct (X g' (elements_add 8 (repeat z (6 * 1)) delta) W1 eq_refl (Forall_inv C1)) as (_ & _ & s2 & E3 & F3).
  { apply (EP (mod_degree 1)). apply (elements_add_ok 8 (mod_degree 1)); [lia|apply Es|split; assumption]. }
  pose proof (eq_trans (eq_sym E2) E3) as E4. injection E4 as E4. rewrite <- E4 in F3. rewrite F in F3. discriminate F3.
Qed.
Print Assumptions C49_mul_refuted.

(** The receiver of the explicit share does not know p2: for all random values and coefficients of the prover,
    every explicit share comes from exactly one p2. *)
Theorem C49_explicit_and : forall l m w g p1, u64s (6 * l) w -> u64s (2 * m + 1) g -> and_proof_share l m p1 ->
  exists p2, and_proof_share l m p2 /\ explicit_share gf_ops w g p2 = p1 /\ forall p2', and_proof_share l m p2' -> explicit_share gf_ops w g p2' = p1 -> p2' = p2.
Proof. exact and_explicit. Qed.
Print Assumptions C49_explicit_and.
Theorem C49_explicit_gr : forall K d n l m w g p1, 0 < K ->
  elements K d (n * l) w -> (length g = 2 * m + 1 /\ Forall (fun p => length p <= d /\ Forall (inr K) p) g)%nat ->
  elements K d (n * l) (dp_w p1) -> elements K d (2 * m + 1) (dp_a p1) ->
  exists p2, (elements K d (n * l) (dp_w p2) /\ elements K d (2 * m + 1) (dp_a p2)) /\ explicit_share (pz_ops K) w g p2 = p1 /\
    forall p2', elements K d (n * l) (dp_w p2') -> elements K d (2 * m + 1) (dp_a p2') -> explicit_share (pz_ops K) w g p2' = p1 -> p2' = p2.
Proof. intros K d n l m w g p1. apply gr_explicit. Qed.
Print Assumptions C49_explicit_gr.

(** Four AND gates, and four others with the same shares for the receiver. *)
Definition ex_other1 : list (pinput bool) := map (fun g => PIn (negb (p_a0 g)) (p_a1 g) true (p_b1 g) (p_r g) (p_s g)) ex_gates1.
Definition ex_fixed1 (hs gs : list (pinput bool)) : list (pinput bool) := map2 (fun g h => fix_output h g) gs hs.
Definition ex_gates1' : list (pinput bool) := ex_fixed1 ex_right2 ex_other1.
Example C49_example :
  gates_joined (map2 and_join ex_gates1 ex_right2) ex_gates1 ex_right2 /\ gates_joined (map2 and_join ex_gates1' ex_right2) ex_gates1' ex_right2 /\
  Forall and_correct (map2 and_join ex_gates1 ex_right2) /\ Forall and_correct (map2 and_join ex_gates1' ex_right2) /\
  map2 and_join ex_gates1 ex_right2 <> map2 and_join ex_gates1' ex_right2 /\
  (exists s, and_message 2 2 (map2 and_join ex_gates1 ex_right2) ex_gates1 [7; 9]%N [33; 44]%N 1234567 ex_w ex_share = Ok s /\ length (ds_f s) = 12%nat /\
     and_message 2 2 (map2 and_join ex_gates1' ex_right2) ex_gates1' [7; 9]%N [33; 44]%N 1234567 ex_w ex_share <> Ok s) /\
  avoids_points 2 (repeat 0 5 ++ [1] ++ repeat 0 36) /\ element 8 (mod_degree 2) (repeat 0 5 ++ [1] ++ repeat 0 36).
Proof.
  split. { split; [reflexivity|split; [reflexivity|]]. intros k. do 4 (destruct k as [|k]; [reflexivity|]). destruct k; reflexivity. }
  split. { split; [reflexivity|split; [reflexivity|]]. intros k. do 4 (destruct k as [|k]; [reflexivity|]). destruct k; reflexivity. }
  split; [repeat constructor|]. split; [repeat constructor|]. split; [discriminate|].
  split. { eexists. split; [vm_compute; reflexivity|]. split; [reflexivity|]. vm_compute. discriminate. }
  split. { intros k Hk E. specialize (E 5%nat). assert (k = 1 \/ k = 2)%nat as [-> | ->] by lia; discriminate E. }
  split; [reflexivity|]. repeat constructor; cbv; discriminate || reflexivity.
Qed.

(** ** C48: where the common elements, weights and points come from.  Those of different parties are different
    positions of one generator's output, and the points come after the weights; every point is one that the code
    accepts, unless the generator produces [fuel] - 1 unacceptable ones in a row. *)
Theorem C48_derivation : forall A (G : rng) (dr : rstate G -> rstate G * A) again fuel l m p coin,
  (forall j, common_elements G dr l p j = map (fun q => nth_draw dr (rseed G (snd (draw_bytes G 32 p))) (number j * l + q)) (seq 0 l)) /\
  (forall j, coin_weights G dr m coin j = map (fun q => nth_draw dr (rseed G coin) (number j * m + q)) (seq 0 m)) /\
  exists q : pid -> nat, (forall j, coin_point G dr again fuel m coin j = nth_draw dr (rseed G coin) (q j)) /\ (forall j, 3 * m <= q j)%nat /\
    (forall j j', q j = q j' -> j = j') /\
    forall j, again (coin_point G dr again fuel m coin j) = false \/ exists k, forall x, (k <= x < k + fuel - 1)%nat -> again (nth_draw dr (rseed G coin) x) = true.
Proof.
  intros A G dr again fuel l m p coin. split; [intros j; apply (proj2 (three_is G dr l _))|]. split; [intros j; apply (proj2 (three_is G dr m _))|]. apply point_is.
Qed.
Print Assumptions C48_derivation.
Example C48_derivation_example : let p := rseed lcg [1; 2; 3] in let coin := [9; 9] in
  coin_point lcg (draw_poly lcg 8 2) poly_again 9 1 coin P0 = nth_draw (draw_poly lcg 8 2) (rseed lcg coin) 3 /\
  common_elements lcg (draw_poly lcg 8 2) 2 p P1 <> common_elements lcg (draw_poly lcg 8 2) 2 p P2.
Proof. vm_compute. split; [reflexivity|discriminate]. Qed.
