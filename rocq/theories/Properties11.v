(** C33 (Galois rings), C34, C35 and C43 (multiplications and inner products): the zero-knowledge proofs over
    rings Z/2^K[x]/f. *)
From Verif Require Import Base Ring RingProofs Gf2 Poly PolyProofs PolyDiv Swift3 Dzkp DzkpSpec GaloisSpec Galois GaloisGates GaloisMul GaloisInterp PolyOps Properties10.
Local Open Scope list_scope.

(** ** C33: interpolation over Z/2^K[x]/f, f one of the moduli of the code.  Elements are compared by their
    remainders modulo f. *)
Theorem C33_galois : forall K d f xs, In K [8; 16; 32] -> irreducible_poly d = Ok f ->
  Forall (fun p => length p <= d /\ Forall (inr K) p)%nat xs -> different_mod2 xs ->
  exists lag, gr_lagrange K xs f = Ok lag /\
    forall ys, polys K (length xs) ys ->
    exists p, interpolate (pz_ops K) ys lag = Ok p /\ (length p <= length xs)%nat /\ Forall (Forall (inr K)) p /\
      (forall k, (k < length xs)%nat -> p_rem K (p_eval (pz_ops K) p (nth k xs [])) f = p_rem K (nth k ys []) f) /\
      (forall q, Forall (Forall (inr K)) q -> (length q <= length xs)%nat ->
         (forall k, (k < length xs)%nat -> p_rem K (p_eval (pz_ops K) q (nth k xs [])) f = p_rem K (nth k ys []) f) ->
         forall x, Forall (inr K) x -> p_rem K (p_eval (pz_ops K) q x) f = p_rem K (p_eval (pz_ops K) p x) f).
Proof. intros K d f xs HS Hf Hx HD. exact (galois_interpolate K HS d f Hf xs Hx HD). Qed.
Print Assumptions C33_galois.
Theorem C33_galois_linear : forall K d f xs lag, In K [8; 16; 32] -> irreducible_poly d = Ok f ->
  Forall (fun p => length p <= d /\ Forall (inr K) p)%nat xs -> different_mod2 xs -> gr_lagrange K xs f = Ok lag ->
  forall ys zs, polys K (length xs) ys -> polys K (length xs) zs ->
  exists p q pq, interpolate (pz_ops K) ys lag = Ok p /\ interpolate (pz_ops K) zs lag = Ok q /\
    interpolate (pz_ops K) (map2 (p_add (zk_ops K)) ys zs) lag = Ok pq /\
    forall x, Forall (inr K) x -> p_rem K (p_eval (pz_ops K) pq x) f = p_rem K (p_add (zk_ops K) (p_eval (pz_ops K) p x) (p_eval (pz_ops K) q x)) f.
Proof. intros K d f xs lag HS Hf Hx HD El. exact (galois_interpolate_linear K HS d f Hf xs Hx HD lag El). Qed.
Print Assumptions C33_galois_linear.
(** With coefficients of 64 bits or more the code panics as soon as there are two points. *)
Theorem C33_wide_panics : forall K f xs, 64 <= K -> (2 <= length xs)%nat -> gr_lagrange K xs f = Err EPanic.
Proof. exact wide_lagrange. Qed.
Print Assumptions C33_wide_panics.
Definition ex_f41 : list Z := ok_or [] (irreducible_poly 41).
Example C33_galois_example : irreducible_poly 41 = Ok ex_f41 /\ different_mod2 [[]; [1]; [2; 255; 1]] /\
  exists lag, gr_lagrange 8 [[]; [1]; [2; 255; 1]] ex_f41 = Ok lag /\
  let p := ok_or [] (interpolate (pz_ops 8) [[7]; [1; 2; 3]; [200; 100]] lag) in
  length p = 3%nat /\ map (fun x => p_rem 8 (p_eval (pz_ops 8) p x) ex_f41) [[]; [1]; [2; 255; 1]] = [Ok [7]; Ok [1; 2; 3]; Ok [200; 100]] /\
  gr_lagrange 64 [[]; [1]] ex_f41 = Err EPanic.
Proof.
  split; [vm_compute; reflexivity|]. split.
  { split; [|split; [|split; [|exact I]]].
    - intros q [<-|[<-|[]]] H; [discriminate (H 0%nat)|discriminate (H 1%nat)].
    - intros q [<-|[]] H. discriminate (H 0%nat).
    - intros q []. }
  eexists. split; [vm_compute; reflexivity|]. vm_compute. repeat split.
Qed.

(** ** C34: polynomials over Z/2^K.  The coefficients of sums, differences and
    products; [conv p q i] is the sum of the p_j q_(i-j). *)
Theorem C34_ops : forall K p q i, 0 < K ->
  nth i (p_add (zk_ops K) p q) 0 mod 2 ^ K = (nth i p 0 + nth i q 0) mod 2 ^ K /\
  nth i (p_sub (zk_ops K) p q) 0 mod 2 ^ K = (nth i p 0 - nth i q 0) mod 2 ^ K /\
  nth i (p_mul (zk_ops K) p q) 0 mod 2 ^ K = conv p q i mod 2 ^ K.
Proof. exact poly_ops. Qed.
Print Assumptions C34_ops.
(** Division by a polynomial whose leading coefficient is odd: p = quo * q + rem, and the remainder is shorter
    than the divisor. *)
Theorem C34_division : forall K p q lead, In K [8; 16; 32; 64] -> Forall (inr K) p -> inr K lead -> Z.odd lead = true ->
  exists quo rem, long_division K p (q ++ [lead]) = Ok (quo, rem) /\
    (forall i, nth i p 0 = (conv quo (q ++ [lead]) i + nth i rem 0) mod 2 ^ K) /\
    (length rem <= length q)%nat /\ Forall (inr K) quo /\ Forall (inr K) rem.
Proof. exact division_ok. Qed.
Print Assumptions C34_division.
(** Division by a polynomial whose leading coefficient is even is an error; by the zero polynomial too. *)
Theorem C34_no_inverse : forall K p q lead, In K [1; 8; 16; 32; 64] -> inr K lead -> lead <> 0 -> Z.odd lead = false ->
  long_division K p (q ++ [lead]) = Err ENoInverse.
Proof. exact division_even. Qed.
Print Assumptions C34_no_inverse.
Theorem C34_zero_divisor : forall K p n, In K [1; 8; 16; 32; 64] ->
  long_division K p (repeat 0 (S n)) = Err ENoInverse /\ long_division K p [] = Err EPanic.
Proof. exact division_zero. Qed.
Print Assumptions C34_zero_divisor.
(** Divisors that end in zero coefficients give wrong results: x^2 divided by 1 + 0x, written with two
    coefficients. *)
Theorem C34_trailing_zero_refuted : ~ (forall K p q, In K [8; 16; 32; 64] -> Forall (inr K) p -> Forall (inr K) q -> Z.odd (nth 0 q 0) = true ->
  (forall i, (0 < i)%nat -> nth i q 0 = 0) -> exists quo rem, long_division K p q = Ok (quo, rem) /\ forall i, nth i p 0 = (conv quo q i + nth i rem 0) mod 2 ^ K).
Proof.
  intros H. destruct (H 8 [0; 0; 1] [1; 0]) as (quo & rem & E & Hi); [left; reflexivity|repeat constructor; cbv; discriminate|repeat constructor; cbv; discriminate|reflexivity|intros [|[|i]] Hi; [lia|reflexivity|destruct i; reflexivity]|].
  vm_compute in E. injection E as <- <-. specialize (Hi 2%nat). vm_compute in Hi. discriminate Hi.
Qed.
Print Assumptions C34_trailing_zero_refuted.
Example C34_example : long_division 8 [1; 2; 3; 4; 255] [7; 0; 3] = Ok ([144; 172; 85], [17; 78]) /\ long_division 8 [1] [7; 0; 4] = Err ENoInverse.
Proof. vm_compute. split; reflexivity. Qed.

(** ** C35: correct multiplications.  The prover and both verifiers run without error, and the final comparison
    accepts exactly if the sum of the two evaluations of the proof polynomial has no zero coefficient at the
    top; otherwise an honest proof is rejected (the code compares lists of coefficients of which one is
    shortened and the other is not). *)
Theorem C35_mul_partial : forall K l m f gates gates1 gates2 thetas w, In K [8; 16; 32] -> irreducible_poly (mod_degree m) = Ok f ->
  mul_joined K gates gates1 gates2 -> length gates = (l * m)%nat -> Forall (mul_correct K) gates ->
  polys K l thetas -> polys K (6 * l) w ->
  exists g, mul_prover K f l m gates thetas w = Ok g /\
    forall betas r p2, polys K m betas -> Forall (inr K) r -> gr_share K 6 l m p2 ->
    let p1 := explicit_share (pz_ops K) w g p2 in
    exists s1 s2, mul_verdicts K f l m gates1 gates2 betas r p1 p2 = Ok (s1, s2) /\
      (leading (p_add (zk_ops K) (ds_pr s1) (ds_pr s2)) -> mul_check K f l m gates1 gates2 thetas betas r p1 p2 = Ok tt) /\
      (~ leading (p_add (zk_ops K) (ds_pr s1) (ds_pr s2)) -> mul_check K f l m gates1 gates2 thetas betas r p1 p2 = Err EDZKPVerify).
Proof.
  intros K l m f gates gates1 gates2 thetas w HS Hf HJ L HC Ht Hw. pose proof (mul_joined_map _ _ _ _ HJ) as E. destruct HJ as (W1 & W2 & L1 & L2 & _).
  exact (kind_complete K HS m f Hf l mul_inputs (mul_join K) (mul_wf K) (mul_correct K) 6 c_mul pin_zero ltac:(lia) (mul_cf K HS m f) (mul_inp K) (mul_joins K HS)
    (fun g _ => mul_gate K HS m f Hf g) gates gates1 gates2 thetas w E W1 W2 ltac:(lia) ltac:(lia) HC Ht Hw).
Qed.
Print Assumptions C35_mul_partial.
Theorem C35_dot_partial : forall K dot l m f gates gates1 gates2 thetas w, In K [8; 16; 32] -> irreducible_poly (mod_degree m) = Ok f ->
  dot_joined K dot gates gates1 gates2 -> length gates = (l * m)%nat -> Forall (dot_correct K) gates ->
  polys K l thetas -> polys K ((4 * dot + 2) * l) w ->
  exists g, dot_prover K f dot l m gates thetas w = Ok g /\
    forall betas r p2, polys K m betas -> Forall (inr K) r -> gr_share K (4 * dot + 2) l m p2 ->
    let p1 := explicit_share (pz_ops K) w g p2 in
    exists s1 s2, dot_verdicts K f dot l m gates1 gates2 betas r p1 p2 = Ok (s1, s2) /\
      (leading (p_add (zk_ops K) (ds_pr s1) (ds_pr s2)) -> dot_check K f dot l m gates1 gates2 thetas betas r p1 p2 = Ok tt) /\
      (~ leading (p_add (zk_ops K) (ds_pr s1) (ds_pr s2)) -> dot_check K f dot l m gates1 gates2 thetas betas r p1 p2 = Err EDZKPVerify).
Proof.
  intros K dot l m f gates gates1 gates2 thetas w HS Hf HJ L HC Ht Hw. pose proof (dot_joined_map _ _ _ _ _ HJ) as E. destruct HJ as (W1 & W2 & L1 & L2 & _).
  exact (kind_complete K HS m f Hf l dot_inputs (dot_join K) (dot_wf K dot) (dot_correct K) (4 * dot + 2) (c_dot dot) din_nil ltac:(lia) (dot_cf K HS m f dot) (dot_inp K dot) (dot_joins K HS dot)
    (dot_gate K HS m f Hf dot) gates gates1 gates2 thetas w E W1 W2 ltac:(lia) ltac:(lia) HC Ht Hw).
Qed.
Print Assumptions C35_dot_partial.

(** ** C43: an incorrect gate, at row j and column k.  For all coefficients theta_j outside one class modulo 2,
    and EVERY pair of proof shares: either the accepted evaluation points r fall into at most 2m classes modulo
    2, whatever the betas, or for given other betas the accepted values of beta_k fall into one class. *)
Theorem C43_mul_sound : forall K l m f gates gates1 gates2 thetas j k, In K [8; 16; 32] -> irreducible_poly (mod_degree m) = Ok f ->
  mul_joined K gates gates1 gates2 -> length gates = (l * m)%nat -> polys K l thetas ->
  (j < l)%nat -> (k < m)%nat -> ~ mul_correct K (nth (j * m + k) gates pin_zero) ->
  exists bad, forall theta, element K (mod_degree m) theta -> ~ same_mod2 theta bad ->
  forall p1 p2, gr_share K 6 l m p1 -> gr_share K 6 l m p2 ->
  let accepted betas r := elements K (mod_degree m) m betas /\ element K (mod_degree m) r /\
    mul_check K f l m gates1 gates2 (replaced j theta thetas) betas r p1 p2 = Ok tt in
  (forall rs, different_mod2 rs -> (forall r, In r rs -> exists betas, accepted betas r) -> (length rs <= 2 * m)%nat) \/
  (forall betas b b' r r', length betas = m -> accepted (replaced k b betas) r -> accepted (replaced k b' betas) r' -> same_mod2 b b').
Proof.
  intros K l m f gates gates1 gates2 thetas j k HS Hf HJ L Ht Hj Hk Hbad. pose proof (mul_joined_map _ _ _ _ HJ) as E. destruct HJ as (W1 & W2 & L1 & L2 & _).
  exact (kind_sound K HS m f Hf l mul_inputs (mul_join K) (mul_wf K) (mul_correct K) 6 c_mul pin_zero ltac:(lia) (mul_cf K HS m f) (mul_inp K) (mul_joins K HS)
    (fun g _ => mul_gate K HS m f Hf g) gates gates1 gates2 thetas j k E W1 W2 ltac:(lia) ltac:(lia) Ht Hj Hk Hbad).
Qed.
Print Assumptions C43_mul_sound.
Theorem C43_dot_sound : forall K dot l m f gates gates1 gates2 thetas j k, In K [8; 16; 32] -> irreducible_poly (mod_degree m) = Ok f ->
  dot_joined K dot gates gates1 gates2 -> length gates = (l * m)%nat -> polys K l thetas ->
  (j < l)%nat -> (k < m)%nat -> ~ dot_correct K (nth (j * m + k) gates din_nil) ->
  exists bad, forall theta, element K (mod_degree m) theta -> ~ same_mod2 theta bad ->
  forall p1 p2, gr_share K (4 * dot + 2) l m p1 -> gr_share K (4 * dot + 2) l m p2 ->
  let accepted betas r := elements K (mod_degree m) m betas /\ element K (mod_degree m) r /\
    dot_check K f dot l m gates1 gates2 (replaced j theta thetas) betas r p1 p2 = Ok tt in
  (forall rs, different_mod2 rs -> (forall r, In r rs -> exists betas, accepted betas r) -> (length rs <= 2 * m)%nat) \/
  (forall betas b b' r r', length betas = m -> accepted (replaced k b betas) r -> accepted (replaced k b' betas) r' -> same_mod2 b b').
Proof.
  intros K dot l m f gates gates1 gates2 thetas j k HS Hf HJ L Ht Hj Hk Hbad. pose proof (dot_joined_map _ _ _ _ _ HJ) as E. destruct HJ as (W1 & W2 & L1 & L2 & _).
  exact (kind_sound K HS m f Hf l dot_inputs (dot_join K) (dot_wf K dot) (dot_correct K) (4 * dot + 2) (c_dot dot) din_nil ltac:(lia) (dot_cf K HS m f dot) (dot_inp K dot) (dot_joins K HS dot)
    (dot_gate K HS m f Hf dot) gates gates1 gates2 thetas j k E W1 W2 ltac:(lia) ltac:(lia) Ht Hj Hk Hbad).
Qed.
Print Assumptions C43_dot_sound.
(** Shares of another size are refused. *)
Theorem C43_gr_size : forall K f n l m lag coords V betas r p,
  length V = (m * l)%nat -> length betas = m -> length lag = (m + 1)%nat -> length coords = (m + 1)%nat ->
  (length (dp_w p) <> n * l)%nat \/ (length (dp_a p) <> 2 * m + 1)%nat ->
  gr_verify_pi K f n l m betas r lag coords V p = Err EDZKPVerify.
Proof.
  intros K f n l m lag coords V betas r p L1 L2 L3 L4 HL. unfold gr_verify_pi, verify_pi. rewrite L1, L2, L3, L4, !Nat.eqb_refl. cbn [negb orb].
  assert (E : (negb (length (dp_w p) =? n * l) || negb (length (dp_a p) =? 2 * m + 1))%nat = true).
  { apply orb_true_intro. destruct HL as [HL|HL]; apply Nat.eqb_neq in HL; rewrite HL; auto. }
  rewrite E. reflexivity.
Qed.
Print Assumptions C43_gr_size.

(** Concrete elements of 41 coefficients of 8 bits. *)
Definition ex_el (s : nat) : list Z := map (fun i => Z.of_nat ((s * i * i + 38 * i + 11 * s + 5) mod 256)) (seq 0 41).
Definition ex_els (k s : nat) : list (list Z) := map (fun i => ex_el (s + i)) (seq 0 k).
Definition ex_const (v : Z) : list Z := v :: repeat 0 40.
Definition ex_mul1 : pinput Z := PIn 3 200 7 100 9 0.
Definition ex_mul2 : pinput Z := PIn 30 20 70 10 90 170.
Definition ex_mul_p2 : dproof (list Z) := DProof (ex_els 6 40) (ex_els 3 60).
Lemma ex_el_ok s : element 8 41 (ex_el s).
Proof. split; [reflexivity|]. apply Forall_forall. intros x Hx. apply in_map_iff in Hx. destruct Hx as (i & <- & _). split; [lia|]. change (2 ^ 8) with (Z.of_nat 256). apply Nat2Z.inj_lt, Nat.mod_upper_bound. discriminate. Qed.
Lemma ex_els_ok k s : polys 8 k (ex_els k s).
Proof. split; [unfold ex_els; rewrite map_length; apply seq_length|]. apply Forall_forall. intros x Hx. apply in_map_iff in Hx. destruct Hx as (i & <- & _). apply ex_el_ok. Qed.
Lemma ex_const_ok v : inr 8 v -> element 8 41 (ex_const v).
Proof. intros H. split; [reflexivity|]. constructor; [exact H|]. apply Forall_forall. intros x Hx. apply repeat_spec in Hx. subst x. split; [lia|reflexivity]. Qed.
(** One multiplication, shared, with its output right and then wrong. *)
Example C35_mul_example : mod_degree 1 = 41%nat /\ mul_joined 8 [mul_join 8 ex_mul1 ex_mul2] [ex_mul1] [ex_mul2] /\ mul_correct 8 (mul_join 8 ex_mul1 ex_mul2) /\
  element 8 41 (ex_el 101) /\ gr_share 8 6 1 1 ex_mul_p2 /\
  (let g := ok_or [] (mul_prover 8 ex_f41 1 1 [mul_join 8 ex_mul1 ex_mul2] [ex_el 77] (ex_els 6 5)) in
   mul_check 8 ex_f41 1 1 [ex_mul1] [ex_mul2] [ex_el 77] [ex_el 99] (ex_el 101) (explicit_share (pz_ops 8) (ex_els 6 5) g ex_mul_p2) ex_mul_p2 = Ok tt).
Proof.
  split; [reflexivity|]. split.
  { split; [repeat constructor; cbv; congruence|]. split; [repeat constructor; cbv; congruence|]. split; [reflexivity|]. split; [reflexivity|]. intros [|k] Hk; [reflexivity|cbn in Hk; lia]. }
  split; [reflexivity|]. split; [apply ex_el_ok|]. split; [split; apply ex_els_ok|]. vm_compute. reflexivity.
Qed.
Example C43_mul_example : let bad := PIn 30 20 70 10 90 42 in ~ mul_correct 8 (mul_join 8 ex_mul1 bad) /\
  (let g := ok_or [] (mul_prover 8 ex_f41 1 1 [mul_join 8 ex_mul1 bad] [ex_el 77] (ex_els 6 5)) in
   mul_check 8 ex_f41 1 1 [ex_mul1] [bad] [ex_el 77] [ex_el 99] (ex_el 101) (explicit_share (pz_ops 8) (ex_els 6 5) g ex_mul_p2) ex_mul_p2 = Err EDZKPVerify).
Proof. split; [intros H; discriminate H|]. vm_compute. reflexivity. Qed.
(** The same correct multiplication, rejected for other random elements: the claim without the side condition
    is false of the code. *)
Theorem C35_mul_refuted : exists thetas w betas r p2 g, elements 8 41 1 thetas /\ elements 8 41 6 w /\ elements 8 41 1 betas /\ element 8 41 r /\ gr_share 8 6 1 1 p2 /\
  mul_correct 8 (mul_join 8 ex_mul1 ex_mul2) /\
  mul_prover 8 ex_f41 1 1 [mul_join 8 ex_mul1 ex_mul2] thetas w = Ok g /\
  mul_check 8 ex_f41 1 1 [ex_mul1] [ex_mul2] thetas betas r (explicit_share (pz_ops 8) w g p2) p2 = Err EDZKPVerify.
Proof.
  exists [ex_const 7], (map ex_const [1; 2; 3; 4; 5; 6]), [ex_el 99], (ex_const 3), ex_mul_p2. eexists.
  split; [split; [reflexivity|]; repeat (constructor; [apply ex_const_ok; split; [lia|reflexivity]|]); constructor|].
  split; [split; [reflexivity|]; repeat (constructor; [apply ex_const_ok; split; [lia|reflexivity]|]); constructor|].
  split; [split; [reflexivity|]; constructor; [apply ex_el_ok|constructor]|]. split; [apply ex_const_ok; split; [lia|reflexivity]|].
  split; [split; apply ex_els_ok|]. split; [reflexivity|]. split; vm_compute; reflexivity.
Qed.
Print Assumptions C35_mul_refuted.
(** Inner products of length 2. *)
Definition ex_dot1 : dinput := DIn [3; 255] [200; 1] [7; 0] [100; 128] 9 0.
Definition ex_dot2 : dinput := DIn [30; 17] [20; 2] [70; 71] [10; 72] 90 111.
Definition ex_dot_p2 : dproof (list Z) := DProof (ex_els 10 40) (ex_els 3 60).
Example C35_dot_example : dot_joined 8 2 [dot_join 8 ex_dot1 ex_dot2] [ex_dot1] [ex_dot2] /\ dot_correct 8 (dot_join 8 ex_dot1 ex_dot2) /\ gr_share 8 (4 * 2 + 2) 1 1 ex_dot_p2 /\
  (let g := ok_or [] (dot_prover 8 ex_f41 2 1 1 [dot_join 8 ex_dot1 ex_dot2] [ex_el 77] (ex_els 10 5)) in
   dot_check 8 ex_f41 2 1 1 [ex_dot1] [ex_dot2] [ex_el 77] [ex_el 99] (ex_el 101) (explicit_share (pz_ops 8) (ex_els 10 5) g ex_dot_p2) ex_dot_p2 = Ok tt).
Proof.
  split.
  { split; [repeat constructor; cbv; congruence|]. split; [repeat constructor; cbv; congruence|]. split; [reflexivity|]. split; [reflexivity|]. intros [|k] Hk; [reflexivity|cbn in Hk; lia]. }
  split; [reflexivity|]. split; [split; apply ex_els_ok|]. vm_compute. reflexivity.
Qed.
Example C43_dot_example : let bad := DIn [30; 17] [20; 2] [70; 71] [10; 72] 90 112 in ~ dot_correct 8 (dot_join 8 ex_dot1 bad) /\
  (let g := ok_or [] (dot_prover 8 ex_f41 2 1 1 [dot_join 8 ex_dot1 bad] [ex_el 77] (ex_els 10 5)) in
   dot_check 8 ex_f41 2 1 1 [ex_dot1] [bad] [ex_el 77] [ex_el 99] (ex_el 101) (explicit_share (pz_ops 8) (ex_els 10 5) g ex_dot_p2) ex_dot_p2 = Err EDZKPVerify).
Proof. split; [intros H; discriminate H|]. vm_compute. reflexivity. Qed.
