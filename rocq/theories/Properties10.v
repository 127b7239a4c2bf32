(** C33 (GF(2^64)), C35 (AND gates), C43, C44: the zero-knowledge proofs of AND gates. *)
From Verif Require Import Base Ring Gf2 Poly Swift3 Dzkp DzkpSpec DzkpAnd DzkpInterp DzkpAttack.

(** Interpolation at different points: the polynomial takes the given values, and no other polynomial of at
    most that many coefficients takes them. *)
Theorem C33_gf : forall xs lag, Forall u64 xs -> NoDup xs -> gf_lagrange xs = Ok lag ->
  forall ys, u64s (length xs) ys ->
  exists p, interpolate gf_ops ys lag = Ok p /\ (length p <= length xs)%nat /\ Forall u64 p /\
    (forall k, (k < length xs)%nat -> p_eval gf_ops p (nth k xs 0%N) = nth k ys 0%N) /\
    (forall q, Forall u64 q -> (length q <= length xs)%nat -> (forall k, (k < length xs)%nat -> p_eval gf_ops q (nth k xs 0%N) = nth k ys 0%N) ->
       forall x, u64 x -> p_eval gf_ops q x = p_eval gf_ops p x).
Proof. exact gf_interpolate. Qed.
Print Assumptions C33_gf.
(** The Lagrange polynomials exist exactly for different points; otherwise the code panics. *)
Theorem C33_gf_points : forall xs, Forall u64 xs -> (NoDup xs -> exists lag, gf_lagrange xs = Ok lag) /\ (~ NoDup xs -> gf_lagrange xs = Err EPanic).
Proof.
  intros xs W. split; [|apply gf_lagrange_repeated]. intros ND. destruct (gf_lagrange_ok xs W ND) as (lag & E & _). exists lag. exact E.
Qed.
Print Assumptions C33_gf_points.
Theorem C33_gf_linear : forall xs lag, Forall u64 xs -> NoDup xs -> gf_lagrange xs = Ok lag ->
  forall ys zs, u64s (length xs) ys -> u64s (length xs) zs ->
  exists p q pq, interpolate gf_ops ys lag = Ok p /\ interpolate gf_ops zs lag = Ok q /\ interpolate gf_ops (map2 gf_add ys zs) lag = Ok pq /\
    forall x, u64 x -> p_eval gf_ops pq x = gf_add (p_eval gf_ops p x) (p_eval gf_ops q x).
Proof. exact gf_interpolate_linear. Qed.
Print Assumptions C33_gf_linear.
Definition ok_or {A} (d : A) (x : res A) : A := match x with Ok a => a | Err _ => d end.
Example C33_gf_example : exists lag, gf_lagrange [5; 77; 1000003]%N = Ok lag /\
  let p := ok_or [] (interpolate gf_ops [12; 2 ^ 63; 9]%N lag) in
  length p = 3%nat /\ map (p_eval gf_ops p) [5; 77; 1000003]%N = [12; 2 ^ 63; 9]%N /\ p_eval gf_ops p 6%N <> 0%N /\
  gf_lagrange [5; 77; 5]%N = Err EPanic.
Proof. eexists. split; [vm_compute; reflexivity|]. vm_compute. repeat split; discriminate. Qed.

(** Correct gates are accepted: for any number of rows l and columns m, any shares of the gates, any
    coefficients thetas, any prover randomness w, any challenges and any share p2 regenerated from a seed. *)
Theorem C35_and : forall l m gates gates1 gates2 thetas w,
  (N.of_nat m < 2 ^ 64)%N -> length gates = (l * m)%nat -> gates_joined gates gates1 gates2 -> Forall and_correct gates ->
  u64s l thetas -> u64s (6 * l) w ->
  exists g, and_prover l m gates thetas w = Ok g /\ forall betas r p2, u64s m betas -> u64 r -> and_proof_share l m p2 ->
    and_check l m gates1 gates2 thetas betas r (explicit_share gf_ops w g p2) p2 = Ok tt.
Proof. exact and_complete_correct. Qed.
Print Assumptions C35_and.
(** Four gates (2 rows, 2 columns) with non-trivial shares; the last one incorrect in [ex_wrong]. *)
Definition ex_gates1 : list (pinput bool) := [PIn true false true false false true; PIn true false true false true false; PIn false false true false true true; PIn true false false false true true].
Definition ex_gates2 : list (pinput bool) := [PIn false true false true true false; PIn false true false false true false; PIn false true false true false false; PIn false false false true false false].
Definition ex_gates : list (pinput bool) := map2 and_join ex_gates1 ex_gates2.
Definition fix_output (g h : pinput bool) : pinput bool :=
  PIn (p_a0 h) (p_a1 h) (p_b0 h) (p_b1 h) (p_r h) (xorb (p_s h) (and_err (and_join g h))).
Definition ex_right2 : list (pinput bool) := map2 fix_output ex_gates1 ex_gates2.
Definition ex_share : dproof N := DProof [1; 2; 3; 4; 5; 6; 7; 8; 9; 10; 11; 12]%N [100; 200; 300; 400; 500]%N.
Definition ex_w : list N := [21; 22; 23; 24; 25; 26; 27; 28; 29; 210; 211; 2 ^ 63]%N.
Example C35_and_example :
  gates_joined (map2 and_join ex_gates1 ex_right2) ex_gates1 ex_right2 /\ Forall and_correct (map2 and_join ex_gates1 ex_right2) /\
  and_proof_share 2 2 ex_share /\ u64s 12 ex_w /\
  (let g := ok_or [] (and_prover 2 2 (map2 and_join ex_gates1 ex_right2) [7; 9]%N ex_w) in
   nth 3 g 0%N <> 0%N /\ and_check 2 2 ex_gates1 ex_right2 [7; 9]%N [33; 44]%N 1234567 (explicit_share gf_ops ex_w g ex_share) ex_share = Ok tt /\
   and_check 2 2 ex_gates1 ex_right2 [7; 9]%N [33; 44]%N 1234567 (DProof ex_w g) ex_share = Err EDZKPVerify).
Proof.
  split. { split; [reflexivity|split; [reflexivity|]]. intros k. do 4 (destruct k as [|k]; [reflexivity|]). destruct k; reflexivity. }
  split; [repeat constructor|]. split; [repeat constructor|]. split; [repeat constructor|].
  split; [vm_compute; discriminate|]. split; vm_compute; reflexivity.
Qed.

(** An incorrect gate, at row j and column k.  There is one value [bad], determined by the gates and the
    other coefficients, such that for every other value of its coefficient and EVERY pair of proof shares
    (however computed, also with knowledge of the coefficients), either at most 2m values of the challenge r
    are accepted, whatever the betas; or at most one value of the challenge beta_k is accepted for given other
    betas, whatever r. *)
Theorem C43_and_sound : forall l m gates gates1 gates2 thetas j k,
  (N.of_nat m < 2 ^ 64)%N -> length gates = (l * m)%nat -> gates_joined gates gates1 gates2 -> u64s l thetas ->
  (j < l)%nat -> (k < m)%nat -> ~ and_correct (nth (j * m + k) gates pin_false) ->
  exists bad, forall theta, u64 theta -> theta <> bad ->
  forall p1 p2, and_proof_share l m p1 -> and_proof_share l m p2 ->
  let accepted betas r := u64s m betas /\ u64 r /\ and_check l m gates1 gates2 (replaced j theta thetas) betas r p1 p2 = Ok tt in
  (forall rs, NoDup rs -> (forall r, In r rs -> exists betas, accepted betas r) -> (length rs <= 2 * m)%nat) \/
  (forall betas b b' r r', length betas = m -> accepted (replaced k b betas) r -> accepted (replaced k b' betas) r' -> b = b').
Proof. exact and_sound. Qed.
Print Assumptions C43_and_sound.
(** Shares that are not of the prescribed size are refused outright. *)
Theorem C43_and_size : forall l m gates1 gates2 thetas betas r p1 p2,
  length gates1 = (m * l)%nat -> length betas = m -> (N.of_nat m < 2 ^ 64)%N ->
  (length (dp_w p1) <> 6 * l)%nat \/ (length (dp_a p1) <> 2 * m + 1)%nat ->
  and_check l m gates1 gates2 thetas betas r p1 p2 = Err EDZKPVerify.
Proof.
  intros l m gates1 gates2 thetas betas r p1 p2 Lg Lb Hm HL. destruct (and_lagrange m Hm) as (lag & El & Hl). unfold and_check. rewrite El. cbn [rbind].
  unfold and_verify_pi, verify_pi. rewrite map_length, Lg, Lb, (proj1 Hl), and_points_len, !Nat.eqb_refl. cbn [negb orb].
  assert (E : (negb (length (dp_w p1) =? 6 * l) || negb (length (dp_a p1) =? 2 * m + 1))%nat = true).
  { apply orb_true_intro. destruct HL as [HL|HL]; apply Nat.eqb_neq in HL; rewrite HL; auto. }
  rewrite E. reflexivity.
Qed.
Print Assumptions C43_and_size.
Example C43_example : gates_joined ex_gates ex_gates1 ex_gates2 /\ ~ and_correct (nth (1 * 2 + 1) ex_gates pin_false) /\
  (let g := ok_or [] (and_prover 2 2 ex_gates [7; 9]%N ex_w) in
   and_check 2 2 ex_gates1 ex_gates2 [7; 9]%N [33; 44]%N 1234567 (explicit_share gf_ops ex_w g ex_share) ex_share = Err EDZKPVerify).
Proof.
  split. { split; [reflexivity|split; [reflexivity|]]. intros k. do 4 (destruct k as [|k]; [reflexivity|]). destruct k; reflexivity. }
  split; [intros H; discriminate H|]. vm_compute. reflexivity.
Qed.

(** The coefficients must not be known before the gates are fixed.  In the code they come from the generator
    whose key all three parties hold (protocol.rs:643-645), so a prover can compute them in advance.  With at
    least 65 rows (4097 gates suffice, since l = ceil(sqrt(gates))), for EVERY coefficients there are outputs
    to invert, chosen from the coefficients alone, such that the prover's ordinary proof of the wrong gates is
    accepted under all challenges. *)
Theorem C44_known_thetas : forall l m thetas, (N.of_nat m < 2 ^ 64)%N -> (65 <= l)%nat -> (1 <= m)%nat -> u64s l thetas ->
  exists es, length es = (l * m)%nat /\ In true es /\
  forall gates gates1 gates2 w, length gates = (l * m)%nat -> gates_joined gates gates1 gates2 -> Forall and_correct gates -> u64s (6 * l) w ->
    (forall k, nth k es false = true -> ~ and_correct (nth k (flip_outputs es gates) pin_false)) /\
    exists g, and_prover l m (flip_outputs es gates) thetas w = Ok g /\
      forall betas r p2, u64s m betas -> u64 r -> and_proof_share l m p2 ->
        and_check l m (flip_outputs es gates1) gates2 thetas betas r (explicit_share gf_ops w g p2) p2 = Ok tt.
Proof. exact known_thetas. Qed.
Print Assumptions C44_known_thetas.
Example C44_example : calc_params 4097 = (65, 64)%nat /\ u64s 65 (map N.of_nat (seq 1000 65)) /\
  Forall and_correct (repeat pin_false (65 * 64)) /\ gates_joined (repeat pin_false (65 * 64)) (repeat pin_false (65 * 64)) (repeat pin_false (65 * 64)).
Proof.
  split; [vm_compute; reflexivity|]. split; [split; [reflexivity|]; apply Forall_forall; intros x Hx; apply in_map_iff in Hx; destruct Hx as (i & <- & Hi); apply in_seq in Hi; unfold u64; lia|].
  split; [apply Forall_forall; intros x Hx; apply repeat_spec in Hx; subst x; reflexivity|].
  split; [rewrite !repeat_length; reflexivity|]. split; [rewrite !repeat_length; reflexivity|]. intros k. rewrite nth_repeat. reflexivity.
Qed.
