(** Properties C47 (Swift3's verify in an honest run) and C38 for Swift3. *)
From Verif Require Import Base Ring RingProofs Prog Sched Rng Rel Net Aby3 Iris IrisSpec MpcSpec Protocol ShareSpec OutcomeSpec OutcomeProofs FailProofs PropLemmas PropLemmas2 ProtocolProofs SpecProofs
  Poly Galois Dzkp DzkpSpec GaloisSpec Jmp JmpProofs Swift3 Swift3Spec Swift3Proofs Swift3Open Swift3Api Swift3ApiProofs Swift3Setup Swift3SetupProofs Properties4 Properties8
  Swift3Verify Swift3VerifySpec Swift3VerifyKinds Swift3VerifyRun Swift3VerifyGr Swift3VerifyMain Swift3VerifyLax.
Local Open Scope list_scope.

(** ** C47 *)
(** AND gates: below the size limit every honest verification accepts, for every source of entropy [ent]. *)
Theorem C47_and_accepts : forall G H K fuel (ent : pid -> sst G -> rstate G) (s : pid -> sst G) l m, winv G K s ->
  (0 < length (w_and G (s P0)))%nat -> calc_params (length (w_and G (s P0))) = (l, m) -> 2 ^ 40 * (2 * Z.of_nat m + 1) < 2 ^ 64 - Z.of_nat m ->
  honest_run (fun i => and_verify G H fuel i (ent i)) s (fun s' _ => winv G K s').
Proof.
  intros G H K fuel ent s l m Hs Hp Ep Hm. apply wpM_honest. apply (and_verify_ok G H K fuel s ent l m Hs Ep Hp). apply Z.ltb_lt, Hm.
Qed.
Print Assumptions C47_and_accepts.
(** Multiplications: the outcome of party i is the verdict on the proof of party i+1.  The registry keeps all
    gates, followed by zero gates. *)
Theorem C47_mul_outcome : forall G H K fuel (ent : pid -> sst G -> rstate G) (s : pid -> sst G) l m, In K [8; 16; 32] -> winv G K s ->
  (0 < length (w_mul G (s P0)))%nat -> calc_params (length (w_mul G (s P0))) = (l, m) -> Z.of_nat m <= 2 ^ 22 ->
  exists f v s', irreducible_poly (mod_degree m) = Ok f /\
    honest_outcome (fun i => mul_verify G H K fuel i (ent i)) s (by_verdict v s') /\ winv G K s' /\
    (forall i, exists k, w_mul G (s' i) = w_mul G (s i) ++ repeat (Entry pin_zero pin_zero pin_zero) k) /\
    (forall j, mul_judged K f l m (fun i => w_mul G (s' i)) j (v j)).
Proof.
  intros G H K fuel ent s l m HS Hs Hp Ep Hm. destruct (degree_ok m Hm) as (f & Hf). destruct (mul_run G H K fuel s ent l m f HS Hs Ep Hp Hf) as (v & HO & HV).
  exists f, v, (mul_after G s l m). split; [exact Hf|]. split; [apply outs_honest; exact HO|]. split; [apply (mul_after_ok G K s l m HS Hs Ep Hp)|]. split.
  - intros i. exists (l * m - length (w_mul G (s i)))%nat. destruct (calc_params_ok _ _ _ Hp Ep) as (B1 & _). unfold mul_after, mul_before, mul_padded, pad_entries, resize. cbn [w_mul w_set_p w_set_mul].
    rewrite firstn_all2; [reflexivity|]. rewrite (lens_mul G K s Hs i). exact B1.
  - intros j. destruct (HV j) as (thetas & Ht & betas & r & w & g & p2 & s1 & s2 & X). exists thetas, betas, r, w, g, p2, s1, s2. split; [exact Ht|].
    unfold mul_prover, mul_verdicts, mul_check. rewrite !map_map. exact X.
Qed.
Print Assumptions C47_mul_outcome.
Theorem C47_dot_outcome : forall G H K fuel (ent : pid -> sst G -> rstate G) (s : pid -> sst G) l m, In K [8; 16; 32] -> winv G K s ->
  let dot := dr_size (w_dot G (s P0)) in let gates := length (dr_entries (w_dot G (s P0))) in
  (0 < gates)%nat -> dot_params dot gates = (l, m) -> Z.of_nat m <= 2 ^ 22 ->
  exists f v s', irreducible_poly (mod_degree m) = Ok f /\
    honest_outcome (fun i => dot_verify G H K fuel i (ent i)) s (by_verdict v s') /\ winv G K s' /\
    (forall i, length (dr_entries (w_dot G (s' i))) = (l * m)%nat /\ (gates <= l * m)%nat) /\
    (forall j, dot_judged K f dot l m (fun i => dr_entries (w_dot G (s' i))) j (v j)).
Proof.
  intros G H K fuel ent s l m HS Hs dot gates Hp Ep Hm. destruct (degree_ok m Hm) as (f & Hf). destruct (dot_run G H K fuel s ent l m f HS Hs Ep Hp Hf) as (v & HO & HV).
  exists f, v, (dot_after G s l m). split; [exact Hf|]. split; [apply outs_honest; exact HO|]. split; [apply (dot_after_ok G K s l m HS Hs Ep Hp)|]. split.
  - intros i. destruct (dot_params_ok _ _ _ _ Hp Ep) as (B1 & _). split; [apply (dot_padded_ok G K s l m HS Hs Ep Hp)|exact B1].
  - intros j. destruct (HV j) as (thetas & Ht & betas & r & w & g & p2 & s1 & s2 & X). exists thetas, betas, r, w, g, p2, s1, s2. split; [exact Ht|].
    unfold dot_prover, dot_verdicts, dot_check. rewrite !map_map. exact X.
Qed.
Print Assumptions C47_dot_outcome.
(** Size limits, and rings of 64 bits and more: every party panics. *)
Theorem C47_panics : forall G H K fuel (ent : pid -> sst G -> rstate G) (s : pid -> sst G) l m, winv G K s ->
  let dot := w_dot G (s P0) in
  ((0 < length (w_and G (s P0)))%nat -> calc_params (length (w_and G (s P0))) = (l, m) -> 2 ^ 64 - Z.of_nat m <= 2 ^ 40 * (2 * Z.of_nat m + 1) ->
     honest_failure (fun i => and_verify G H fuel i (ent i)) s EPanic) /\
  ((0 < length (w_mul G (s P0)))%nat -> calc_params (length (w_mul G (s P0))) = (l, m) -> 64 <= K \/ 2 ^ 22 < Z.of_nat m ->
     honest_failure (fun i => mul_verify G H K fuel i (ent i)) s EPanic) /\
  ((0 < length (dr_entries dot))%nat -> dot_params (dr_size dot) (length (dr_entries dot)) = (l, m) -> 64 <= K \/ 2 ^ 22 < Z.of_nat m ->
     honest_failure (fun i => dot_verify G H K fuel i (ent i)) s EPanic).
Proof.
  intros G H K fuel ent s l m Hs dot. split; [|split]; intros Hp Ep HF; apply failsM_honest.
  - apply (and_verify_fails G H K fuel s ent l m Hs Ep Hp). apply Z.ltb_ge, HF.
  - exact (mul_verify_fails G H K fuel s ent l m Hs Ep Hp HF).
  - exact (dot_verify_fails G H K fuel s ent l m Hs Ep Hp HF).
Qed.
Print Assumptions C47_panics.
(** The whole of verify: everybody returns, or some party stops. *)
Theorem C47_verify : forall G H K fuel (em ea ed : pid -> sst G -> rstate G) (s : pid -> sst G), In K [8; 16; 32; 64; 128] -> winv G K s ->
  right_or_stopped (fun i => sw_verify G H K fuel i (em i) (ea i) (ed i)) s (fun _ => tt).
Proof.
  intros G H K fuel em ea ed s HK Hs. assert (HW : In K small_widths \/ 64 <= K) by (cbn in *; lia).
  apply (le_runs _ (fun i => sw_lax G H K fuel i (em i) (ea i) (ed i)) s _ (fun _ _ => True)).
  - intros i. apply sw_lax_le.
  - eapply wpM_mono; [|apply (sw_lax_ok G H K fuel HW s em ea ed Hs)]. auto.
  - intros s' b _ i. destruct (b i). reflexivity.
Qed.
Print Assumptions C47_verify.

(** A joint state with one registered gate of each kind meets the hypotheses above. *)
Definition ex_val (x : list Z) (i : pid) : Z := nth (match i with P0 => 0 | P1 => 1 | P2 => 2 end)%nat x 0.
Definition ex_share (x : list Z) (i : pid) : share := Share (ex_val x i) (ex_val x (prev i)).
Definition ex_a : list Z := [3; 250; 7]. Definition ex_b : list Z := [11; 13; 200]. Definition ex_r : list Z := [1; 2; 4].
Definition ex_out (mul : Z -> Z -> Z) (add sub : Z -> Z -> Z) : list Z :=
  map (fun i => let a := ex_val ex_a in let b := ex_val ex_b in
    sub (add (add (add (mul (a i) (b i)) (mul (a i) (b (prev i)))) (mul (a (prev i)) (b i))) (ex_val ex_r i)) (ex_val ex_r (prev i))) [P0; P1; P2].
Definition ex_gates (i : pid) : sst one_rng :=
  let rr := (ex_val ex_r i, ex_val ex_r (prev i)) in
  let arith := ex_share (ex_out (rmul 8) (radd 8) (rsub 8)) i in
  SSt one_rng (Prf one_rng tt tt) tt [] [] [] [] []
    (register_and 8 (ex_share ex_a i) (ex_share ex_b i) rr (ex_share (ex_out Z.land Z.lxor Z.lxor) i))
    [register_mul 8 (ex_share ex_a i) (ex_share ex_b i) rr arith]
    (register_dot 8 (DotReg 0 0 []) [ex_share ex_a i] [ex_share ex_b i] rr arith).
Lemma RL_fns {A B} (R : (pid -> A) -> B -> Prop) (y : B) fs : Forall (fun f => R f y) fs -> RL R (fun i => map (fun f => f i) fs) (map (fun _ => y) fs).
Proof. induction 1 as [|f fs Hf _ IH]; [constructor; reflexivity|]. cbn [map]. econstructor; [reflexivity|exact Hf|exact IH]. Qed.
Example C47_example : winv one_rng 8 ex_gates /\ (length (w_and one_rng (ex_gates P0)) = 8 /\ length (w_mul one_rng (ex_gates P0)) = 1 /\ length (dr_entries (w_dot one_rng (ex_gates P0))) = 1 /\
  calc_params 8 = (3, 3) /\ calc_params 1 = (1, 1) /\ dot_params 1 1 = (1, 3))%nat.
Proof.
  split; [|repeat split; reflexivity].
  split; [intros i; reflexivity|]. split; [reflexivity|]. split; [reflexivity|]. split; [reflexivity|]. split; [|split].
  - exists (map (fun _ => tt) (seq 0 8)). pose (g := fun n i => nth n (w_and one_rng (ex_gates i)) (Entry (PIn false false false false false false) (PIn false false false false false false) (PIn false false false false false false))).
    apply (RL_ext and_item (fun i => map (fun f => f i) (map g (seq 0 8)))); [intros [| |]; reflexivity|].
    apply (RL_fns and_item tt (map g (seq 0 8))). cbn [seq map]. repeat constructor; destruct i; reflexivity.
  - exists [tt]. eapply RL_cons; [intros i; reflexivity| |constructor; reflexivity].
    intros [| |]; (split; [reflexivity|]; split; [reflexivity|]; split; repeat constructor; cbn; lia).
  - exists 1%nat, 0%nat, [1%nat]. split; [intros [| |]; split; reflexivity|]. split; [|split; [cbn; lia|split; repeat constructor]].
    eapply RL_cons; [intros i; reflexivity| |constructor; reflexivity].
    intros [| |]; (split; [repeat split; reflexivity|]; split; [split; [repeat constructor; cbn; lia|split; split; cbn; lia]|]; split; [split; [repeat constructor; cbn; lia|split; split; cbn; lia]|]; split; reflexivity).
Qed.

(** ** C38 *)
(** Cf. [C30_example_ready], a fresh state that meets [winv], and the iris codes of C38_aby3_mal.
    The iris protocol on Swift3 with its verify, from any joint state honest operations lead to: whoever returns,
    returns the plain answer, and if no party can move, everybody has returned or some party has stopped. *)
Theorem C38_swift3 : forall G H K fuel signed (em ea ed : pid -> sst G -> rstate G) (s : pid -> sst G) X a DB bs chunk, In K widths -> 14 < K -> winv G K s ->
  wf_iris a -> Forall wf_iris bs -> Forall (enough_valid a) bs -> (0 < length bs)%nat -> (0 < chunk)%nat ->
  vec_shared (arith3 K) X (code_vals (ir_code a)) ->
  vec_shared (vec_shared (arith3 K)) DB (map (fun b => code_vals (ir_code b)) bs) ->
  exists r, answers a bs r /\
    right_or_stopped (fun i => iris_in_db (swift3_engine G H (sw_verify G H K fuel i (em i) (ea i) (ed i)) i K) signed (X i) (DB i) (ir_mask a) (map ir_mask bs) chunk) s r.
Proof.
  intros G H K fuel signed em ea ed s X a DB bs chunk HW HK Hs Ha Hbs Hv Hl Hc HX HDB.
  assert (HK16 : 16 <= K) by (apply width_cases in HW; lia). assert (HW' : In K small_widths \/ 64 <= K) by (cbn in HW |- *; lia).
  exists (fun _ => existsb (matches a) bs). split; [apply answers_intro; reflexivity|].
  apply (le_runs _ (fun i => iris_in_db (swift3_engine G H (sw_lax G H K fuel i (em i) (ea i) (ed i)) i K) signed (X i) (DB i) (ir_mask a) (map ir_mask bs) chunk) s _ (fun s' R => winv G K s' /\ forall i, R i = existsb (matches a) bs)).
  - intros i. unfold iris_in_db. destruct (_ || _); [apply leM_refl|]. destruct (Nat.eqb chunk 0); [apply leM_refl|].
    apply leM_bind; [apply leM_refl|]. intros _. apply leM_bind; [apply leM_refl|]. intros bits. apply leM_bind; [apply leM_refl|]. intros res. apply leM_bind; [|intros _; apply leM_refl].
    apply leM_unwrap. apply sw_lax_le.
  - refine (iris_in_db_ok (fun i => swift3_engine G H (sw_lax G H K fuel i (em i) (ea i) (ed i)) i K) K _ _ _ _ _ _ _ _ _
      (swift3_mpc_ok G H (fun i => sw_lax G H K fuel i (em i) (ea i) (ed i)) K HW True (fun s0 Hs0 _ => sw_lax_ok G H K fuel HW' s0 em ea ed Hs0)) HK16 signed tt s X a DB bs chunk Hs Ha Hbs Hv Hl Hc (vec_RL _ _ _ HX) (vec2_RL _ _ _ HDB) I).
  - intros s' b [_ Hb]. exact Hb.
Qed.
Print Assumptions C38_swift3.
