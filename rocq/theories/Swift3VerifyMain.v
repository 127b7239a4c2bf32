(** Honest runs of Swift3's verify. *)
From Verif Require Import Base Ring RingProofs Prog Sched Rng Net Rel Jmp JmpProofs FailProofs MpcSpec ShareSpec Poly Galois GaloisSpec GaloisPoints GaloisDzkp GaloisMul GaloisGates GaloisInterp
  Swift3 Swift3Spec Swift3Proofs Swift3Setup Swift3SetupProofs Dzkp DzkpSpec Swift3Verify Swift3VerifyProofs Swift3VerifyKinds Swift3VerifyRun Swift3VerifyGr OutcomeSpec OutcomeProofs.
Local Open Scope list_scope.

Lemma outs_ext {A} (P Q : pid -> prog A) F : (forall i, P i = Q i) -> outs P F -> outs Q F.
Proof. intros E [sc Hs]. exists sc. rewrite (start_ext Q P); [exact Hs|]. intros i. symmetry. apply E. Qed.

Section Main.
  Variables (G : rng) (H : hasher) (K : Z) (fuel : nat).
  Notation winv := (winv G K).
  Lemma winv_set_mul s L : winv s -> mul_shared K L -> winv (fun i => w_set_mul G (s i) (L i)).
  Proof using. intros (A1 & A2 & A3 & A4 & A5 & A6 & A7) HL. do 5 (split; [assumption|]). split; [exact HL|exact A7]. Qed.
  Lemma winv_set_dot s L : winv s -> dot_shared K L -> winv (fun i => w_set_dot G (s i) (L i)).
  Proof using. intros (A1 & A2 & A3 & A4 & A5 & A6 & A7) HL. do 6 (split; [assumption|]). exact HL. Qed.
  Lemma lens_mul s : winv s -> forall i, length (w_mul G (s i)) = length (w_mul G (s P0)).
  Proof using. intros (_ & _ & _ & _ & _ & (us & HR) & _) i. rewrite !(RL_length _ _ _ HR). reflexivity. Qed.
  Lemma lens_and s : winv s -> forall i, length (w_and G (s i)) = length (w_and G (s P0)).
  Proof using. intros (_ & _ & _ & _ & (us & HR) & _ & _) i. rewrite !(RL_length _ _ _ HR). reflexivity. Qed.
  Lemma lens_dot s : winv s -> forall i, length (dr_entries (w_dot G (s i))) = length (dr_entries (w_dot G (s P0))) /\ dr_size (w_dot G (s i)) = dr_size (w_dot G (s P0)) /\ dr_max (w_dot G (s i)) = dr_max (w_dot G (s P0)).
  Proof using.
    intros (_ & _ & _ & _ & _ & _ & (sz & mx & ns & HD & HR & _)) i. split; [exact (eq_trans (RL_length _ _ _ HR i) (eq_sym (RL_length _ _ _ HR P0)))|].
    destruct (HD i) as [-> ->], (HD P0) as [-> ->]. auto.
  Qed.

  (** *** Multiplications *)
  Section Mul.
    Variables (s : pid -> sst G) (ent : pid -> sst G -> rstate G) (l m : nat) (f : list Z).
    Hypothesis HS : In K small_widths.
    Hypothesis Hs : winv s.
    Hypothesis Ep : calc_params (length (w_mul G (s P0))) = (l, m).
    Hypothesis Hpos : (0 < length (w_mul G (s P0)))%nat.
    Hypothesis Hf : irreducible_poly (mod_degree m) = Ok f.
    Definition mul_padded i := pad_entries (l * m) pin_zero (w_mul G (s i)).
    Definition mul_before i := w_set_mul G (s i) (mul_padded i).
    Definition mul_after i := w_set_p G (mul_before i) (fst (draw_bytes G 32 (w_p G (s P0)))).
    Lemma mul_padded_ok : mul_shared K mul_padded /\ (forall i, length (mul_padded i) = (l * m)%nat).
    Proof using HS Hs Ep Hpos.
      pose proof (K_pos K HS). destruct (calc_params_ok _ _ _ Hpos Ep) as (B1 & _). split; [apply pad_mul; [lia|apply Hs]|]. intros i. apply resize_len. rewrite (lens_mul s Hs i). exact B1.
    Qed.
    Lemma mul_before_ok : winv mul_before. Proof using HS Hs Ep Hpos. apply winv_set_mul; [exact Hs|apply mul_padded_ok]. Qed.
    Lemma mul_after_ok : winv mul_after. Proof using HS Hs Ep Hpos. apply (winv_set_p G K mul_before _), mul_before_ok. Qed.
    Lemma mul_small : Z.of_nat (6 * l) < 2 ^ 64.
    Proof using Ep Hpos Hf. destruct (calc_params_ok _ _ _ Hpos Ep) as (_ & _ & _ & B4). pose proof (degree_small m f Hf). nia. Qed.
    Lemma mul_lag : exists lag, gr_lagrange K (mul_points (m + 1)) f = Ok lag.
    Proof using HS Hf. destruct (gr_lagrange_ok K HS _ m f Hf (mod_degree_size m)) as (lag & El & _). exists lag. exact El. Qed.
    Lemma mul_run : exists v, outs (fun i => mul_verify G H K fuel i (ent i) (s i)) (fun i => rbind (v (next i)) (fun u => Ok (mul_after i, u))) /\
      forall j, exists thetas, polys K l thetas /\ verdict_spec K m f mul_inputs 6 c_mul l mul_padded thetas j (v j).
    Proof using HS Hs Ep Hpos Hf.
      destruct mul_padded_ok as [HP LP]. destruct mul_lag as [lag El]. pose proof (K_pos K HS) as HK.
      destruct (gr_outs G H K fuel HS m f Hf mul_inputs (mul_join K) (mul_wf K) (mul_correct K) 6 c_mul pin_zero ltac:(lia) (mul_cf K HS m f) (mul_inp K) (mul_joins K HS) (fun g _ => mul_gate K HS m f Hf g)
        l mul_padded (mul_reg K _ ltac:(lia) HP) LP mul_small lag El mul_before (fun i => ent i (s i))) as (v & HO & HV); [apply Hs|].
      exists v. split; [|exact HV]. refine (outs_ext _ _ _ _ HO). intros i. destruct (calc_params_ok _ _ _ Hpos Ep) as (B1 & _).
      unfold mul_verify, getM, bindM at 1. cbn [bind fst snd]. rewrite (lens_mul s Hs i), Ep. destruct (Nat.ltb_spec (l * m) (length (w_mul G (s P0)))); [lia|].
      rewrite Hf. unfold gr_verify. unfold bindM, resM, putM, liftM. cbn [of_res bind fst snd]. rewrite El. cbn [of_res bind fst snd]. reflexivity.
    Qed.
  End Mul.

  (** *** Inner products *)
  Section Dot.
    Variables (s : pid -> sst G) (ent : pid -> sst G -> rstate G) (l m : nat) (f : list Z).
    Notation reg i := (w_dot G (s i)).
    Notation dot := (dr_size (reg P0)).
    Hypothesis HS : In K small_widths.
    Hypothesis Hs : winv s.
    Hypothesis Ep : dot_params dot (length (dr_entries (reg P0))) = (l, m).
    Hypothesis Hpos : (0 < length (dr_entries (reg P0)))%nat.
    Hypothesis Hf : irreducible_poly (mod_degree m) = Ok f.
    Definition dot_padded i := pad_dots (reg i) (l * m).
    Definition dot_before i := w_set_dot G (s i) (DotReg (dr_size (reg i)) (dr_max (reg i)) (dot_padded i)).
    Definition dot_after i := w_set_p G (dot_before i) (fst (draw_bytes G 32 (w_p G (s P0)))).
    Lemma dot_padded_ok : dot_shared K (fun i => DotReg (dr_size (reg i)) (dr_max (reg i)) (dot_padded i)) /\ (forall i, length (dot_padded i) = (l * m)%nat) /\ reg_ok (dot_join K) (dot_wf K dot) (dot_correct K) dot_padded.
    Proof using HS Hs Ep Hpos.
      pose proof (K_pos K HS). destruct (dot_params_ok _ _ _ _ Hpos Ep) as (B1 & _). pose proof Hs as (_ & _ & _ & _ & _ & _ & HD).
      destruct (pad_dots_ok K _ (l * m) ltac:(lia) HD B1) as (us & HR & HF & HL & HM). cbn beta in HR, HF, HM. split; [|split].
      - exists dot, (dr_max (reg P0)), us. cbn [dr_size dr_max dr_entries]. split; [intros i; destruct (lens_dot s Hs i) as (_ & E1 & E2); auto|]. split; [exact HR|]. split; [lia|].
        assert (HF' : forall u, In u us -> u = dot) by (rewrite Forall_forall in HF; exact HF).
        split; apply Forall_forall; intros u Hu; [apply HF' in Hu; lia|]. apply HF'. rewrite <- (firstn_skipn (dr_max (reg P0)) us). apply in_or_app. right. exact Hu.
      - intros i. unfold dot_padded. rewrite (RL_length _ _ _ HR i). exact HL.
      - apply (dot_reg K dot _ us); [lia|exact HR|exact HF].
    Qed.
    Lemma dot_before_ok : winv dot_before. Proof using HS Hs Ep Hpos. apply winv_set_dot; [exact Hs|apply dot_padded_ok]. Qed.
    Lemma dot_after_ok : winv dot_after. Proof using HS Hs Ep Hpos. apply (winv_set_p G K dot_before _), dot_before_ok. Qed.
    Lemma dot_small : Z.of_nat ((4 * dot + 2) * l) < 2 ^ 64.
    Proof using Ep Hpos Hf. destruct (dot_params_ok _ _ _ _ Hpos Ep) as (_ & _ & _ & B4). pose proof (degree_small m f Hf) as Hd. set (x := ((4 * dot + 2) * l)%nat) in *. clearbody x. clear - B4 Hd. nia. Qed.
    Lemma dot_lag : exists lag, gr_lagrange K (mul_points (m + 1)) f = Ok lag.
    Proof using HS Hf. destruct (gr_lagrange_ok K HS _ m f Hf (mod_degree_size m)) as (lag & El & _). exists lag. exact El. Qed.
    Lemma dot_run : exists v, outs (fun i => dot_verify G H K fuel i (ent i) (s i)) (fun i => rbind (v (next i)) (fun u => Ok (dot_after i, u))) /\
      forall j, exists thetas, polys K l thetas /\ verdict_spec K m f dot_inputs (4 * dot + 2) (c_dot dot) l dot_padded thetas j (v j).
    Proof using HS Hs Ep Hpos Hf.
      destruct dot_padded_ok as (_ & LP & HP). destruct dot_lag as [lag El]. pose proof (K_pos K HS) as HK.
      destruct (gr_outs G H K fuel HS m f Hf dot_inputs (dot_join K) (dot_wf K dot) (dot_correct K) (4 * dot + 2) (c_dot dot) din_nil ltac:(lia) (dot_cf K HS m f dot) (dot_inp K dot) (dot_joins K HS dot) (dot_gate K HS m f Hf dot)
        l dot_padded HP LP dot_small lag El dot_before (fun i => ent i (s i))) as (v & HO & HV); [apply Hs|].
      exists v. split; [|exact HV]. refine (outs_ext _ _ _ _ HO). intros i. destruct (dot_params_ok _ _ _ _ Hpos Ep) as (B1 & _). destruct (lens_dot s Hs i) as (E1 & E2 & E3).
      unfold dot_verify, getM, bindM at 1. cbn [bind fst snd]. cbv zeta. rewrite E1, E2, Ep. destruct (Nat.ltb_spec (l * m) (length (dr_entries (reg P0)))); [lia|].
      rewrite Hf. unfold gr_verify. unfold bindM, resM, putM, liftM. cbn [of_res bind fst snd]. rewrite El. cbn [of_res bind fst snd]. unfold dot_before. rewrite E2. reflexivity.
    Qed.
  End Dot.

  (** *** Size limits and wide rings: everybody panics *)
  Lemma fail_all {A} (P : pid -> M (sst G) A) s e : (forall i, P i (s i) = Fail e) -> failsM P s e.
  Proof using. intros E. apply (failsM_ext (fun _ => failM e)); [intros i; symmetry; apply E|apply failsM_fail]. Qed.
  Lemma mul_verify_fails s ent l m : winv s -> calc_params (length (w_mul G (s P0))) = (l, m) -> (0 < length (w_mul G (s P0)))%nat ->
    64 <= K \/ (2 ^ 22 < Z.of_nat m)%Z -> failsM (fun i => mul_verify G H K fuel i (ent i)) s EPanic.
  Proof using.
    intros Hs Ep Hpos HF. apply fail_all. intros i. destruct (calc_params_ok _ _ _ Hpos Ep) as (B1 & B2 & _).
    unfold mul_verify, getM, bindM at 1. cbn [bind fst snd]. rewrite (lens_mul s Hs i), Ep. destruct (Nat.ltb_spec (l * m) (length (w_mul G (s P0)))); [lia|].
    unfold bindM, resM, putM, liftM. cbn [of_res bind fst snd]. destruct (irreducible_poly (mod_degree m)) as [f|e] eqn:Ef.
    - destruct HF as [HK|Hm]; [|pose proof (degree_small m f Ef); lia]. cbn [of_res bind fst snd]. unfold gr_verify, bindM, resM, liftM. rewrite wide_lagrange; [reflexivity|exact HK|rewrite mul_points_len; lia].
    - cbn. f_equal. unfold irreducible_poly, irreducible in Ef. destruct (Nat.ltb _ 40); [cbn in Ef; congruence|]. destruct (nth_error _ _); cbn [rbind] in Ef; congruence.
  Qed.
  Lemma dot_verify_fails s ent l m : winv s -> dot_params (dr_size (w_dot G (s P0))) (length (dr_entries (w_dot G (s P0)))) = (l, m) -> (0 < length (dr_entries (w_dot G (s P0))))%nat ->
    64 <= K \/ (2 ^ 22 < Z.of_nat m)%Z -> failsM (fun i => dot_verify G H K fuel i (ent i)) s EPanic.
  Proof using.
    intros Hs Ep Hpos HF. apply fail_all. intros i. destruct (dot_params_ok _ _ _ _ Hpos Ep) as (B1 & B2 & _). destruct (lens_dot s Hs i) as (E1 & E2 & E3).
    unfold dot_verify, getM, bindM at 1. cbn [bind fst snd]. cbv zeta. rewrite E1, E2, Ep. destruct (Nat.ltb_spec (l * m) (length (dr_entries (w_dot G (s P0))))); [lia|].
    unfold bindM, resM, putM, liftM. cbn [of_res bind fst snd]. destruct (irreducible_poly (mod_degree m)) as [f|e] eqn:Ef.
    - destruct HF as [HK|Hm]; [|pose proof (degree_small m f Ef); lia]. cbn [of_res bind fst snd]. unfold gr_verify, bindM, resM, liftM. rewrite wide_lagrange; [reflexivity|exact HK|rewrite mul_points_len; lia].
    - cbn. f_equal. unfold irreducible_poly, irreducible in Ef. destruct (Nat.ltb _ 40); [cbn in Ef; congruence|]. destruct (nth_error _ _); cbn [rbind] in Ef; congruence.
  Qed.
  Lemma and_verify_fails s ent l m : winv s -> calc_params (length (w_and G (s P0))) = (l, m) -> (0 < length (w_and G (s P0)))%nat ->
    and_secure m = false -> failsM (fun i => and_verify G H fuel i (ent i)) s EPanic.
  Proof using.
    intros Hs Ep Hpos HF. apply fail_all. intros i. destruct (calc_params_ok _ _ _ Hpos Ep) as (B1 & B2 & _).
    unfold and_verify, getM, bindM at 1. cbn [bind fst snd]. rewrite (lens_and s Hs i), Ep. unfold and_set_parameters, getM, bindM. cbn [bind fst snd]. rewrite (lens_and s Hs i).
    destruct (Nat.ltb_spec (l * m) (length (w_and G (s P0)))); [lia|]. rewrite HF. reflexivity.
  Qed.
  (** The size limit in terms of m: degree 63 is the last one of the table. *)
  Lemma degree_ok m : Z.of_nat m <= 2 ^ 22 -> exists f, irreducible_poly (mod_degree m) = Ok f.
  Proof using.
    intros Hm. unfold irreducible_poly, irreducible. assert (X : (40 <= mod_degree m <= 63)%nat).
    { unfold mod_degree. split; [lia|]. destruct m as [|m]; [cbn; lia|]. assert (Y : (Nat.log2_up (2 * S m) <= 23)%nat); [|lia].
      apply Nat.log2_up_le_pow2; [lia|]. apply Nat2Z.inj_le. rewrite Nat2Z.inj_pow. change (Z.of_nat 2 ^ Z.of_nat 23) with (2 * 2 ^ 22). lia. }
    destruct (Nat.ltb_spec (mod_degree m) 40); [lia|]. destruct (nth_error irreducibles (mod_degree m - 40)) as [v|] eqn:E; [eexists; reflexivity|].
    apply nth_error_None in E. cbn [length irreducibles] in E. lia.
  Qed.
End Main.
