(** Swift3's verify returns to a consistent state, or some party stops. *)
From Verif Require Import Base Ring RingProofs Prog Sched Rng Net Rel Jmp JmpProofs FailProofs MpcSpec ShareSpec Poly Galois GaloisSpec GaloisPoints GaloisDzkp GaloisMul GaloisGates GaloisInterp
  Swift3 Swift3Spec Swift3Proofs Swift3Setup Swift3SetupProofs Dzkp DzkpSpec Swift3Verify Swift3VerifyProofs Swift3VerifyKinds Swift3VerifyRun Swift3VerifyGr Swift3VerifyMain OutcomeSpec OutcomeProofs.
Local Open Scope list_scope.

Section Lax.
  Variables (G : rng) (H : hasher) (K : Z) (fuel : nat).
  Notation winv := (winv G K).
  (** The same text, but every failure is ignored. *)
  Definition gr_lax_run (i : pid) (n : nat) (cf : forall B : Type, rops B -> list B -> B) (l m : nat) (f : list Z) (proof vprev vnext : list (list (list Z))) (ent : rstate G) : M (sst G) unit :=
    match gr_lagrange K (mul_points (m + 1)) f with
    | Err _ => retM tt
    | Ok lag => bindM (dz_exchange (pz_ops K) (fun c => p_rem K c f) n cf (poly_enc K) (poly_dec K) G H (draw_poly G K (mod_degree m)) poly_again fuel i
        l m lag (mul_points (m + 1)) proof vprev vnext ent) (fun _ => retM tt)
    end.
  Definition mul_lax (i : pid) (ent : sst G -> rstate G) : M (sst G) unit := fun s =>
    let '(l, m) := calc_params (length (w_mul G s)) in
    match irreducible_poly (mod_degree m) with
    | Err _ => Ret (s, tt)
    | Ok f => let es := pad_entries (l * m) pin_zero (w_mul G s) in
        gr_lax_run i 6 c_mul l m f (map (fun e => mul_inputs (e_proof e)) es) (map (fun e => mul_inputs (e_prev e)) es) (map (fun e => mul_inputs (e_next e)) es) (ent s) (w_set_mul G s es)
    end.
  Definition dot_lax (i : pid) (ent : sst G -> rstate G) : M (sst G) unit := fun s =>
    let d := w_dot G s in
    let '(l, m) := dot_params (dr_size d) (length (dr_entries d)) in
    match irreducible_poly (mod_degree m) with
    | Err _ => Ret (s, tt)
    | Ok f => let es := pad_dots d (l * m) in
        gr_lax_run i (4 * dr_size d + 2) (c_dot (dr_size d)) l m f (map (fun e => dot_inputs (e_proof e)) es) (map (fun e => dot_inputs (e_prev e)) es) (map (fun e => dot_inputs (e_next e)) es) (ent s) (w_set_dot G s (DotReg (dr_size d) (dr_max d) es))
    end.
  Definition and_lax (i : pid) (ent : sst G -> rstate G) : M (sst G) unit := fun s =>
    if and_secure (snd (calc_params (length (w_and G s)))) then and_verify G H fuel i ent s else Ret (s, tt).
  Definition sw_lax (i : pid) (ent_mul ent_and ent_dot : sst G -> rstate G) : M (sst G) unit :=
    bindM (bindM getM (fun s => if nonempty (w_mul G s) then mul_lax i ent_mul else retM tt)) (fun _ =>
    bindM (bindM getM (fun s => if nonempty (w_and G s) then and_lax i ent_and else retM tt)) (fun _ =>
    bindM getM (fun s => if nonempty (dr_entries (w_dot G s)) then dot_lax i ent_dot else retM tt))).

  Lemma gr_lax_le i n cf l m f proof vprev vnext ent : leM (gr_verify G H K fuel i n cf l m f proof vprev vnext ent) (gr_lax_run i n cf l m f proof vprev vnext ent).
  Proof using.
    intros s. unfold gr_verify, gr_lax_run. unfold bindM at 1, resM at 1, liftM at 1. destruct (gr_lagrange K (mul_points (m + 1)) f) as [lag|e]; cbn [of_res bind fst snd]; [|constructor].
    unfold dz_verify. apply leM_bind; [apply leM_refl|]. intros x t. unfold resM, liftM, retM. destruct (dz_decide _ _ _ _ _ _ x) as [[]|e]; cbn [of_res bind]; [apply le_ret|apply le_fail].
  Qed.
  Lemma mul_lax_le i ent : leM (mul_verify G H K fuel i ent) (mul_lax i ent).
  Proof using.
    intros s. unfold mul_verify, mul_lax, getM. unfold bindM at 1. cbn [bind fst snd]. destruct (calc_params (length (w_mul G s))) as [l m]. destruct (Nat.ltb _ _); [apply le_fail|].
    unfold bindM at 1, resM, liftM. destruct (irreducible_poly (mod_degree m)) as [f|e]; cbn [of_res bind fst snd]; [|apply le_fail].
    cbv zeta. unfold bindM, putM. cbn [bind fst snd]. apply gr_lax_le.
  Qed.
  Lemma dot_lax_le i ent : leM (dot_verify G H K fuel i ent) (dot_lax i ent).
  Proof using.
    intros s. unfold dot_verify, dot_lax, getM. unfold bindM at 1. cbn [bind fst snd]. cbv zeta. destruct (dot_params _ _) as [l m]. destruct (Nat.ltb _ _); [apply le_fail|].
    unfold bindM at 1, resM, liftM. destruct (irreducible_poly (mod_degree m)) as [f|e]; cbn [of_res bind fst snd]; [|apply le_fail].
    unfold bindM, putM. cbn [bind fst snd]. apply gr_lax_le.
  Qed.
  Lemma and_lax_le i ent : leM (and_verify G H fuel i ent) (and_lax i ent).
  Proof using.
    intros s. unfold and_lax. destruct (and_secure _) eqn:E; [apply le_refl|]. unfold and_verify, getM. unfold bindM at 1. cbn [bind fst snd].
    destruct (calc_params (length (w_and G s))) as [l m]. cbn [snd] in E. unfold and_set_parameters, getM, bindM. cbn [bind fst snd]. destruct (Nat.ltb _ _); [apply le_fail|]. rewrite E. apply le_fail.
  Qed.
  Theorem sw_lax_le i em ea ed : leM (sw_verify G H K fuel i em ea ed) (sw_lax i em ea ed).
  Proof using.
    unfold sw_verify, sw_lax. apply leM_bind.
    - apply leM_bind; [apply leM_refl|]. intros s. destruct (nonempty _); [apply mul_lax_le|apply leM_refl].
    - intros _. apply leM_bind.
      + apply leM_bind; [apply leM_refl|]. intros s. destruct (nonempty _); [apply and_lax_le|apply leM_refl].
      + intros _. apply leM_bind; [apply leM_refl|]. intros s. destruct (nonempty _); [apply dot_lax_le|apply leM_refl].
  Qed.

  Hypothesis HW : In K small_widths \/ 64 <= K.
  Lemma nonempty_pos {A} (l : list A) : nonempty l = Nat.ltb 0 (length l).
  Proof using. destruct l; reflexivity. Qed.
  Lemma mul_lax_ok s ent : winv s -> (0 < length (w_mul G (s P0)))%nat -> wpM (fun i => mul_lax i (ent i)) s (fun s' _ => winv s').
  Proof using HW.
    intros Hs Hpos. destruct (calc_params (length (w_mul G (s P0)))) as [l m] eqn:Ep.
    assert (X : forall i, calc_params (length (w_mul G (s i))) = (l, m)) by (intros i; rewrite (lens_mul G K s Hs i); exact Ep).
    destruct (irreducible_poly (mod_degree m)) as [f|e] eqn:Ef.
    2:{ apply (wpM_ext (fun _ => retM tt)); [|apply wpM_ret; exact Hs]. intros i. unfold mul_lax. rewrite X, Ef. reflexivity. }
    destruct HW as [HS|HK].
    - destruct (mul_lag K m f HS Ef) as [lag El]. destruct (mul_padded_ok G K s l m HS Hs Ep Hpos) as [HP LP]. pose proof (K_pos K HS) as HK0.
      pose proof (gr_lax G H K fuel HS m f Ef mul_inputs (mul_join K) (mul_wf K) (mul_correct K) 6 c_mul pin_zero ltac:(lia) (mul_cf K HS m f) (mul_inp K) (mul_joins K HS) (fun g _ => mul_gate K HS m f Ef g)
        l (mul_padded G s l m) (mul_reg K _ ltac:(lia) HP) LP (mul_small G s l m f Ep Hpos Ef) lag El (mul_before G s l m) (fun i => ent i (s i)) ltac:(apply Hs)) as (R & ER & HR).
      exists R. split; [|cbv beta in HR; rewrite HR; apply (mul_after_ok G K s l m HS Hs Ep Hpos)].
      destruct ER as [sc Hsc]. exists sc. rewrite (start_ext _ (fun i => bindM (dz_exchange (pz_ops K) (fun c => p_rem K c f) 6 c_mul (poly_enc K) (poly_dec K) G H (draw_poly G K (mod_degree m)) poly_again fuel i
        l m lag (mul_points (m + 1)) (map (fun e => mul_inputs (e_proof e)) (mul_padded G s l m i)) (map (fun e => mul_inputs (e_prev e)) (mul_padded G s l m i)) (map (fun e => mul_inputs (e_next e)) (mul_padded G s l m i)) (ent i (s i))) (fun _ => retM tt) (mul_before G s l m i))); [exact Hsc|].
      intros i. unfold mul_lax. rewrite X, Ef. unfold gr_lax_run. rewrite El. reflexivity.
    - apply (wpM_ext (fun i => putM (w_set_mul G (s i) (pad_entries (l * m) pin_zero (w_mul G (s i)))))); [|apply (wpM_put s (fun i => w_set_mul G (s i) (pad_entries (l * m) pin_zero (w_mul G (s i)))))].
      + intros i. unfold mul_lax. rewrite X, Ef. unfold gr_lax_run. rewrite wide_lagrange; [reflexivity|exact HK|]. rewrite mul_points_len. destruct (calc_params_ok _ _ _ Hpos Ep) as (_ & B2 & _). lia.
      + apply winv_set_mul; [exact Hs|]. apply pad_mul; [lia|apply Hs].
  Qed.
  Lemma dot_lax_ok s ent : winv s -> (0 < length (dr_entries (w_dot G (s P0))))%nat -> wpM (fun i => dot_lax i (ent i)) s (fun s' _ => winv s').
  Proof using HW.
    intros Hs Hpos. destruct (dot_params (dr_size (w_dot G (s P0))) (length (dr_entries (w_dot G (s P0))))) as [l m] eqn:Ep.
    assert (X : forall i, dot_params (dr_size (w_dot G (s i))) (length (dr_entries (w_dot G (s i)))) = (l, m)) by (intros i; destruct (lens_dot G K s Hs i) as (-> & -> & _); exact Ep).
    destruct (irreducible_poly (mod_degree m)) as [f|e] eqn:Ef.
    2:{ apply (wpM_ext (fun _ => retM tt)); [|apply wpM_ret; exact Hs]. intros i. unfold dot_lax. cbv zeta. rewrite X, Ef. reflexivity. }
    destruct HW as [HS|HK].
    - destruct (dot_lag K m f HS Ef) as [lag El]. destruct (dot_padded_ok G K s l m HS Hs Ep Hpos) as (_ & LP & HP). set (dot := dr_size (w_dot G (s P0))) in *.
      pose proof (gr_lax G H K fuel HS m f Ef dot_inputs (dot_join K) (dot_wf K dot) (dot_correct K) (4 * dot + 2) (c_dot dot) din_nil ltac:(lia) (dot_cf K HS m f dot) (dot_inp K dot) (dot_joins K HS dot) (dot_gate K HS m f Ef dot)
        l (dot_padded G s l m) HP LP (dot_small G s l m f Ep Hpos Ef) lag El (dot_before G s l m) (fun i => ent i (s i)) ltac:(apply Hs)) as (R & ER & HR).
      exists R. split; [|cbv beta in HR; rewrite HR; apply (dot_after_ok G K s l m HS Hs Ep Hpos)].
      destruct ER as [sc Hsc]. exists sc. rewrite (start_ext _ (fun i => bindM (dz_exchange (pz_ops K) (fun c => p_rem K c f) (4 * dot + 2) (c_dot dot) (poly_enc K) (poly_dec K) G H (draw_poly G K (mod_degree m)) poly_again fuel i
        l m lag (mul_points (m + 1)) (map (fun e => dot_inputs (e_proof e)) (dot_padded G s l m i)) (map (fun e => dot_inputs (e_prev e)) (dot_padded G s l m i)) (map (fun e => dot_inputs (e_next e)) (dot_padded G s l m i)) (ent i (s i))) (fun _ => retM tt) (dot_before G s l m i))); [exact Hsc|].
      intros i. unfold dot_lax. cbv zeta. rewrite X, Ef. unfold gr_lax_run. rewrite El. destruct (lens_dot G K s Hs i) as (_ & E2 & _). unfold dot_before, dot_padded, dot. rewrite E2. reflexivity.
    - apply (wpM_ext (fun i => putM (w_set_dot G (s i) (DotReg (dr_size (w_dot G (s i))) (dr_max (w_dot G (s i))) (pad_dots (w_dot G (s i)) (l * m)))))).
      + intros i. unfold dot_lax. cbv zeta. rewrite X, Ef. unfold gr_lax_run. rewrite wide_lagrange; [reflexivity|exact HK|]. rewrite mul_points_len. destruct (dot_params_ok _ _ _ _ Hpos Ep) as (_ & B2 & _). lia.
      + apply (wpM_put s (fun i => w_set_dot G (s i) (DotReg (dr_size (w_dot G (s i))) (dr_max (w_dot G (s i))) (pad_dots (w_dot G (s i)) (l * m))))). apply winv_set_dot; [exact Hs|].
        destruct (dot_params_ok _ _ _ _ Hpos Ep) as (B1 & _). pose proof Hs as (_ & _ & _ & _ & _ & _ & HD). destruct (pad_dots_ok K _ (l * m) ltac:(lia) HD B1) as (us & HR & HF & HL & HM). cbn beta in HR, HF, HM.
        exists (dr_size (w_dot G (s P0))), (dr_max (w_dot G (s P0))), us. cbn [dr_size dr_max dr_entries]. split; [intros i; destruct (lens_dot G K s Hs i) as (_ & E1 & E2); auto|]. split; [exact HR|]. split; [lia|].
        assert (HF' : forall u, In u us -> u = dr_size (w_dot G (s P0))) by (rewrite Forall_forall in HF; exact HF).
        split; apply Forall_forall; intros u Hu; [apply HF' in Hu; lia|]. apply HF'. rewrite <- (firstn_skipn (dr_max (w_dot G (s P0))) us). apply in_or_app. right. exact Hu.
  Qed.
  Lemma and_lax_ok s ent : winv s -> (0 < length (w_and G (s P0)))%nat -> wpM (fun i => and_lax i (ent i)) s (fun s' _ => winv s').
  Proof using.
    intros Hs Hpos. destruct (calc_params (length (w_and G (s P0)))) as [l m] eqn:Ep. destruct (and_secure m) eqn:Em.
    - apply (wpM_ext (fun i => and_verify G H fuel i (ent i))); [|apply (and_verify_ok G H K fuel s ent l m Hs Ep Hpos Em)].
      intros i. unfold and_lax. rewrite (lens_and G K s Hs i), Ep. cbn [snd]. rewrite Em. reflexivity.
    - apply (wpM_ext (fun _ => retM tt)); [|apply wpM_ret; exact Hs]. intros i. unfold and_lax. rewrite (lens_and G K s Hs i), Ep. cbn [snd]. rewrite Em. reflexivity.
  Qed.
  Lemma when_ok {A} (sel : sst G -> list A) (P : pid -> M (sst G) unit) s : (forall i, length (sel (s i)) = length (sel (s P0))) -> winv s ->
    ((0 < length (sel (s P0)))%nat -> wpM P s (fun s' _ => winv s')) ->
    wpM (fun i => bindM getM (fun t => if nonempty (sel t) then P i else retM tt)) s (fun s' _ => winv s').
  Proof using.
    intros HL Hs HP. wbind. apply wpM_get. destruct (Nat.ltb 0 (length (sel (s P0)))) eqn:E.
    - apply (wpM_ext P); [intros i; rewrite nonempty_pos, HL, E; reflexivity|]. apply HP. apply Nat.ltb_lt, E.
    - apply (wpM_ext (fun _ => retM tt)); [intros i; rewrite nonempty_pos, HL, E; reflexivity|]. apply wpM_ret, Hs.
  Qed.
  Theorem sw_lax_ok s em ea ed : winv s -> wpM (fun i => sw_lax i (em i) (ea i) (ed i)) s (fun s' _ => winv s').
  Proof using HW.
    intros Hs. unfold sw_lax. wbind.
    eapply wpM_mono; [|apply (when_ok (w_mul G) (fun i => mul_lax i (em i)) s (lens_mul G K s Hs) Hs); intros Hp; apply mul_lax_ok; assumption]. intros s1 u1 Hs1. cbv beta in Hs1.
    wbind. eapply wpM_mono; [|apply (when_ok (w_and G) (fun i => and_lax i (ea i)) s1 (lens_and G K s1 Hs1) Hs1); intros Hp; apply and_lax_ok; assumption]. intros s2 u2 Hs2. cbv beta in Hs2.
    apply (when_ok (fun t => dr_entries (w_dot G t)) (fun i => dot_lax i (ed i)) s2 (fun i => proj1 (lens_dot G K s2 Hs2 i)) Hs2). intros Hp. apply dot_lax_ok; assumption.
  Qed.
End Lax.
