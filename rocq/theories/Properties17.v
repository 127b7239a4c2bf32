(** Property C48, continued: the whole of Swift3's verify against a malicious party. *)
From Verif Require Import Base Ring RingProofs Prog Sched Conc Duo CheatSpec Emits ShareSpec Rng Rel Net Aby3 Aby3Proofs Poly Dzkp DzkpSpec Galois Jmp JmpProofs Swift3 Swift3Spec Swift3Proofs
  Swift3Verify Swift3VerifySpec Swift3VerifyProofs Swift3VerifyMain Swift3VerifyRun Swift3VerifyKinds Swift3VerifyDuo Swift3VerifyMal Swift3VerifyAll Properties13 Properties14 SpecProofs.
Local Open Scope list_scope.

(** Executions under a schedule are of the form that C48_mul, C48_and, C48_dot and their soundness theorems speak about. *)
Theorem C48_runs : forall A i (p q : prog A) P c tr, both_finish i p q P c tr -> both_end i p q tr.
Proof. intros A i p q P c tr. apply finish_end. Qed.
Print Assumptions C48_runs.

(** The generator after the 32 bytes of a seed. *)
Definition next_seed G (p : rstate G) : rstate G := fst (draw_bytes G 32 p).
(** Two honest parties that finish verify have finished the verification of every kind of gates of which they hold any:
    what they did falls into three consecutive stretches, one for each kind, with the registries they started with; in each
    of them they used what the third party sent them next. *)
Theorem C48_verify : forall G H K fuel i eim eia eid ejm eja ejd (s t : sst G) tr,
  w_p G t = w_p G s -> length (w_mul G t) = length (w_mul G s) -> length (w_and G t) = length (w_and G s) -> length (dr_entries (w_dot G t)) = length (dr_entries (w_dot G s)) ->
  both_end i (sw_verify G H K fuel i eim eia eid s) (sw_verify G H K fuel (next i) ejm eja ejd t) tr ->
  exists s1 s2 t1 t2 tr1 tr2 tr3,
    (w_mul G s <> [] -> both_end i (mul_verify G H K fuel i eim s) (mul_verify G H K fuel (next i) ejm t) tr1) /\
    (w_and G s <> [] -> both_end i (and_verify G H fuel i eia s1) (and_verify G H fuel (next i) eja t1) tr2) /\
    (dr_entries (w_dot G s) <> [] -> both_end i (dot_verify G H K fuel i eid s2) (dot_verify G H K fuel (next i) ejd t2) tr3) /\
    (w_and G s1 = w_and G s /\ w_and G t1 = w_and G t /\ w_dot G s2 = w_dot G s /\ w_dot G t2 = w_dot G t) /\
    (w_p G t1 = w_p G s1 /\ (w_mul G s <> [] -> w_p G s1 = next_seed G (w_p G s)) /\ (w_mul G s = [] -> w_p G s1 = w_p G s)) /\
    (w_p G t2 = w_p G s2 /\ (w_and G s <> [] -> w_p G s2 = next_seed G (w_p G s1)) /\ (w_and G s = [] -> w_p G s2 = w_p G s1)) /\
    (forall k, k <> prev i -> tr k = tr1 k ++ tr2 k ++ tr3 k /\
      exists rest, sent_to k (tr (prev i)) = sent_to k (tr1 (prev i)) ++ sent_to k (tr2 (prev i)) ++ sent_to k (tr3 (prev i)) ++ rest).
Proof.
  intros G H K fuel i eim eia eid ejm eja ejd s t tr Hp Lm La Ld HF.
  assert (NE : forall A (x y : list A), length x = length y -> nonempty x = nonempty y) by (intros A [|? ?] [|? ?]; cbn; congruence).
  assert (NT : forall A (x : list A), x <> [] -> nonempty x = true) by (intros A [|? ?]; cbn; congruence).
  assert (NF : forall A (x : list A), x = [] -> nonempty x = false) by (intros A x ->; reflexivity).
  destruct (verify_stages G H K fuel i eim eia eid ejm eja ejd s t tr (NE _ _ _ Lm) (NE _ _ _ La) (NE _ _ _ Ld) Hp HF) as
    (s1 & s2 & t1 & t2 & tr1 & tr2 & tr3 & E1 & E2 & E3 & P1 & P1' & A1 & A1' & P2 & P2' & D1 & D1' & Hk).
  exists s1, s2, t1, t2, tr1, tr2, tr3. split; [auto|]. split; [auto|]. split; [auto|]. split; [auto|].
  unfold next_seed. split; [split; [exact P1'|]; split; intros X; rewrite P1; [rewrite (NT _ _ X)|rewrite (NF _ _ X)]; reflexivity|].
  split; [split; [exact P2'|]; split; intros X; rewrite P2; [rewrite (NT _ _ X)|rewrite (NF _ _ X)]; reflexivity|]. exact Hk.
Qed.
Print Assumptions C48_verify.
(** Met: three honest parties that hold AND gates only finish verify. *)
Theorem C48_verify_met : forall G H K fuel (em ea ed : pid -> sst G -> rstate G) (s : pid -> sst G) l m i, (forall x, bytes (hfun H x)) -> winv G K s ->
  (forall j, w_mul G (s j) = [] /\ dr_entries (w_dot G (s j)) = []) ->
  (0 < length (w_and G (s P0)))%nat -> calc_params (length (w_and G (s P0))) = (l, m) -> 2 ^ 40 * (2 * Z.of_nat m + 1) < 2 ^ 64 - Z.of_nat m ->
  exists P c tr, both_finish i (sw_verify G H K fuel i (em i) (ea i) (ed i) (s i)) (sw_verify G H K fuel (next i) (em (next i)) (ea (next i)) (ed (next i)) (s (next i))) P c tr.
Proof.
  intros G H K fuel em ea ed s l m i HH Hs HZ Hpos Ep Hm.
  set (P := fun j => sw_verify G H K fuel j (em j) (ea j) (ed j) (s j)).
  destruct (C47_and_accepts G H K fuel ea s l m Hs Hpos Ep Hm) as (s' & a & HE & _). pose proof (lens_and G K s Hs) as Hlen.
  destruct HE as (n & HE). destruct (HE [] _ (steps_nil _)) as (_ & (sched & Hst & _) & _).
  destruct (project _ sched _ Hst) as (trA & LA & _).
  assert (HD : forall j, w_dot G (s' j) = w_dot G (s j)).
  { intros j. specialize (LA j). replace (get (progs (finished (fun j0 => (s' j0, a j0)))) j) with (Ret (s' j, a j)) in LA by (destruct j; reflexivity). cbv beta in LA. apply and_stage in LA. apply LA. }
  assert (HV : evals P (fun j => (s' j, tt))).
  { unfold P, sw_verify. apply (evals_ext (fun j => bind (and_verify G H fuel j (ea j) (s j)) (fun x => (s0 <- getM ;; if nonempty (dr_entries (w_dot G s0)) then dot_verify G H K fuel j (ed j) else retM tt)%M (fst x))) _ (fun j => (s' j, tt)) _).
    - intros j. destruct (HZ j) as [Z1 _]. unfold bindM at 2 3, getM at 2. cbn [bind fst snd].  rewrite Z1. cbn [nonempty]. unfold retM at 2. cbn [bind fst snd]. unfold bindM at 2 3, getM at 2. cbn [bind fst snd].
      replace (nonempty (w_and G (s j))) with true; [reflexivity|]. specialize (Hlen j). destruct (w_and G (s j)); [|reflexivity]. cbn in Hlen. lia.
    - reflexivity.
    - eapply evals_bind; [exists sched; exact Hst|]. apply (evals_ext (fun j => Ret (s' j, tt)) _ (fun j => (s' j, tt)) _).
      + intros j. cbn [fst]. unfold bindM, getM. cbn [bind fst snd]. rewrite HD. destruct (HZ j) as [_ ->]. reflexivity.
      + reflexivity.
      + apply evals_ret. }
  destruct HV as (sch & HV). destruct (project P sch _ HV) as (tr & L & Q).
  exists P, (finished (fun j => (s' j, tt))), tr. split; [reflexivity|]. split; [reflexivity|]. split.
  - apply emits_sends. unfold P, sw_verify. clear - HH.
    assert (EG : forall n' cf l' m' f V Vp Vn ent, emitsM (gr_verify G H K fuel (prev i) n' cf l' m' f V Vp Vn ent)) by (intros; unfold gr_verify; apply emitsM_bind; [apply emitsM_res|]; intros lag; apply dz_emits; [exact HH|apply poly_enc_bytes]).
    apply emitsM_bind; [|intros _; apply emitsM_bind; [|intros _]]; (apply emitsM_bind; [apply emitsM_get|]); intros t; (destruct (nonempty _); [|apply emitsM_ret]).
    + unfold mul_verify. apply emitsM_bind; [apply emitsM_get|]. intros u. cbv beta zeta. destruct (calc_params (length _)) as [l' m']. match goal with |- emitsM (if ?b then _ else _) => destruct b; [apply emitsM_fail|] end. apply emitsM_bind; [apply emitsM_res|]. intros f. cbv zeta. apply emitsM_bind; [apply emitsM_put|]. intros _. apply EG.
    + unfold and_verify. apply emitsM_bind; [apply emitsM_get|]. intros u. cbv beta zeta. destruct (calc_params (length _)) as [l' m']. apply emitsM_bind.
      * unfold and_set_parameters. apply emitsM_bind; [apply emitsM_get|]. intros v. match goal with |- emitsM (if ?b then _ else _) => destruct b; [apply emitsM_fail|] end. destruct (negb _); [apply emitsM_fail|apply emitsM_put].
      * intros _. apply emitsM_bind; [apply emitsM_res|]. intros lag. apply emitsM_bind; [apply emitsM_get|]. intros v. apply dz_emits; [exact HH|apply gf_enc_bytes].
    + unfold dot_verify. apply emitsM_bind; [apply emitsM_get|]. intros u. cbv beta zeta. destruct (dot_params _ _) as [l' m']. match goal with |- emitsM (if ?b then _ else _) => destruct b; [apply emitsM_fail|] end. apply emitsM_bind; [apply emitsM_res|]. intros f. cbv zeta. apply emitsM_bind; [apply emitsM_put|]. intros _. apply EG.
  - split; [split; [exists sch; exact HV|split; [exact L|exact Q]]|]. split; [exists (s' i, tt)|exists (s' (next i), tt)]; unfold finished; destruct i; reflexivity.
Qed.
Print Assumptions C48_verify_met.
