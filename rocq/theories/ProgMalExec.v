(** Arithmetic programs on malicious ABY3 run by two honest parties against an arbitrary third one. *)
From Verif Require Import Base Ring RingProofs Prog Sched Conc Rng Rel Net BitArith BinProofs AddProofs IrisProofs MpcSpec Aby3 ShareSpec Aby3Proofs Aby3Proofs2 SlicedProofs Jmp JmpProofs Session SessionProofs
  Aby3Mal Aby3MalProofs SacrificeProofs PropLemmas PropLemmas2 PropLemmas5 SpecProofs Duo DuoProofs MacSpec MacProofs Client ProgMalSpec ProgMalDuo ProgMalOps ProgMalOps2 ProgMalOps3 ProgMalOps4.
From Coq Require Import ZifyBool ZifyNat.

(** ** Registers: i's, (i+1)'s and the plain values; c: nothing unverified is wrong so far *)
Definition regs (K : Z) (c : Prop) (ri rj : list share) (r : list Z) : Prop :=
  length ri = length r /\ length rj = length r /\ Forall (ranged K) ri /\ Forall (ranged K) rj /\
  (c -> Forall2 (paired K) ri rj /\ map2 (joint K) ri rj = r).
Notation same_len := (Forall2 (fun x y => length x = length y)).

Lemma regs_nil K (c : Prop) : regs K c [] [] [].
Proof. repeat split; constructor. Qed.
Lemma regs_cons K (c : Prop) x y v ri rj r : ranged K x -> ranged K y -> (c -> paired K x y /\ joint K x y = v) -> regs K c ri rj r -> regs K c (x :: ri) (y :: rj) (v :: r).
Proof.
  intros RX RY P (L1 & L2 & F1 & F2 & C). repeat split; cbn; try congruence; try (constructor; assumption).
  - constructor; [apply P|apply C]; assumption.
  - f_equal; [apply P|apply C]; assumption.
Qed.
Lemma regs_push K (c c' : Prop) ri rj r xi xj x : regs K c ri rj r -> (c' -> c) -> regs K c' xi xj x -> regs K c' (ri ++ xi) (rj ++ xj) (r ++ x).
Proof.
  intros (L1 & L2 & F1 & F2 & C) HC (L1' & L2' & F1' & F2' & C'). repeat split; rewrite ?app_length; try congruence; try (apply Forall_app; split; assumption).
  - apply Forall2_app; [apply C, HC|apply C']; assumption.
  - rewrite map2_app by congruence. f_equal; [apply C, HC|apply C']; assumption.
Qed.
Lemma regs_weak K (c c' : Prop) ri rj r : regs K c ri rj r -> (c' -> c) -> regs K c' ri rj r.
Proof. intros (L1 & L2 & F1 & F2 & C) HC. repeat split; auto; apply C, HC; assumption. Qed.
Lemma regs_nth K (c : Prop) ri rj r n v : regs K c ri rj r -> nth_error r n = Some v ->
  exists x y, nth_error ri n = Some x /\ nth_error rj n = Some y /\ ranged K x /\ ranged K y /\ (c -> paired K x y /\ joint K x y = v).
Proof.
  revert ri rj r. induction n as [|n IH]; intros ri rj [|v' r] (L1 & L2 & F1 & F2 & C) E; try discriminate; destruct ri as [|x ri], rj as [|y rj]; try discriminate;
    inversion F1 as [|? ? R1 F1']; inversion F2 as [|? ? R2 F2']; subst.
  - injection E as ->. exists x, y. split; [reflexivity|]. split; [reflexivity|]. split; [exact R1|]. split; [exact R2|]. intros HC. destruct (C HC) as [P Q]. inversion P; subst. split; [assumption|].
    cbn [map2] in Q. injection Q as Q _. exact Q.
  - apply (IH ri rj r); [|exact E]. split; [cbn in L1; congruence|]. split; [cbn in L2; congruence|]. split; [assumption|]. split; [assumption|]. intros HC. destruct (C HC) as [P Q]. inversion P; subst. split; [assumption|].
    cbn [map2] in Q. injection Q as _ Q. exact Q.
Qed.
Lemma regs_gets K (c : Prop) ri rj r ns v : regs K c ri rj r -> gets r ns = Some v ->
  exists xi xj, gets ri ns = Some xi /\ gets rj ns = Some xj /\ regs K c xi xj v /\ length v = length ns.
Proof.
  intros R. unfold gets. revert v. induction ns as [|n ns IH]; cbn; intros v E.
  - injection E as <-. exists [], []. repeat split; constructor.
  - destruct (nth_error r n) as [u|] eqn:EN; [|discriminate]. destruct (all_some (map (nth_error r) ns)) as [w|]; [|discriminate]. injection E as <-.
    destruct (regs_nth _ _ _ _ _ _ _ R EN) as (x & y & -> & -> & RX & RY & P). destruct (IH w eq_refl) as (xi & xj & -> & -> & RR & L).
    exists (x :: xi), (y :: xj). split; [reflexivity|]. split; [reflexivity|]. split; [apply regs_cons; assumption|cbn; congruence].
Qed.
Definition tbls (K : Z) (c : Prop) (ri rj : list (list share)) (r : list (list Z)) : Prop :=
  same_len ri r /\ same_len rj r /\ (c -> Forall2 (Forall2 (paired K)) ri rj /\ map2 (map2 (joint K)) ri rj = r).
Lemma regs_getss K (c : Prop) ri rj r nss v : regs K c ri rj r -> getss r nss = Some v ->
  exists xi xj, getss ri nss = Some xi /\ getss rj nss = Some xj /\ tbls K c xi xj v /\ same_len v nss.
Proof.
  intros R. unfold getss. revert v. induction nss as [|n ns IH]; cbn; intros v E.
  - injection E as <-. exists [], []. repeat split; constructor.
  - destruct (gets r n) as [u|] eqn:EN; [|discriminate]. destruct (all_some (map (gets r) ns)) as [w|]; [|discriminate]. injection E as <-.
    destruct (regs_gets _ _ _ _ _ _ _ R EN) as (x & y & -> & -> & (L1 & L2 & _ & _ & P) & L). destruct (IH w eq_refl) as (xi & xj & -> & -> & (M1 & M2 & M3) & M4).
    exists (x :: xi), (y :: xj). split; [reflexivity|]. split; [reflexivity|]. split; [|constructor; assumption].
    split; [constructor; assumption|]. split; [constructor; assumption|]. intros HC. destruct (P HC) as [P1 P2]. destruct (M3 HC) as [P3 P4].
    split; [constructor; assumption|]. cbn [map2]. congruence.
Qed.

Section D.
  Variables (G : rng) (H : hasher) (i : pid).
  Notation j := (next i).
  Notation ST := (jst G).
  Notation coll := (hash_collision G H).
  Notation synced := (synced2 G).
  Notation clean := (clean G).
  Notation lucky_here := (lucky_here G i).

  Definition inv (K : Z) (s t : ST) (mi mj : mem share share) (m : mem Z bool) : Prop :=
    synced s t /\ regs K (clean s t) (areg mi) (areg mj) (areg m) /\ aout mi = aout m /\ aout mj = aout m.

  (** Runs of two parties, without saying that their channels are empty afterwards. *)
  Definition duoB {A B} (p : prog A) (q : prog B) (Q : list act -> A -> list act -> B -> Prop) : Prop :=
    forall ti a tj b xi yi xj yj, lrun p ti (Ret a) -> lrun q tj (Ret b) ->
      Forall bytes (rcvd_from (prev i) ti) -> Forall bytes (rcvd_from (next j) tj) ->
      rcvd_from j ti ++ xi = sent_to i tj ++ yi -> rcvd_from i tj ++ xj = sent_to j ti ++ yj -> Q ti a tj b.
  Lemma duoB_T {A B} (p : prog A) (q : prog B) Q : duoT i p q Q -> duoB p q Q.
  Proof. intros D ti a tj b xi yi xj yj L1 L2 B1 B2 E1 E2. apply (D _ _ _ _ _ _ _ _ L1 L2 B1 B2 E1 E2). Qed.
  Lemma duoB_bind {A B C D} (p : prog A) (q : prog B) (f : A -> prog C) (g : B -> prog D) Q :
    duoT i p q (fun t1 a u1 b => duoB (f a) (g b) (fun t2 c u2 d => Q (t1 ++ t2) c (u1 ++ u2) d)) -> duoB (bind p f) (bind q g) Q.
  Proof.
    intros HD ti c tj d xi yi xj yj L1 L2 B1 B2 E1 E2.
    apply lrun_bind in L1. destruct L1 as (t1 & a & t2 & L1 & L1' & ->). apply lrun_bind in L2. destruct L2 as (u1 & b & u2 & L2 & L2' & ->).
    rewrite rcvd_app in B1, B2. apply Forall_app in B1, B2. destruct B1 as [B1 B1'], B2 as [B2 B2'].
    rewrite rcvd_app, sent_app, <- !app_assoc in E1. rewrite rcvd_app, sent_app, <- !app_assoc in E2.
    destruct (HD _ _ _ _ _ _ _ _ L1 L2 B1 B2 E1 E2) as (E1' & E2' & HQ). exact (HQ _ _ _ _ _ _ _ _ L1' L2' B1' B2' E1' E2').
  Qed.

  (** *** One call *)
  Lemma pure_T K (c : cmd) mi mj m' (s t : ST) (f g : mem share share) : inv K s t f g m' ->
    duoT i (retM f s) (retM g t) (fun ti r tj r' => coll (fst r) (fst r') \/ lucky_here K c mi mj s t ti tj \/ (inv K (fst r) (fst r') (snd r) (snd r') m' /\ (clean (fst r) (fst r') -> clean s t))).
  Proof. intros HI. apply duoT_ret. right. right. split; [exact HI|auto]. Qed.
  Lemma push1 K s t s' t' mi mj m x y v : synced s' t' -> inv K s t mi mj m -> (clean s' t' -> clean s t) -> ranged K x -> ranged K y -> (clean s' t' -> paired K x y /\ joint K x y = v) ->
    inv K s' t' (pushA mi [x]) (pushA mj [y]) (pushA m [v]).
  Proof.
    intros Hs (_ & R & O1 & O2) HC RX RY P. split; [exact Hs|]. split; [|split; assumption]. cbn [pushA areg]. apply (regs_push K (clean s t)); [exact R|exact HC|].
    apply regs_cons; auto. apply regs_nil.
  Qed.
  Lemma lin1 K x y v (X : pid -> share) w : In K widths -> paired K x y /\ joint K x y = v ->
    (arith_shared K (fam i x y) v -> arith_shared K X w) -> paired K (X i) (X j) /\ joint K (X i) (X j) = w.
  Proof. intros HK [P <-] HF. apply fam_paired, HF, paired_fam, P. Qed.

  Lemma cmd_T K c mi mj m m' (s t : ST) : In K widths -> arithmetic c = true -> eval_cmd K c m = Some m' -> inv K s t mi mj m ->
    duoT i (exec_cmd (mal_api G H i K) i c mi s) (exec_cmd (mal_api G H j K) j c mj t)
      (fun ti r tj r' => coll (fst r) (fst r') \/ lucky_here K c mi mj s t ti tj \/ (inv K (fst r) (fst r') (snd r) (snd r') m' /\ (clean (fst r) (fst r') -> clean s t))).
  Proof.
    intros HK Ha He HI. pose proof HI as (Hs & HR & O1 & O2). pose proof (in_widths_pos K HK) as K0. assert (HK0 : 0 <= K) by lia.
    destruct c as [ |a b|a b|a c|a c|a c|a b|a b|a b| | | | |a|a| | ]; try discriminate Ha; clear Ha; cbn [eval_cmd] in He; unfold exec_cmd; cbn [a_mpc a_add_const a_mul a_dot a_dot_many a_open a_open_many mal_api mal_engine Protocol.m_add Protocol.m_sub Protocol.m_mul_const Protocol.m_sub_const].
    - (* add *)
      destruct (nth_error (areg m) a) as [u|] eqn:Eu; [|discriminate]. destruct (nth_error (areg m) b) as [v|] eqn:Ev; [|discriminate]. injection He as <-.
      destruct (regs_nth _ _ _ _ _ _ _ HR Eu) as (x & x' & -> & -> & RX & RX' & PX). destruct (regs_nth _ _ _ _ _ _ _ HR Ev) as (y & y' & -> & -> & RY & RY' & PY).
      apply pure_T. apply (push1 K s t); auto; try (apply ranged_add, HK0). intros HC. destruct (PX HC) as [P1 <-]. destruct (PY HC) as [P2 <-].
      pose proof (sh_add_ok K HK0 _ _ _ _ (paired_fam i _ _ _ P1) (paired_fam i _ _ _ P2)) as T. apply (fam_paired i) in T. cbv beta in T. rewrite !fam_i, !fam_j in T. exact T.
    - (* sub *)
      destruct (nth_error (areg m) a) as [u|] eqn:Eu; [|discriminate]. destruct (nth_error (areg m) b) as [v|] eqn:Ev; [|discriminate]. injection He as <-.
      destruct (regs_nth _ _ _ _ _ _ _ HR Eu) as (x & x' & -> & -> & RX & RX' & PX). destruct (regs_nth _ _ _ _ _ _ _ HR Ev) as (y & y' & -> & -> & RY & RY' & PY).
      apply pure_T. apply (push1 K s t); auto; try (apply ranged_sub, HK0). intros HC. destruct (PX HC) as [P1 <-]. destruct (PY HC) as [P2 <-].
      pose proof (sh_sub_ok K HK0 _ _ _ _ (paired_fam i _ _ _ P1) (paired_fam i _ _ _ P2)) as T. apply (fam_paired i) in T. cbv beta in T. rewrite !fam_i, !fam_j in T. exact T.
    - (* add const *)
      destruct (in_range K c) eqn:Ec; [|discriminate]. cbn [guard] in He. destruct (nth_error (areg m) a) as [u|] eqn:Eu; [|discriminate]. injection He as <-.
      destruct (regs_nth _ _ _ _ _ _ _ HR Eu) as (x & x' & -> & -> & RX & RX' & PX).
      apply pure_T. apply (push1 K s t); auto; try (apply ranged_addc; assumption). intros HC. destruct (PX HC) as [P1 <-].
      pose proof (sh_add_const_ok K HK0 _ _ c (paired_fam i _ _ _ P1)) as T. apply (fam_paired i) in T. cbv beta in T. rewrite !fam_i, !fam_j in T. exact T.
    - (* sub const *)
      destruct (in_range K c) eqn:Ec; [|discriminate]. cbn [guard] in He. destruct (nth_error (areg m) a) as [u|] eqn:Eu; [|discriminate]. injection He as <-.
      destruct (regs_nth _ _ _ _ _ _ _ HR Eu) as (x & x' & -> & -> & RX & RX' & PX).
      apply pure_T. apply (push1 K s t); auto; try (apply ranged_subc; assumption). intros HC. destruct (PX HC) as [P1 <-].
      pose proof (sh_sub_const_ok K HK0 _ _ c (paired_fam i _ _ _ P1)) as T. apply (fam_paired i) in T. cbv beta in T. rewrite !fam_i, !fam_j in T. exact T.
    - (* mul const *)
      destruct (in_range K c) eqn:Ec; [|discriminate]. cbn [guard] in He. destruct (nth_error (areg m) a) as [u|] eqn:Eu; [|discriminate]. injection He as <-.
      destruct (regs_nth _ _ _ _ _ _ _ HR Eu) as (x & x' & -> & -> & RX & RX' & PX).
      apply pure_T. apply (push1 K s t); auto; try (apply ranged_mulc; assumption). intros HC. destruct (PX HC) as [P1 <-].
      pose proof (sh_mulc_ok K HK0 _ _ c (paired_fam i _ _ _ P1)) as T. apply (fam_paired i) in T. cbv beta in T. rewrite !fam_i, !fam_j in T. exact T.
    - (* mul *)
      destruct (nth_error (areg m) a) as [u|] eqn:Eu; [|discriminate]. destruct (nth_error (areg m) b) as [v|] eqn:Ev; [|discriminate]. injection He as <-.
      destruct (regs_nth _ _ _ _ _ _ _ HR Eu) as (x & x' & -> & -> & RX & RX' & PX). destruct (regs_nth _ _ _ _ _ _ _ HR Ev) as (y & y' & -> & -> & RY & RY' & PY).
      change (duoT i (bindM (mal_mul G H i K x y) (fun r => retM (pushA mi [r])) s) (bindM (mal_mul G H j K x' y') (fun r => retM (pushA mj [r])) t)
        (fun ti r tj r' => coll (fst r) (fst r') \/ lucky_here K (CMul a b) mi mj s t ti tj \/ (inv K (fst r) (fst r') (snd r) (snd r') (pushA m [(u * v) mod 2 ^ K]) /\ (clean (fst r) (fst r') -> clean s t)))).
      apply duoT_bind. eapply duoT_mono; [|apply (mul_T G H i K a b mi mj x x' y y' s t HK Hs (fun h => proj1 (PX h)) (fun h => proj1 (PY h)))].
      intros ti [s1 z] tj [t1 z'] (Hs1 & R1 & R2 & D). cbn [fst snd] in *. apply duoT_ret. rewrite !app_nil_r. cbn [fst snd].
      destruct D as [D|[D|[HC D]]]; [left; exact D|right; left; exact D|right; right; split; [|intros _; exact HC]].
      destruct (PX HC) as [_ <-]. destruct (PY HC) as [_ <-]. apply (push1 K s t); auto.
    - (* dot *)
      destruct (Nat.eqb (length a) (length b) && Nat.ltb 0 (length a)) eqn:Ec; [|discriminate]. cbn [guard] in He. apply andb_prop in Ec. destruct Ec as [Ec _]. apply Nat.eqb_eq in Ec.
      destruct (gets (areg m) a) as [u|] eqn:Eu; [|discriminate]. destruct (gets (areg m) b) as [v|] eqn:Ev; [|discriminate]. injection He as <-.
      destruct (regs_gets _ _ _ _ _ _ _ HR Eu) as (x & x' & EX & EX' & (X1 & X2 & _ & _ & PX) & _). destruct (regs_gets _ _ _ _ _ _ _ HR Ev) as (y & y' & EY & EY' & (Y1 & Y2 & _ & _ & PY) & _).
      rewrite EX, EX', EY, EY'.
      change (duoT i (bindM (mal_dot G H i K x y) (fun r => retM (pushA mi [r])) s) (bindM (mal_dot G H j K x' y') (fun r => retM (pushA mj [r])) t)
        (fun ti r tj r' => coll (fst r) (fst r') \/ lucky_here K (CDot a b) mi mj s t ti tj \/ (inv K (fst r) (fst r') (snd r) (snd r') (pushA m [dotp u v mod 2 ^ K]) /\ (clean (fst r) (fst r') -> clean s t)))).
      apply duoT_bind. eapply duoT_mono; [|apply (dot_T G H i K a b mi mj x x' y y' s t HK Hs EX EY EX' EY' ltac:(congruence) ltac:(congruence) (fun h => proj1 (PX h)) (fun h => proj1 (PY h)))].
      intros ti [s1 z] tj [t1 z'] (Hs1 & R1 & R2 & D). cbn [fst snd] in *. apply duoT_ret. rewrite !app_nil_r. cbn [fst snd].
      destruct D as [D|[D|[HC [D1 D2]]]]; [left; exact D|right; left; exact D|right; right; split; [|intros _; exact HC]].
      destruct (PX HC) as [_ <-]. destruct (PY HC) as [_ <-]. apply (push1 K s t); auto.
    - (* dot many *)
      destruct (same_lens a b && Nat.ltb 0 (length a)) eqn:Ec; [|discriminate]. cbn [guard] in He. apply andb_prop in Ec. destruct Ec as [Ec _].
      destruct (getss (areg m) a) as [u|] eqn:Eu; [|discriminate]. destruct (getss (areg m) b) as [v|] eqn:Ev; [|discriminate]. injection He as <-.
      destruct (regs_getss _ _ _ _ _ _ _ HR Eu) as (x & x' & EX & EX' & (X1 & X2 & PX) & X3). destruct (regs_getss _ _ _ _ _ _ _ HR Ev) as (y & y' & EY & EY' & (Y1 & Y2 & PY) & Y3).
      rewrite EX, EX', EY, EY'.
      assert (EL : same_len a b).
      { clear -Ec. unfold same_lens in Ec. apply andb_prop in Ec. destruct Ec as [E1 E2]. apply Nat.eqb_eq in E1. revert b E1 E2. induction a as [|p a IH]; intros [|q b] E1 E2; try discriminate; constructor.
        - cbn in E2. apply andb_prop in E2. destruct E2 as [E2 _]. apply andb_prop in E2. destruct E2 as [E2 _]. apply Nat.eqb_eq, E2.
        - apply IH; [cbn in E1; congruence|]. cbn in E2. apply andb_prop in E2. apply E2. }
      assert (UV : same_len u v) by (eapply same_len_trans; [exact X3|eapply same_len_trans; [exact EL|apply same_len_sym, Y3]]).
      change (duoT i (bindM (mal_dot_many G H i K x y) (fun r => retM (pushA mi r)) s) (bindM (mal_dot_many G H j K x' y') (fun r => retM (pushA mj r)) t)
        (fun ti r tj r' => coll (fst r) (fst r') \/ lucky_here K (CDotMany a b) mi mj s t ti tj \/ (inv K (fst r) (fst r') (snd r) (snd r') (pushA m (map2 (fun x y => dotp x y mod 2 ^ K) u v)) /\ (clean (fst r) (fst r') -> clean s t)))).
      apply duoT_bind. eapply duoT_mono; [|apply (dot_many_T G H i K a b mi mj x x' y y' s t HK Hs EX EY EX' EY' (same_len_trans _ _ _ X1 (same_len_trans _ _ _ UV (same_len_sym _ _ Y1)))
        (same_len_trans _ _ _ X2 (same_len_trans _ _ _ UV (same_len_sym _ _ Y2))) (same_len_trans _ _ _ Y1 (same_len_sym _ _ Y2)) (fun h => proj1 (PX h)) (fun h => proj1 (PY h)))].
      intros ti [s1 z] tj [t1 z'] (Hs1 & R1 & R2 & L1 & L2 & D). cbn [fst snd] in *. apply duoT_ret. rewrite !app_nil_r. cbn [fst snd].
      destruct D as [D|[D|[HC [D1 D2]]]]; [left; exact D|right; left; exact D|right; right; split; [|intros _; exact HC]].
      split; [exact Hs1|]. split; [|split; assumption]. cbn [pushA areg]. apply (regs_push K (clean s t)); [exact HR|intros _; exact HC|].
      assert (LU : length x = length u) by (eapply Forall2_len; exact X1). assert (LV : length u = length v) by (eapply Forall2_len; exact UV).
      destruct (PX HC) as [_ EX1]. destruct (PY HC) as [_ EY1]. rewrite EX1, EY1 in D2.
      split; [rewrite map2_length_eq; congruence|]. split; [rewrite map2_length_eq; congruence|]. split; [exact R1|]. split; [exact R2|]. intros _. split; [exact D1|exact D2].
    - (* open *)
      destruct (nth_error (areg m) a) as [u|] eqn:Eu; [|discriminate]. injection He as <-. destruct (regs_nth _ _ _ _ _ _ _ HR Eu) as (x & x' & -> & -> & RX & RX' & PX).
      change (duoT i (bindM (mal_open G H i K x) (fun r => retM (outA mi [r])) s) (bindM (mal_open G H j K x') (fun r => retM (outA mj [r])) t)
        (fun ti r tj r' => coll (fst r) (fst r') \/ lucky_here K (COpen a) mi mj s t ti tj \/ (inv K (fst r) (fst r') (snd r) (snd r') (outA m [u]) /\ (clean (fst r) (fst r') -> clean s t)))).
      apply duoT_bind. eapply duoT_of; [apply (open_T G H i K x x' s t HK Hs RX RX' (fun h => proj1 (PX h)))|].
      intros ti s1 z tj t1 z' (Hs1 & D). apply duoT_ret. cbn [fst snd].
      destruct D as [D|(HC & -> & ->)]; [left; exact D|right; right; split; [|intros _; exact HC]]. destruct (PX HC) as [_ ->].
      split; [exact Hs1|]. split; [eapply regs_weak; [exact HR|intros _; exact HC]|]. cbn [outA aout]. split; congruence.
    - (* open many *)
      destruct (gets (areg m) a) as [u|] eqn:Eu; [|discriminate]. injection He as <-. destruct (regs_gets _ _ _ _ _ _ _ HR Eu) as (x & x' & -> & -> & (X1 & X2 & RX & RX' & PX) & _).
      change (duoT i (bindM (mal_open_many G H i K x) (fun r => retM (outA mi r)) s) (bindM (mal_open_many G H j K x') (fun r => retM (outA mj r)) t)
        (fun ti r tj r' => coll (fst r) (fst r') \/ lucky_here K (COpenMany a) mi mj s t ti tj \/ (inv K (fst r) (fst r') (snd r) (snd r') (outA m u) /\ (clean (fst r) (fst r') -> clean s t)))).
      apply duoT_bind. eapply duoT_of; [apply (open_many_T G H i K x x' s t HK Hs RX RX' ltac:(congruence) (fun h => proj1 (PX h)))|].
      intros ti s1 z tj t1 z' (Hs1 & D). apply duoT_ret. cbn [fst snd].
      destruct D as [D|(HC & -> & ->)]; [left; exact D|right; right; split; [|intros _; exact HC]]. destruct (PX HC) as [_ ->].
      split; [exact Hs1|]. split; [eapply regs_weak; [exact HR|intros _; exact HC]|]. cbn [outA aout]. split; congruence.
  Qed.

  (** *** Programs *)
  Lemma lucky_cons K c cs mi mj s t s1 m1 t1 m1' ti tj ti' tj' :
    lrun (exec_cmd (mal_api G H i K) i c mi s) ti (Ret (s1, m1)) -> lrun (exec_cmd (mal_api G H j K) j c mj t) tj (Ret (t1, m1')) ->
    lucky_run G H i K cs m1 m1' s1 t1 ti' tj' -> lucky_run G H i K (c :: cs) mi mj s t (ti ++ ti') (tj ++ tj').
  Proof.
    intros L1 L2 (cs1 & c0 & cs2 & a1 & a2 & a3 & b1 & b2 & b3 & s2 & m2 & s3 & x & t2 & m2' & t3 & y & n & -> & -> & -> & R1 & R2 & R3 & R4 & LK).
    exists (c :: cs1), c0, cs2, (ti ++ a1), a2, a3, (tj ++ b1), b2, b3, s2, m2, s3, x, t2, m2', t3, y, n.
    split; [reflexivity|]. split; [rewrite !app_assoc; reflexivity|]. split; [rewrite !app_assoc; reflexivity|].
    split; [cbn [exec]; unfold bindM; eapply lrun_bind_intro; [exact L1|exact R1]|]. split; [exact R2|].
    split; [cbn [exec]; unfold bindM; eapply lrun_bind_intro; [exact L2|exact R3]|]. split; [exact R4|exact LK].
  Qed.
  Lemma lucky_first K c cs mi mj s t ti tj ti' tj' : lucky_here K c mi mj s t ti tj -> lucky_run G H i K (c :: cs) mi mj s t (ti ++ ti') (tj ++ tj').
  Proof.
    intros (a1 & a2 & b1 & b2 & s2 & x & t2 & y & n & -> & -> & R1 & R2 & LK).
    exists [], c, cs, [], a1, (a2 ++ ti'), [], b1, (b2 ++ tj'), s, mi, s2, x, t, mj, t2, y, n.
    split; [reflexivity|]. split; [rewrite <- app_assoc; reflexivity|]. split; [rewrite <- app_assoc; reflexivity|].
    split; [apply lrun_nil|]. split; [exact R1|]. split; [apply lrun_nil|]. split; [exact R2|exact LK].
  Qed.
  Lemma exec_B K cs : In K widths -> forall mi mj m m' (s t : ST), forallb arithmetic cs = true -> eval K cs m = Some m' -> inv K s t mi mj m ->
    duoB (exec (mal_api G H i K) i cs mi s) (exec (mal_api G H j K) j cs mj t)
      (fun ti r tj r' => coll (fst r) (fst r') \/ lucky_run G H i K cs mi mj s t ti tj \/ inv K (fst r) (fst r') (snd r) (snd r') m').
  Proof.
    intros HK. induction cs as [|c cs IH]; intros mi mj m m' s t Ha He HI; cbn [exec].
    - injection He as <-. apply duoB_T, duoT_ret. right. right. exact HI.
    - cbn [forallb] in Ha. apply andb_prop in Ha. destruct Ha as [Ha Hb]. cbn [eval] in He. destruct (eval_cmd K c m) as [m1|] eqn:E1; [|discriminate]. cbn [obind] in He.
      unfold bindM. apply duoB_bind. apply duoT_runs. eapply duoT_mono; [|apply (cmd_T K c mi mj m m1 s t HK Ha E1 HI)].
      intros ti [s1 n1] tj [t1 n1'] D L1 L2. cbn [fst snd] in *. destruct D as [D|[D|[D _]]].
      + intros ti' [s2 n2] tj' [t2 n2'] xi yi xj yj R1 R2 _ _ _ _. left. cbn [fst snd].
        destruct (exec_grows G H i K cs n1 Hb _ _ _ _ R1) as [l El]. destruct (exec_grows G H j K cs n1' Hb _ _ _ _ R2) as [l' El'].
        eapply coll_grows; [exact D|exact El|exact El'].
      + intros ti' [s2 n2] tj' [t2 n2'] xi yi xj yj R1 R2 _ _ _ _. right. left. apply lucky_first, D.
      + pose proof (IH n1 n1' m1 m' s1 t1 Hb He D) as HB. intros ti' [s2 n2] tj' [t2 n2'] xi yi xj yj R1 R2 B1 B2 Q1 Q2.
        destruct (HB _ _ _ _ _ _ _ _ R1 R2 B1 B2 Q1 Q2) as [C|[C|C]]; [left; exact C|right; left; eapply lucky_cons; eassumption|right; right; exact C].
  Qed.
  Lemma duoB_acts {S A} (p q : M S A) s t s' t' x y ti tj (Q : list act -> S * A -> list act -> S * A -> Prop) :
    duoB (p s) (q t) Q -> duo_acts i p q s t s' t' x y ti tj -> Q ti (s', x) tj (t', y).
  Proof.
    intros D (P & tr & c & E1 & E2 & HB & L & E & R1 & R2 & -> & ->).
    pose proof (L i) as L1. pose proof (L j) as L2. rewrite R1, E1 in L1. rewrite R2, E2 in L2.
    apply (D (tr i) (s', x) (tr j) (t', y) (qget (qs c) j i) [] (qget (qs c) i j) [] L1 L2); try (rewrite app_nil_r; apply E).
    - specialize (HB _ _ i (L (prev i))). rewrite <- E in HB. apply Forall_app in HB. apply HB.
    - specialize (HB _ _ j (L (prev i))). rewrite <- E in HB. apply Forall_app in HB. replace (next j) with (prev i) by (destruct i; reflexivity). apply HB.
  Qed.
End D.
Lemma duo_run_acts {S A} i (p q : M S A) s t s' t' x y : duo_run i p q s t s' t' x y -> exists ti tj, duo_acts i p q s t s' t' x y ti tj.
Proof.
  intros (P & sched & c & E1 & E2 & HB & Hst & R1 & R2). destruct (project P sched c Hst) as (tr & L & E).
  exists (tr i), (tr (next i)), P, tr, c. auto 12.
Qed.
