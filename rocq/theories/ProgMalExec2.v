(** Programs with inputs on malicious ABY3 run by two honest parties against an arbitrary third one. *)
From Verif Require Import Base Ring RingProofs Prog Sched Conc Rng Rel Net BitArith BinProofs AddProofs IrisProofs MpcSpec Aby3 ShareSpec Aby3Proofs Aby3Proofs2 SlicedProofs Jmp JmpProofs Session SessionProofs
  Aby3Mal Aby3MalProofs SacrificeProofs PropLemmas PropLemmas2 PropLemmas5 SpecProofs Duo DuoProofs MacSpec MacProofs Client Emits TripleMalMet ProgMalSpec ProgMalDuo ProgMalOps ProgMalOps2 ProgMalOps3 ProgMalOps4 ProgMalExec ProgMalMet ProgMalSpec2 ProgMalInput.
From Coq Require Import ZifyBool ZifyNat.

(** ** Admissible programs: values do not matter *)
Lemma gets_shape {A B} (r : list A) (r' : list B) ns v : length r = length r' -> gets r ns = Some v -> exists v', gets r' ns = Some v' /\ length v' = length v /\ length v = length ns.
Proof.
  intros L. unfold gets. revert v. induction ns as [|n ns IH]; cbn; intros v E; [injection E as <-; exists []; auto|].
  destruct (nth_error r n) eqn:EN; [|discriminate]. destruct (all_some (map (nth_error r) ns)) as [w|]; [|discriminate]. injection E as <-.
  destruct (nth_error r' n) as [y|] eqn:EN'; [|apply nth_error_None in EN'; rewrite <- L in EN'; apply nth_error_None in EN'; congruence].
  destruct (IH w eq_refl) as (v' & -> & L1 & L2). exists (y :: v'). cbn. repeat split; congruence.
Qed.
Lemma getss_shape {A B} (r : list A) (r' : list B) ns v : length r = length r' -> getss r ns = Some v -> exists v', getss r' ns = Some v' /\ length v' = length v /\ length v = length ns.
Proof.
  intros L. unfold getss. revert v. induction ns as [|n ns IH]; cbn; intros v E; [injection E as <-; exists []; auto|].
  destruct (gets r n) as [w1|] eqn:EN; [|discriminate]. destruct (all_some (map (gets r) ns)) as [w|]; [|discriminate]. injection E as <-.
  destruct (gets_shape r r' n w1 L EN) as (y & -> & _). destruct (IH w eq_refl) as (v' & -> & L1 & L2). exists (y :: v'). cbn. repeat split; congruence.
Qed.
Lemma nth_shape {A B} (r : list A) (r' : list B) n v : length r = length r' -> nth_error r n = Some v -> exists v', nth_error r' n = Some v'.
Proof.
  intros L E. destruct (nth_error r' n) as [y|] eqn:EN'; [eauto|apply nth_error_None in EN'; rewrite <- L in EN'; apply nth_error_None in EN'; congruence].
Qed.
Lemma eval_cmd_shape K c m n m1 : sharing c = true -> length (areg m) = length (areg n) -> eval_cmd K c m = Some m1 ->
  length (areg m1) = (length (areg m) + produced c)%nat /\ exists n1, eval_cmd K c n = Some n1 /\ length (areg n1) = length (areg m1).
Proof.
  intros Ha L He.
  destruct c as [p x|a b|a b|a c|a c|a c|a b|a b|a b| | | | |a|a| | ]; try discriminate Ha; clear Ha; cbn [eval_cmd produced] in *;
    repeat match goal with
    | H : guard ?b _ = Some _ |- _ => destruct b eqn:?; cbn [guard] in *; [|discriminate H]
    end.
  - injection He as <-. cbn. rewrite !app_length. cbn. split; [lia|]. eexists. split; [reflexivity|]. cbn. rewrite app_length. cbn. lia.
  - destruct (nth_error (areg m) a) eqn:E1; [|discriminate]. destruct (nth_error (areg m) b) eqn:E2; [|discriminate]. injection He as <-.
    destruct (nth_shape _ _ _ _ L E1) as [? ->]. destruct (nth_shape _ _ _ _ L E2) as [? ->]. cbn. rewrite !app_length. cbn. split; [lia|]. eexists. split; [reflexivity|]. cbn. rewrite app_length. cbn. lia.
  - destruct (nth_error (areg m) a) eqn:E1; [|discriminate]. destruct (nth_error (areg m) b) eqn:E2; [|discriminate]. injection He as <-.
    destruct (nth_shape _ _ _ _ L E1) as [? ->]. destruct (nth_shape _ _ _ _ L E2) as [? ->]. cbn. rewrite !app_length. cbn. split; [lia|]. eexists. split; [reflexivity|]. cbn. rewrite app_length. cbn. lia.
  - destruct (nth_error (areg m) a) eqn:E1; [|discriminate]. injection He as <-. destruct (nth_shape _ _ _ _ L E1) as [? ->]. cbn. rewrite !app_length. cbn. split; [lia|]. eexists. split; [reflexivity|]. cbn. rewrite app_length. cbn. lia.
  - destruct (nth_error (areg m) a) eqn:E1; [|discriminate]. injection He as <-. destruct (nth_shape _ _ _ _ L E1) as [? ->]. cbn. rewrite !app_length. cbn. split; [lia|]. eexists. split; [reflexivity|]. cbn. rewrite app_length. cbn. lia.
  - destruct (nth_error (areg m) a) eqn:E1; [|discriminate]. injection He as <-. destruct (nth_shape _ _ _ _ L E1) as [? ->]. cbn. rewrite !app_length. cbn. split; [lia|]. eexists. split; [reflexivity|]. cbn. rewrite app_length. cbn. lia.
  - destruct (nth_error (areg m) a) eqn:E1; [|discriminate]. destruct (nth_error (areg m) b) eqn:E2; [|discriminate]. injection He as <-.
    destruct (nth_shape _ _ _ _ L E1) as [? ->]. destruct (nth_shape _ _ _ _ L E2) as [? ->]. cbn. rewrite !app_length. cbn. split; [lia|]. eexists. split; [reflexivity|]. cbn. rewrite app_length. cbn. lia.
  - destruct (gets (areg m) a) eqn:E1; [|discriminate]. destruct (gets (areg m) b) eqn:E2; [|discriminate]. injection He as <-.
    destruct (gets_shape _ _ _ _ L E1) as (? & -> & _). destruct (gets_shape _ _ _ _ L E2) as (? & -> & _). cbn. rewrite !app_length. cbn. split; [lia|]. eexists. split; [reflexivity|]. cbn. rewrite app_length. cbn. lia.
  - destruct (getss (areg m) a) eqn:E1; [|discriminate]. destruct (getss (areg m) b) eqn:E2; [|discriminate]. injection He as <-.
    assert (LL : length a = length b). { match goal with H : _ && _ = true |- _ => apply andb_prop in H; destruct H as [H _]; unfold same_lens in H; apply andb_prop in H; destruct H as [H _]; apply Nat.eqb_eq, H end. }
    destruct (getss_shape _ _ _ _ L E1) as (? & -> & L1 & L2). destruct (getss_shape _ _ _ _ L E2) as (? & -> & L3 & L4). cbn [obind pushA areg]. rewrite !app_length, map2_length_eq by congruence. split; [lia|].
    eexists. split; [reflexivity|]. cbn [pushA areg]. rewrite app_length, map2_length_eq by congruence. lia.
  - destruct (nth_error (areg m) a) eqn:E1; [|discriminate]. injection He as <-. destruct (nth_shape _ _ _ _ L E1) as [? ->]. cbn. split; [lia|]. eexists. split; [reflexivity|]. cbn. lia.
  - destruct (gets (areg m) a) eqn:E1; [|discriminate]. injection He as <-. destruct (gets_shape _ _ _ _ L E1) as (? & -> & _). cbn. split; [lia|]. eexists. split; [reflexivity|]. cbn. lia.
Qed.
Lemma eval_shape K cs : forall m n m1, forallb sharing cs = true -> length (areg m) = length (areg n) -> eval K cs m = Some m1 -> exists n1, eval K cs n = Some n1.
Proof.
  induction cs as [|c cs IH]; intros m n m1 Ha L He; [exists n; reflexivity|]. cbn in Ha. apply andb_prop in Ha. destruct Ha as [Ha Hb].
  cbn [eval] in He. destruct (eval_cmd K c m) as [m2|] eqn:E; [|discriminate]. cbn [obind] in He. destruct (eval_cmd_shape K c m n m2 Ha L E) as (_ & n2 & E2 & L2).
  destruct (IH m2 n2 m1 Hb ltac:(congruence) He) as [n1 E1]. exists n1. cbn [eval]. rewrite E2. exact E1.
Qed.
(** Registers are never changed. *)
Lemma exec_cmd_appends {S A B} (e : api S A B) me c m s tr s' m' : lrun (exec_cmd e me c m s) tr (Ret (s', m')) -> exists l, areg m' = areg m ++ l.
Proof.
  set (P := fun p : M S (mem A B) => forall s tr s' m', lrun (p s) tr (Ret (s', m')) -> exists l, areg m' = areg m ++ l).
  assert (HR : forall f : mem A B, (exists l, areg f = areg m ++ l) -> P (retM f)).
  { intros f E u tr1 u' f' L. apply lrun_ret in L. destruct L as [_ L]. injection L as _ <-. exact E. }
  assert (E0 : exists l, areg m = areg m ++ l) by (exists []; symmetry; apply app_nil_r).
  assert (HB : forall T (p : M S T) (f : T -> M S (mem A B)), (forall r, P (f r)) -> P (bindM p f)).
  { intros T p f E u tr1 u' f' L. apply lrun_bind in L. destruct L as (t1 & [s1 a] & t2 & _ & L & _). exact (E _ _ _ _ _ L). }
  assert (HP : P (exec_cmd e me c m)).
  { destruct c; cbn [exec_cmd]; repeat (apply HB; intros ?); apply HR; cbn; eauto. }
  apply HP.
Qed.
Lemma exec_appends {S A B} (e : api S A B) me cs : forall m s tr s' m', lrun (exec e me cs m s) tr (Ret (s', m')) -> exists l, areg m' = areg m ++ l.
Proof.
  induction cs as [|c cs IH]; intros m s tr s' m' L; cbn [exec] in L.
  - apply lrun_ret in L. destruct L as [_ L]. injection L as _ ->. exists []. symmetry. apply app_nil_r.
  - apply lrun_bind in L. destruct L as (t1 & [s1 m1] & t2 & L1 & L2 & _). destruct (exec_cmd_appends _ _ _ _ _ _ _ _ L1) as [l E]. destruct (IH _ _ _ _ _ L2) as [l' E']. cbn [snd] in E'.
    exists (l ++ l'). rewrite E', E, app_assoc. reflexivity.
Qed.

Section D.
  Variables (G : rng) (H : hasher) (i : pid).
  Notation j := (next i).
  Notation k := (prev i).
  Notation ST := (jst G).
  Notation coll := (hash_collision G H).
  Notation synced := (synced2 G).
  Notation clean := (clean G).
  Notation lucky_here := (lucky_here G i).

  Lemma input_grows p K v id : growsM G (mal_input G p K v id).
  Proof.
    unfold mal_input. destruct (3 <=? id); [apply growsM_fail|]. apply growsM_bind; [apply growsM_prf|]. intros x. apply growsM_bind.
    - unfold reconstruct_id, jmp_receive, jmp_send, jmp_buffer. destruct (3 <=? id); [apply growsM_fail|]. destruct (_ =? _).
      + apply growsM_bind; [|intros; apply growsM_ret]. apply growsM_bind; [apply growsM_lift|intros c]. apply growsM_upd; [apply same_log; reflexivity|apply growsM_ret].
      + destruct (_ =? _); (apply growsM_bind; [|intros; apply growsM_ret]); [apply growsM_lift|apply growsM_upd', same_log; reflexivity].
    - intros o. destruct (_ =? _).
      + destruct v; [|apply growsM_fail]. destruct o; [|apply growsM_fail]. do 2 (apply growsM_bind; [apply growsM_lift|intros _]). apply growsM_ret.
      + destruct (_ =? _); (apply growsM_bind; [apply growsM_lift|intros w]); (apply growsM_bind; [apply growsM_lift|intros _]); (apply growsM_bind; [apply growsM_lift|intros w']);
          (destruct (negb _); [apply growsM_fail|apply growsM_ret]).
  Qed.
  Lemma cmd_grows2 p K c m : sharing c = true -> growsM G (exec_cmd (mal_api G H p K) p c m).
  Proof.
    intros Ha. destruct (arithmetic c) eqn:E; [apply cmd_grows, E|]. destruct c; cbn in Ha, E; try congruence.
    cbn [exec_cmd mal_api a_input]. apply growsM_bind; [apply input_grows|intros; apply growsM_ret].
  Qed.
  Lemma exec_grows2 p K cs m : forallb sharing cs = true -> growsM G (exec (mal_api G H p K) p cs m).
  Proof.
    revert m. induction cs as [|c cs IH]; intros m Ha; cbn [exec]; [apply growsM_ret|]. cbn in Ha. apply andb_prop in Ha. destruct Ha as [Ha Hb].
    apply growsM_bind; [apply cmd_grows2, Ha|]. intros m'. apply IH, Hb.
  Qed.

  Lemma in_range_joint K x y : 0 <= K -> in_range K (joint K x y) = true.
  Proof. intros HK. unfold in_range, joint. assert (0 < 2 ^ K) by (apply Z.pow_pos_nonneg; lia). pose proof (Z.mod_pos_bound (sa x + sb x + sa y) (2 ^ K)). lia. Qed.
  Lemma nth_pushed {A} (l : list A) x n d : length l = n -> nth n (l ++ [x]) d = x.
  Proof. intros <-. rewrite app_nth2 by lia. rewrite Nat.sub_diag. reflexivity. Qed.

  Lemma cmd_T2 K c mi mj m m1 (s t : ST) : In K widths -> sharing c = true -> eval_cmd K c m = Some m1 -> inv G K s t mi mj m ->
    duoT i (exec_cmd (mal_api G H i K) i c mi s) (exec_cmd (mal_api G H j K) j c mj t)
      (fun ti r tj r' => coll (fst r) (fst r') \/ lucky_here K c mi mj s t ti tj \/
        exists m', eval_cmd K (third_input k K (areg (snd r)) (areg (snd r')) (length (areg m)) c) m = Some m' /\ inv G K (fst r) (fst r') (snd r) (snd r') m' /\ (clean (fst r) (fst r') -> clean s t)).
  Proof.
    intros HK Ha He HI. destruct (arithmetic c) eqn:EA.
    { eapply duoT_mono; [|apply (cmd_T G H i K c mi mj m m1 s t HK EA He HI)]. intros ti r tj r' [D|[D|D]]; [left; exact D|right; left; exact D|right; right].
      exists m1. split; [|exact D]. destruct c; try discriminate EA; exact He. }
    destruct c as [p x| | | | | | | | | | | | | | | | ]; cbn in Ha, EA; try congruence. clear Ha EA. cbn [eval_cmd] in He. destruct (in_range K x) eqn:ER; [|discriminate]. cbn [guard] in He. injection He as <-.
    pose proof HI as (Hs & HR & O1 & O2). pose proof (in_widths_pos K HK) as K0. assert (HK0 : 0 <= K) by lia. pose proof HR as (L1 & L2 & _).
    assert (Hx : inr K x) by (unfold in_range in ER; unfold inr; lia).
    cbn [exec_cmd mal_api a_input]. unfold bindM at 1 2. apply duoT_bind.
    assert (PP : p = i \/ p = j \/ p = k) by (destruct i, p; cbn; tauto). destruct PP as [-> |[-> | ->]].
    - replace (pid_eqb i i) with true by (destruct i; reflexivity). replace (pid_eqb j i) with false by (destruct i; reflexivity).
      eapply duoT_of; [apply (input_i G i K x None s t (fun s' a t' b => synced s' t' /\ (clean s' t' -> clean s t) /\ paired K a b /\ (clean s' t' -> joint K a b = x)) HK Hs Hx); auto|].
      intros ti s1 a tj t1 b (Hs1 & HC & P & J). apply duoT_ret. right. right. cbn [fst snd third_input]. replace (pid_eqb i k) with false by (destruct i; reflexivity).
      exists (pushA m [x]). cbn [eval_cmd]. rewrite ER. split; [reflexivity|]. split; [|exact HC]. apply (push1 G K s t); auto; apply P.
    - replace (pid_eqb i j) with false by (destruct i; reflexivity). replace (pid_eqb j j) with true by (destruct i; reflexivity).
      eapply duoT_of; [apply (input_j G i K x None s t (fun s' a t' b => synced s' t' /\ (clean s' t' -> clean s t) /\ paired K a b /\ joint K a b = x) HK Hs Hx); auto|].
      intros ti s1 a tj t1 b (Hs1 & HC & P & J). apply duoT_ret. right. right. cbn [fst snd third_input]. replace (pid_eqb j k) with false by (destruct i; reflexivity).
      exists (pushA m [x]). cbn [eval_cmd]. rewrite ER. split; [reflexivity|]. split; [|exact HC]. apply (push1 G K s t); auto; apply P.
    - replace (pid_eqb i k) with false by (destruct i; reflexivity). replace (pid_eqb j k) with false by (destruct i; reflexivity).
      eapply duoT_of; [apply (input_k G i K None None s t (fun s' a t' b => synced s' t' /\ (clean s' t' -> clean s t) /\ paired K a b) HK Hs); auto|].
      intros ti s1 a tj t1 b (Hs1 & HC & P). apply duoT_ret. right. right. cbn [fst snd third_input]. replace (pid_eqb k k) with true by (destruct i; reflexivity).
      cbn [pushA areg]. rewrite !nth_pushed by assumption.
      exists (pushA m [joint K a b]). cbn [eval_cmd]. rewrite in_range_joint by exact HK0. split; [reflexivity|]. split; [|exact HC]. apply (push1 G K s t); auto; apply P.
  Qed.

  Lemma third_input_app K ri rj l l' n c : ((n < length ri)%nat /\ (n < length rj)%nat) \/ produced c = 0%nat -> third_input k K (ri ++ l) (rj ++ l') n c = third_input k K ri rj n c.
  Proof. intros HN. destruct c; cbn [third_input]; try reflexivity. destruct HN as [[N1 N2]|HN]; [|discriminate]. rewrite !app_nth1 by assumption. reflexivity. Qed.
  Lemma third_produced K ri rj n c : produced (third_input k K ri rj n c) = produced c.
  Proof. destruct c; cbn [third_input]; try reflexivity. destruct (pid_eqb _ _); reflexivity. Qed.
  Lemma third_sharing K ri rj n c : sharing (third_input k K ri rj n c) = sharing c.
  Proof. destruct c; cbn [third_input]; try reflexivity. destruct (pid_eqb _ _); reflexivity. Qed.

  Lemma exec_B2 K cs : In K widths -> forall mi mj m m' (s t : ST), forallb sharing cs = true -> eval K cs m = Some m' -> inv G K s t mi mj m ->
    duoB i (exec (mal_api G H i K) i cs mi s) (exec (mal_api G H j K) j cs mj t)
      (fun ti r tj r' => coll (fst r) (fst r') \/ lucky_run G H i K cs mi mj s t ti tj \/
        exists p, eval K (third_inputs k K (areg (snd r)) (areg (snd r')) (length (areg m)) cs) m = Some p /\ inv G K (fst r) (fst r') (snd r) (snd r') p).
  Proof.
    intros HK. induction cs as [|c cs IH]; intros mi mj m m' s t Ha He HI; cbn [exec].
    - apply duoB_T, duoT_ret. right. right. exists m. split; [reflexivity|exact HI].
    - cbn [forallb] in Ha. apply andb_prop in Ha. destruct Ha as [Ha Hb]. cbn [eval] in He. destruct (eval_cmd K c m) as [m1|] eqn:E1; [|discriminate]. cbn [obind] in He.
      unfold bindM. apply duoB_bind. apply duoT_runs. eapply duoT_mono; [|apply (cmd_T2 K c mi mj m m1 s t HK Ha E1 HI)].
      intros ti [s1 n1] tj [t1 n1'] D L1 L2. cbn [fst snd] in *. destruct D as [D|[D|(m2 & E2 & D & _)]].
      + intros ti' [s2 n2] tj' [t2 n2'] xi yi xj yj R1 R2 _ _ _ _. left. cbn [fst snd].
        destruct (exec_grows2 i K cs n1 Hb _ _ _ _ R1) as [l El]. destruct (exec_grows2 j K cs n1' Hb _ _ _ _ R2) as [l' El'].
        eapply coll_grows; [exact D|exact El|exact El'].
      + intros ti' [s2 n2] tj' [t2 n2'] xi yi xj yj R1 R2 _ _ _ _. right. left. apply lucky_first, D.
      + destruct (eval_cmd_shape K c m m m1 Ha eq_refl E1) as (S1 & _).
        assert (S2 : length (areg m2) = (length (areg m) + produced c)%nat).
        { rewrite <- (third_produced K (areg n1) (areg n1') (length (areg m)) c). apply (eval_cmd_shape K _ m m m2); [rewrite third_sharing; exact Ha|reflexivity|exact E2]. }
        destruct (eval_shape K cs m1 m2 m' Hb ltac:(congruence) He) as [m3 E3].
        pose proof (IH n1 n1' m2 m3 s1 t1 Hb E3 D) as HB. pose proof D as (_ & (N1 & N2 & _) & _).
        intros ti' [s2 n2] tj' [t2 n2'] xi yi xj yj R1 R2 B1 B2 Q1 Q2. cbn [fst snd].
        destruct (HB _ _ _ _ _ _ _ _ R1 R2 B1 B2 Q1 Q2) as [C|[C|(p & EP & C)]]; cbn [fst snd] in *; [left; exact C|right; left; eapply lucky_cons; eassumption|right; right].
        destruct (exec_appends _ _ _ _ _ _ _ _ R1) as [l El]. destruct (exec_appends _ _ _ _ _ _ _ _ R2) as [l' El']. cbn [fst snd] in El, El'.
        exists p. split; [|exact C]. cbn [third_inputs eval]. rewrite El, El' in *. rewrite third_input_app.
        * rewrite E2. cbn [obind]. rewrite <- S2. exact EP.
        * destruct (produced c) eqn:EPr; [right; reflexivity|left; lia].
  Qed.

  (** Inputs send bytes. *)
  Hypothesis HH : forall x, bytes (hfun H x).
  Lemma input_emits p K v id : emitsM (mal_input G p K v id).
  Proof using Type.
    assert (SE : forall to K v, emits (send_value to K v)) by (intros; unfold send_value; constructor; [apply to_be_bytes|constructor]).
    assert (RE : forall from K, emits (receive_value from K)) by (intros; unfold receive_value; constructor; intros; apply emits_of_res).
    unfold mal_input. destruct (3 <=? id); [apply emitsM_fail|]. apply emitsM_bind; [apply emitsM_zoom, rand_emits|]. intros x. apply emitsM_bind.
    - unfold reconstruct_id, jmp_receive, jmp_send, jmp_buffer. destruct (3 <=? id); [apply emitsM_fail|]. destruct (_ =? _).
      + apply emitsM_bind; [|intros; apply emitsM_ret]. apply emitsM_bind; [apply emitsM_lift, RE|intros c]. apply emitsM_bind; [apply emitsM_get|intros u]. apply emitsM_bind; [apply emitsM_put|intros; apply emitsM_ret].
      + destruct (_ =? _); (apply emitsM_bind; [|intros; apply emitsM_ret]); [apply emitsM_lift, SE|apply emitsM_bind; [apply emitsM_get|intros; apply emitsM_put]].
    - intros o. destruct (_ =? _).
      + destruct v; [|apply emitsM_fail]. destruct o; [|apply emitsM_fail]. do 2 (apply emitsM_bind; [apply emitsM_lift, SE|intros _]). apply emitsM_ret.
      + destruct (_ =? _); (apply emitsM_bind; [apply emitsM_lift, RE|intros w]); (apply emitsM_bind; [apply emitsM_lift, SE|intros _]); (apply emitsM_bind; [apply emitsM_lift, RE|intros w']);
          (destruct (negb _); [apply emitsM_fail|apply emitsM_ret]).
  Qed.
  Lemma exec_emits2 p K cs : forall m, forallb sharing cs = true -> emitsM (exec (mal_api G H p K) p cs m).
  Proof using HH.
    induction cs as [|c cs IH]; intros m Ha; cbn [exec]; [apply emitsM_ret|]. cbn in Ha. apply andb_prop in Ha. destruct Ha as [Ha Hb].
    apply emitsM_bind; [|intros m'; apply IH, Hb]. destruct (arithmetic c) eqn:E; [apply cmd_emits; assumption|]. destruct c; cbn in Ha, E; try congruence.
    cbn [exec_cmd mal_api a_input]. apply emitsM_bind; [apply input_emits|intros; apply emitsM_ret].
  Qed.
End D.
