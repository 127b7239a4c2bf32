(** Boolean gates of the malicious ABY3 engine: the log of verified views only grows, and only bytes are sent. *)
From Verif Require Import Base Ring RingProofs Prog Sched Conc Rng Rel Net BinTrait MpcSpec Aby3 ShareSpec Aby3Proofs Jmp JmpProofs Duo DuoProofs Emits PropLemmas5 Aby3Mal Client TripleMalMet ProgMalSpec ProgMalDuo ProgMalMet ProgMalSpec2 ProgMalInput ProgMalExec ProgMalExec2 ProgMalBin2.
From Coq Require Import ZifyBool ZifyNat.

(** ** Whatever holds of the gates and of all pure steps, and of sequences, holds of the circuits *)
Section Closed.
  Context {S Sh : Type} (e : bineng S Sh) (P : forall A, M S A -> Prop).
  Hypothesis PB : forall A B (p : M S A) (f : A -> M S B), P A p -> (forall a, P B (f a)) -> P B (bindM p f).
  Hypothesis PR : forall A (a : A), P A (retM a).
  Hypothesis PF : forall A er, P A (failM er).
  Hypothesis PE : forall A (r : res A), P A (resM r).
  Hypothesis PA : forall a b, P _ (b_and e a b).
  Hypothesis PM : forall a b, P _ (b_and_many e a b).
  Ltac go := repeat first [apply PB; [|intros ?] | apply PR | apply PF | apply PE | apply PA | apply PM].
  Lemma or_P a b : P _ (b_or e a b).
  Proof using PB PR PA. unfold b_or. go. Qed.
  Lemma or_many_P a b : P _ (or_many e a b).
  Proof using PB PF PE PM. unfold or_many. destruct (Nat.eqb _ _); go. Qed.
  Lemma foldM_P {A C} (f : C -> A -> M S C) l : (forall c a, P _ (f c a)) -> forall c, P _ (foldM f l c).
  Proof using PB PR. intros HF. induction l as [|a l IH]; intros c; cbn [foldM]; [apply PR|]. apply PB; [apply HF|intros; apply IH]. Qed.
  Lemma mapM2_P {A B C} (f : A -> B -> M S C) l : forall l', (forall a b, P _ (f a b)) -> P _ (mapM2 f l l').
  Proof using PB PR. induction l as [|a l IH]; intros [|b l'] HF; cbn [mapM2]; try apply PR. apply PB; [apply HF|intros]. apply PB; [apply IH, HF|intros; apply PR]. Qed.
  Lemma add3_P a b c : P _ (binary_add_3 e a b c).
  Proof using PB PR PE PA PM. unfold binary_add_3. go. apply foldM_P. intros [p g] n. unfold ks_round. go. Qed.
  Lemma add3_many_P a b c : P _ (binary_add_3_many e a b c).
  Proof using PB PR PF PE PM. unfold binary_add_3_many. destruct (_ || _); go. apply foldM_P. intros [p g] n. unfold ks_round_many. go. Qed.
  Lemma or_tree_P a chunk : P _ (or_tree e a chunk).
  Proof using PB PR PF PE PM.
    unfold or_tree. apply PB; [|intros; apply PE]. cut (forall fuel num a, P _ (or_tree_loop e fuel chunk num a)); [auto|]. clear a. induction fuel as [|fuel IH]; intros num a; cbn [or_tree_loop]; [apply PR|].
    destruct (Nat.ltb 1 num); [|apply PR]. destruct (Nat.eqb chunk 0); [apply PF|]. apply PB; [apply mapM2_P; intros; apply or_many_P|intros; apply IH].
  Qed.
End Closed.

Section D.
  Variables (G : rng) (H : hasher).
  Notation ST := (jst G).
  Let PG := fun A (p : M ST A) => growsM G p.
  Let PE := fun A (p : M ST A) => emitsM p.

  Lemma triples_grows p K len : growsM G (get_mul_triple_many G H p K len).
  Proof.
    unfold get_mul_triple_many. destruct (negb _); [apply growsM_fail|]. do 3 (apply growsM_bind; [apply gen_rand_many_grows|intros]).
    apply growsM_bind; [apply aby_mul_many_grows|intros]. apply check_many_grows.
  Qed.
  Lemma recb_grows p K xs : growsM G (reconstruct_binary_many G p K xs).
  Proof. unfold reconstruct_binary_many. apply growsM_bind; [apply jsrm_grows|intros; apply growsM_ret]. Qed.
  Lemma and_grows p K a b : growsM G (mal_and G H p K a b).
  Proof.
    unfold mal_and. apply growsM_bind; [apply triples_grows|]. intros [[x y] z]. cbv zeta. apply growsM_bind; [apply recb_grows|intros].
    do 2 (apply growsM_bind; [apply growsM_res|intros]). apply growsM_ret.
  Qed.
  Lemma and_many_grows p K a b : growsM G (mal_and_many G H p K a b).
  Proof.
    unfold mal_and_many. destruct (negb _); [apply growsM_fail|]. apply growsM_bind; [apply triples_grows|]. intros [[x y] z]. cbv zeta. apply growsM_bind; [apply recb_grows|intros; apply growsM_ret].
  Qed.
  Lemma msb_grows p K x : growsM G (mal_get_msb G H p K x).
  Proof.
    unfold mal_get_msb. apply growsM_bind; [|intros; apply growsM_ret]. unfold mal_a2b. destruct (a2b_pre p x) as [[x1 x2] x3].
    apply (add3_P _ PG); unfold PG; [intros; apply growsM_bind; assumption|intros; apply growsM_ret|intros; apply growsM_res|intros; apply and_grows|intros; apply and_many_grows].
  Qed.
  Lemma msb_many_grows p K x : growsM G (mal_get_msb_many G H p K x).
  Proof.
    unfold mal_get_msb_many. apply growsM_bind; [|intros; apply growsM_ret]. unfold mal_a2b_many.
    apply (add3_many_P _ PG); unfold PG; [intros; apply growsM_bind; assumption|intros; apply growsM_ret|intros; apply growsM_fail|intros; apply growsM_res|intros; apply and_many_grows].
  Qed.
  Lemma reduce_grows p a ch : growsM G (mal_reduce_binary_or G H p a ch).
  Proof.
    unfold mal_reduce_binary_or.
    apply (or_tree_P _ PG); unfold PG; [intros; apply growsM_bind; assumption|intros; apply growsM_ret|intros; apply growsM_fail|intros; apply growsM_res|intros; apply and_many_grows].
  Qed.
  Lemma open_bit_grows p x : growsM G (mal_open_bit G H p x).
  Proof. unfold mal_open_bit. apply growsM_bind; [apply jmp_verify_grows|intros]. apply growsM_bind; [apply jsr_grows|intros]. apply growsM_bind; [apply jmp_verify_grows|intros]. apply growsM_ret. Qed.
  Lemma open_bit_many_grows p x : growsM G (mal_open_bit_many G H p x).
  Proof. unfold mal_open_bit_many. apply growsM_bind; [apply jmp_verify_grows|intros]. apply growsM_bind; [apply jsrm_grows|intros]. apply growsM_bind; [apply jmp_verify_grows|intros]. apply growsM_ret. Qed.
  Lemma cmd_grows3 p K c m : growsM G (exec_cmd (mal_api G H p K) p c m).
  Proof.
    destruct (sharing c) eqn:E; [apply cmd_grows2, E|]. destruct c; cbn in E; try congruence; clear E; unfold exec_cmd; cbn [mal_api mal_engine a_mpc a_get_msb a_binary_or a_open_bit_many Protocol.m_get_msb_many Protocol.m_reduce_binary_or Protocol.m_open_bit];
      repeat (apply growsM_bind; [apply growsM_need|intros]); (apply growsM_bind; [|intros; apply growsM_ret]).
    - apply msb_grows. - apply msb_many_grows.
    - unfold b_or. apply growsM_bind; [apply and_grows|intros; apply growsM_ret].
    - apply reduce_grows. - apply open_bit_grows. - apply open_bit_many_grows.
  Qed.
  Lemma exec_grows3 p K cs m : growsM G (exec (mal_api G H p K) p cs m).
  Proof. revert m. induction cs as [|c cs IH]; intros m; cbn [exec]; [apply growsM_ret|]. apply growsM_bind; [apply cmd_grows3|]. intros m'. apply IH. Qed.

  Hypothesis HH : forall x, bytes (hfun H x).
  Lemma triples_emits p K len : emitsM (get_mul_triple_many G H p K len).
  Proof using HH.
    unfold get_mul_triple_many, mul_triple_check_many. destruct (negb _); [apply emitsM_fail|]. do 3 (apply emitsM_bind; [apply rand_many_emits|intros]).
    apply emitsM_bind; [apply aby_mul_many_emits|intros]. apply emitsM_bind; [apply coin_jmp_emits|intros]. apply emitsM_bind; [apply recm_emits|intros].
    apply emitsM_bind; [apply jmp_verify_emits, HH|intros]. apply emitsM_bind; [apply zero_verify_emits, HH|intros; apply emitsM_ret].
  Qed.
  Lemma recb_emits p K xs : emitsM (reconstruct_binary_many G p K xs).
  Proof using Type. unfold reconstruct_binary_many. apply emitsM_bind; [apply jsrm_emits|intros; apply emitsM_ret]. Qed.
  Lemma and_emits p K a b : emitsM (mal_and G H p K a b).
  Proof using HH.
    unfold mal_and. apply emitsM_bind; [apply triples_emits|]. intros [[x y] z]. cbv zeta. apply emitsM_bind; [apply recb_emits|intros].
    do 2 (apply emitsM_bind; [apply emitsM_res|intros]). apply emitsM_ret.
  Qed.
  Lemma and_many_emits p K a b : emitsM (mal_and_many G H p K a b).
  Proof using HH.
    unfold mal_and_many. destruct (negb _); [apply emitsM_fail|]. apply emitsM_bind; [apply triples_emits|]. intros [[x y] z]. cbv zeta. apply emitsM_bind; [apply recb_emits|intros; apply emitsM_ret].
  Qed.
  Lemma cmd_emits3 p K c m : emitsM (exec_cmd (mal_api G H p K) p c m).
  Proof using HH.
    destruct (arithmetic c) eqn:E0; [apply cmd_emits; assumption|]. destruct c; cbn in E0; try congruence; clear E0; unfold exec_cmd; cbn [mal_api mal_engine a_mpc a_input a_get_msb a_binary_or a_open_bit_many Protocol.m_get_msb_many Protocol.m_reduce_binary_or Protocol.m_open_bit];
      repeat (apply emitsM_bind; [apply need_emits|intros]); (apply emitsM_bind; [|intros; apply emitsM_ret]).
    - apply input_emits.
    - unfold mal_get_msb. apply emitsM_bind; [|intros; apply emitsM_ret]. unfold mal_a2b. destruct (a2b_pre p _) as [[x1 x2] x3].
      apply (add3_P _ PE); unfold PE; [intros; apply emitsM_bind; assumption|intros; apply emitsM_ret|intros; apply emitsM_res|intros; apply and_emits|intros; apply and_many_emits].
    - unfold mal_get_msb_many. apply emitsM_bind; [|intros; apply emitsM_ret]. unfold mal_a2b_many.
      apply (add3_many_P _ PE); unfold PE; [intros; apply emitsM_bind; assumption|intros; apply emitsM_ret|intros; apply emitsM_fail|intros; apply emitsM_res|intros; apply and_many_emits].
    - unfold b_or. apply emitsM_bind; [apply and_emits|intros; apply emitsM_ret].
    - unfold mal_reduce_binary_or. apply (or_tree_P _ PE); unfold PE; [intros; apply emitsM_bind; assumption|intros; apply emitsM_ret|intros; apply emitsM_fail|intros; apply emitsM_res|intros; apply and_many_emits].
    - unfold mal_open_bit. apply emitsM_bind; [apply jmp_verify_emits, HH|intros]. apply emitsM_bind; [apply jsr_emits|intros]. apply emitsM_bind; [apply jmp_verify_emits, HH|intros]. apply emitsM_ret.
    - unfold mal_open_bit_many. apply emitsM_bind; [apply jmp_verify_emits, HH|intros]. apply emitsM_bind; [apply jsrm_emits|intros]. apply emitsM_bind; [apply jmp_verify_emits, HH|intros]. apply emitsM_ret.
  Qed.
  Lemma exec_emits3 p K cs : forall m, emitsM (exec (mal_api G H p K) p cs m).
  Proof using HH. induction cs as [|c cs IH]; intros m; cbn [exec]; [apply emitsM_ret|]. apply emitsM_bind; [apply cmd_emits3|]. intros m'. apply IH. Qed.
End D.

(** ** Admissible programs: values do not matter *)
Definition shape {A B C D} (m : mem A B) (n : mem C D) : Prop := length (areg m) = length (areg n) /\ length (breg m) = length (breg n).
Lemma eval_cmd_bits K c m m1 : sharing c = true -> eval_cmd K c m = Some m1 -> breg m1 = breg m /\ bout m1 = bout m.
Proof.
  intros Ha He. destruct c; try discriminate Ha; cbn [eval_cmd] in He; repeat match goal with
    | H : guard ?b _ = Some _ |- _ => destruct b; cbn [guard] in H; [|discriminate H]
    | H : obind ?o _ = Some _ |- _ => destruct o; cbn [obind] in H; [|discriminate H]
    end; injection He as <-; split; reflexivity.
Qed.
Lemma eval_cmd_shape3 K c m n m1 : shape m n -> eval_cmd K c m = Some m1 ->
  length (areg m1) = (length (areg m) + produced c)%nat /\ exists n1, eval_cmd K c n = Some n1 /\ shape m1 n1.
Proof.
  intros [L LB] He. destruct (sharing c) eqn:Ha.
  { destruct (eval_cmd_shape K c m n m1 Ha L He) as (S1 & n1 & E1 & S2). split; [exact S1|]. exists n1. split; [exact E1|]. split; [congruence|].
    rewrite (proj1 (eval_cmd_bits _ _ _ _ Ha He)), (proj1 (eval_cmd_bits _ _ _ _ Ha E1)). exact LB. }
  destruct c as [| | | | | | | | | | |x y| | | | | ]; try discriminate Ha; clear Ha; cbn [eval_cmd produced] in *; rewrite Nat.add_0_r;
    repeat match goal with H : guard ?b _ = Some _ |- _ => destruct b; cbn [guard] in *; [|discriminate H] end.
  - destruct (nth_error (areg m) _) eqn:E1; [|discriminate]. injection He as <-. destruct (nth_shape _ _ _ _ L E1) as [? ->]. split; [reflexivity|]. eexists. split; [reflexivity|]. split; cbn; rewrite ?app_length; cbn; congruence.
  - destruct (gets (areg m) _) eqn:E1; [|discriminate]. injection He as <-. destruct (gets_shape _ _ _ _ L E1) as (? & -> & L1 & _). split; [reflexivity|]. eexists. split; [reflexivity|]. split; cbn; rewrite ?app_length, ?map_length; cbn; congruence.
  - destruct (nth_error (breg m) x) eqn:E1; [|discriminate]. cbn [obind] in He. destruct (nth_error (breg m) y) eqn:E2; [|discriminate]. injection He as <-. destruct (nth_shape _ _ _ _ LB E1) as [? ->]. destruct (nth_shape _ _ _ _ LB E2) as [? ->].
    split; [reflexivity|]. eexists. split; [reflexivity|]. split; cbn; rewrite ?app_length; cbn; congruence.
  - destruct (gets (breg m) _) eqn:E1; [|discriminate]. injection He as <-. destruct (gets_shape _ _ _ _ LB E1) as (? & -> & _). split; [reflexivity|]. eexists. split; [reflexivity|]. split; cbn; rewrite ?app_length; cbn; congruence.
  - destruct (nth_error (breg m) _) eqn:E1; [|discriminate]. injection He as <-. destruct (nth_shape _ _ _ _ LB E1) as [? ->]. split; [reflexivity|]. eexists. split; [reflexivity|]. split; cbn; congruence.
  - destruct (gets (breg m) _) eqn:E1; [|discriminate]. injection He as <-. destruct (gets_shape _ _ _ _ LB E1) as (? & -> & _). split; [reflexivity|]. eexists. split; [reflexivity|]. split; cbn; congruence.
Qed.
Lemma eval_shape3 K cs : forall m n m1, shape m n -> eval K cs m = Some m1 -> exists n1, eval K cs n = Some n1.
Proof.
  induction cs as [|c cs IH]; intros m n m1 L He; [exists n; reflexivity|].
  cbn [eval] in He. destruct (eval_cmd K c m) as [m2|] eqn:E; [|discriminate]. cbn [obind] in He. destruct (eval_cmd_shape3 K c m n m2 L E) as (_ & n2 & E2 & L2).
  destruct (IH m2 n2 m1 L2 He) as [n1 E1]. exists n1. cbn [eval]. rewrite E2. exact E1.
Qed.
(** Calls on ring elements do not touch the bits. *)
Lemma exec_cmd_bits {S A B} (e : api S A B) me c m s tr s' m' : sharing c = true -> lrun (exec_cmd e me c m s) tr (Ret (s', m')) -> breg m' = breg m /\ bout m' = bout m.
Proof.
  intros Ha. set (P := fun p : M S (mem A B) => forall s tr s' m', lrun (p s) tr (Ret (s', m')) -> breg m' = breg m /\ bout m' = bout m).
  assert (HR : forall f : mem A B, (breg f = breg m /\ bout f = bout m) -> P (retM f)).
  { intros f E u tr1 u' f' L. apply lrun_ret in L. destruct L as [_ L]. injection L as _ <-. exact E. }
  assert (HB : forall T (p : M S T) (f : T -> M S (mem A B)), (forall r, P (f r)) -> P (bindM p f)).
  { intros T p f E u tr1 u' f' L. apply lrun_bind in L. destruct L as (t1 & [s1 a] & t2 & _ & L & _). exact (E _ _ _ _ _ L). }
  assert (HP : P (exec_cmd e me c m)) by (destruct c; try discriminate Ha; cbn [exec_cmd]; repeat (apply HB; intros ?); apply HR; split; reflexivity).
  apply HP.
Qed.
