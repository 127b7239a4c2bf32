(** Lemmas behind Properties4: commitments, key set-up and coins against a malicious party. *)
From Verif Require Import Base Ring RingProofs Prog Sched Conc Rng Rel Net BinTrait Iris IrisSpec BitArith BinProofs AddProofs MpcSpec Protocol Client ClientProofs Aby3 ShareSpec
  Aby3Proofs Jmp JmpProofs Session SessionProofs Aby3Mal Aby3MalProofs Aby3MalProofs2 SacrificeProofs PropLemmas PropLemmas2 ProtocolProofs.

(** ** Commitments *)
Lemma slice_inj K v v' r r' : In K widths -> Forall (inr K) v -> Forall (inr K) v' -> length r = length r' ->
  ring_slice_to_bytes K v ++ r = ring_slice_to_bytes K v' ++ r' -> v = v' /\ r = r'.
Proof.
  intros HK Hv Hv' Hl E.
  assert (L : length (ring_slice_to_bytes K v) = length (ring_slice_to_bytes K v')).
  { apply (f_equal (@length Z)) in E. rewrite !app_length in E. lia. }
  apply app_inj_len in E; [|exact L]. destruct E as [E ->]. split; [|reflexivity].
  assert (Hlen : length v = length v').
  { rewrite !ring_slice_length in L. assert (0 < nbytes K)%nat by (cbn in HK; destruct HK as [<-|[<-|[<-|[<-|[<-|[<-|[]]]]]]]; cbn; lia). nia. }
  pose proof (take_n_app K v [] HK Hv) as T1. pose proof (take_n_app K v' [] HK Hv') as T2. rewrite E, Hlen, T2 in T1. congruence.
Qed.
Lemma opens_itself H K v r : o_verify H K (c_open (commit_with_rand H K v r)) (c_comm (commit_with_rand H K v r)) = true.
Proof. apply bytes_eqb_refl. Qed.
Lemma binding H K com o o' : In K widths -> Forall (inr K) (o_values o) -> Forall (inr K) (o_values o') ->
  length (o_rand o) = length (o_rand o') -> o_verify H K o com = true -> o_verify H K o' com = true ->
  o = o' \/ collision H (ring_slice_to_bytes K (o_values o) ++ o_rand o) (ring_slice_to_bytes K (o_values o') ++ o_rand o').
Proof.
  intros HK H1 H2 Hl E1 E2. apply bytes_eqb_spec in E1, E2.
  destruct (list_eq_dec Z.eq_dec (ring_slice_to_bytes K (o_values o) ++ o_rand o) (ring_slice_to_bytes K (o_values o') ++ o_rand o')) as [E|E].
  - left. destruct (slice_inj K _ _ _ _ HK H1 H2 Hl E). destruct o, o'. cbn in *. congruence.
  - right. split; [exact E|congruence].
Qed.

(** ** Key set-up: a party that finishes has checked both openings *)
Lemma setup_checked G H i s1 s2 r1 r2 (s : jst G) tr s' u : lrun (setup_prf_mal G H i s1 s2 r1 r2 s) tr (Ret (s', u)) ->
  exists c1 c2 o1 o2,
    rcvd_from (next i) tr = [c1; o1] /\ rcvd_from (prev i) tr = [c2; o2] /\
    sent_to (next i) tr = [c_comm (commit_with_rand H 8 s1 r1); ring_slice_to_bytes 8 s1 ++ r1] /\
    sent_to (prev i) tr = [c_comm (commit_with_rand H 8 s2 r2); ring_slice_to_bytes 8 s2 ++ r2] /\
    length o1 = (length s1 + 32)%nat /\ length o2 = (length s1 + 32)%nat /\
    o_verify H 8 (Opening (firstn (length s1) o1) (skipn (length s1) o1)) c1 = true /\
    o_verify H 8 (Opening (firstn (length s1) o2) (skipn (length s1) o2)) c2 = true /\
    j_prf G s' = prf_new G (map2 Z.lxor (firstn (length s1) o1) s1) (map2 Z.lxor (firstn (length s1) o2) s2).
Proof.
  intros L. unfold setup_prf_mal, bindM, liftM in L. cbn in L.
  repeat match goal with
    | X : lrun (Send _ _ _) _ _ |- _ => inversion X; clear X; subst
    | X : lrun (Recv _ _) _ _ |- _ => inversion X; clear X; subst; cbn [bind fst snd] in *
    end.
  match goal with X : lrun ((if ?b then _ else _) _) _ _ |- _ => destruct b eqn:E1; [inversion X|] end. cbn in *.
  repeat match goal with
    | X : lrun (Send _ _ _) _ _ |- _ => inversion X; clear X; subst
    | X : lrun (Recv _ _) _ _ |- _ => inversion X; clear X; subst; cbn [bind fst snd] in *
    end.
  match goal with X : lrun ((if ?b then _ else _) _) _ _ |- _ => destruct b eqn:E2; [inversion X|] end. cbn in *.
  match goal with X : lrun ((if ?b then _ else _) _) _ _ |- _ => destruct b eqn:E3; [inversion X|] end. cbn in *.
  match goal with X : lrun ((if ?b then _ else _) _) _ _ |- _ => destruct b eqn:E4; [inversion X|] end. cbn in *.
    match goal with X : lrun (putM _ _) _ _ |- _ => unfold putM in X end.
  match goal with X : lrun (Ret _) _ _ |- _ => apply lrun_ret in X; destruct X as [-> X]; injection X as <- end.
  apply negb_false_iff in E3, E4. apply orb_false_elim in E2. destruct E2 as [E2 E2']. apply negb_false_iff in E2, E2'. apply Nat.eqb_eq in E2, E2'.
  do 4 eexists.
  repeat match goal with |- context [pid_eqb ?a ?b] => first [replace (pid_eqb a b) with true by (destruct i; reflexivity) | replace (pid_eqb a b) with false by (destruct i; reflexivity)] end.
  split; [reflexivity|]. split; [reflexivity|]. split; [reflexivity|]. split; [reflexivity|].
  split; [exact E2|]. split; [exact E2'|]. split; [exact E3|]. split; [exact E4|].
  cbn [j_prf]. assert (C : forall a b : list Z, map2 (fun a b => rxor b a) a b = map2 Z.lxor b a); [|rewrite !C; reflexivity].
  induction a as [|x a IH]; intros [|y b]; cbn; try reflexivity; f_equal; apply IH.
Qed.
