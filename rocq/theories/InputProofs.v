(** The malicious ABY3 input protocol with two honest receivers and an arbitrary input provider. *)
From Verif Require Import Base Ring Prog Rng Net Conc Duo DuoProofs RingProofs Sched Aby3 Jmp JmpProofs Aby3Proofs Aby3Mal.

Section I.
  Variable G : rng.
  Notation ST := (jst G).
  Local Opaque to_bytes from_bytes.

  Ltac lsteps := repeat match goal with
    | X : lrun (Send _ _ _) _ _ |- _ => inversion X; clear X; subst
    | X : lrun (Recv _ _) _ _ |- _ => inversion X; clear X; subst; cbn [bind fst snd] in *
    end.
  (** The successor of the provider. *)
  Lemma input_first i K v (s s' : ST) x tr : lrun (mal_input G i K v (pid_num (prev i)) s) tr (Ret (s', x)) ->
    exists m m' d, rcvd_from (prev i) tr = [m] /\ rcvd_from (next i) tr = [m'] /\ sent_to (next i) tr = [to_bytes K d] /\ sent_to (prev i) tr = [] /\
      from_bytes K m = Ok d /\ from_bytes K m' = Ok d /\
      x = Share (snd (draw G K (my_prf G (j_prf G s)))) (radd K (snd (draw G K (next_prf G (j_prf G s)))) d).
  Proof.
    intros L. unfold mal_input, on_prf, gen_rand, gen_rands, reconstruct_id, jmp_buffer, bindM, liftM, getM, putM, retM, send_value, receive_value in L.
    destruct i; cbn in L;
    destruct (draw G K (my_prf G (j_prf G s))) as [ra a], (draw G K (next_prf G (j_prf G s))) as [rb b]; cbn in L; cbn [snd];
    lsteps;
    match goal with X : lrun (bind (bind (of_res (from_bytes K ?m)) _) _) _ _ |- _ => destruct (from_bytes K m) as [d|] eqn:E1; cbn in X; [|inversion X] end;
    lsteps;
    match goal with X : lrun (bind (bind (of_res (from_bytes K ?m)) _) _) _ _ |- _ => destruct (from_bytes K m) as [d'|] eqn:E2; cbn in X; [|inversion X] end;
    match goal with X : lrun ((if negb (?u =? ?w) then _ else _) _) _ _ |- _ => destruct (Z.eqb_spec u w) as [<-|?]; cbn in X; [|inversion X] end;
    match goal with X : lrun (Ret _) _ _ |- _ => apply lrun_ret in X; destruct X as [-> X]; injection X as <- <- end;
    do 3 eexists; repeat split; cbn; eauto.
  Qed.
  (** The predecessor of the provider. *)
  Lemma input_second i K v (s s' : ST) x tr : lrun (mal_input G i K v (pid_num (next i)) s) tr (Ret (s', x)) ->
    exists m m' d, rcvd_from (next i) tr = [m] /\ rcvd_from (prev i) tr = [m'] /\ sent_to (prev i) tr = [to_bytes K d] /\
      sent_to (next i) tr = [to_bytes K (snd (draw G K (next_prf G (j_prf G s))))] /\
      from_bytes K m = Ok d /\ from_bytes K m' = Ok d /\
      x = Share (snd (draw G K (my_prf G (j_prf G s)))) (snd (draw G K (next_prf G (j_prf G s)))).
  Proof.
    intros L. unfold mal_input, on_prf, gen_rand, gen_rands, reconstruct_id, jmp_send, bindM, liftM, getM, putM, retM, send_value, receive_value in L.
    destruct i; cbn in L;
    destruct (draw G K (my_prf G (j_prf G s))) as [ra a], (draw G K (next_prf G (j_prf G s))) as [rb b]; cbn in L; cbn [snd];
    lsteps;
    match goal with X : lrun (bind (bind (of_res (from_bytes K ?m)) _) _) _ _ |- _ => destruct (from_bytes K m) as [d|] eqn:E1; cbn in X; [|inversion X] end;
    lsteps;
    match goal with X : lrun (bind (bind (of_res (from_bytes K ?m)) _) _) _ _ |- _ => destruct (from_bytes K m) as [d'|] eqn:E2; cbn in X; [|inversion X] end;
    match goal with X : lrun ((if negb (?u =? ?w) then _ else _) _) _ _ |- _ => destruct (Z.eqb_spec u w) as [<-|?]; cbn in X; [|inversion X] end;
    match goal with X : lrun (Ret _) _ _ |- _ => apply lrun_ret in X; destruct X as [-> X]; injection X as <- <- end;
    do 3 eexists; repeat split; cbn; eauto.
  Qed.

  Lemma input_duo i K v w (s t s' t' : ST) x y (P : pid -> prog (ST * share)) sched c : In K widths -> sends_bytes (P (prev i)) ->
    next_prf G (j_prf G t) = my_prf G (j_prf G s) ->
    P i = mal_input G i K v (pid_num (prev i)) s -> P (next i) = mal_input G (next i) K w (pid_num (prev i)) t ->
    steps sched (start P) c -> get (progs c) i = Ret (s', x) -> get (progs c) (next i) = Ret (t', y) ->
    exists tr m1 r1 m2 r2 d, lrun (P (prev i)) tr (get (progs c) (prev i)) /\
      sent_to i tr = m1 :: r1 /\ sent_to (next i) tr = m2 :: r2 /\ from_bytes K m1 = Ok d /\ from_bytes K m2 = Ok d /\
      sb y = sa x /\
      (sa x + sb x + sa y) mod 2 ^ K =
        (snd (draw G K (my_prf G (j_prf G s))) + snd (draw G K (next_prf G (j_prf G s))) + snd (draw G K (my_prf G (j_prf G t))) + d) mod 2 ^ K.
  Proof.
    intros HK HB Hs E1 E2 Hst R1 R2. destruct (project P sched c Hst) as (tr & L & E).
    pose proof (L i) as L1. pose proof (L (next i)) as L2. rewrite R1, E1 in L1. rewrite R2, E2 in L2.
    apply input_first in L1. replace (prev i) with (next (next i)) in L2 by (destruct i; reflexivity). apply input_second in L2.
    destruct L1 as (m1 & m1' & d & A1 & A2 & A3 & A4 & A5 & A6 & ->). destruct L2 as (m2 & m2' & d' & B1 & B2 & B3 & B4 & B5 & B6 & ->).
    replace (next (next i)) with (prev i) in * by (destruct i; reflexivity). replace (prev (next i)) with i in * by (destruct i; reflexivity).
    pose proof (E (prev i) i) as F1. pose proof (E (prev i) (next i)) as F2. pose proof (E i (next i)) as F3.
    rewrite A1 in F1. rewrite B1 in F2. rewrite B2, A3 in F3. cbn [app] in F1, F2, F3. injection F3 as F3 _. subst m2'.
    assert (Hd : inr K d).
    { apply (val_range K m1 d HK); [|exact A5]. specialize (HB _ _ i (L (prev i))). rewrite <- F1 in HB. inversion HB; assumption. }
    rewrite from_to_bytes in B6 by assumption. injection B6 as <-.
    exists (tr (prev i)), m1. eexists. exists m2. eexists. exists d. split; [apply L|]. split; [symmetry; exact F1|]. split; [symmetry; exact F2|].
    split; [exact A5|]. split; [exact B5|]. cbn [sa sb]. rewrite Hs. split; [reflexivity|]. unfold radd, norm. modring.
  Qed.
End I.
