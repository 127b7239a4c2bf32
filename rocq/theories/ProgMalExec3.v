(** All programs on malicious ABY3 run by two honest parties against an arbitrary third one. *)
From Verif Require Import Base Ring RingProofs Prog Sched Conc Rng Rel Net BinTrait BitArith BinProofs AddProofs IrisProofs MpcSpec Aby3 ShareSpec Aby3Proofs Aby3Proofs2 SlicedProofs Jmp JmpProofs Session SessionProofs
  Aby3Mal Aby3MalProofs SacrificeProofs PropLemmas PropLemmas2 PropLemmas5 SpecProofs Duo DuoProofs MacSpec MacProofs Client Emits TripleMalMet ProgMalSpec ProgMalDuo ProgMalOps ProgMalOps2 ProgMalOps3 ProgMalOps4 ProgMalExec ProgMalMet ProgMalSpec2 ProgMalInput ProgMalExec2
  ProgMalBinSpec ProgMalBin ProgMalBin2 ProgMalBin3 ProgMalBin4 ProgMalBin5 ProgMalBin6.
From Coq Require Import ZifyBool ZifyNat.

Section D.
  Variables (G : rng) (H : hasher) (i : pid).
  Notation j := (next i).
  Notation k := (prev i).
  Notation ST := (jst G).
  Notation coll := (hash_collision G H).
  Notation synced := (synced2 G).
  Notation clean := (clean G).
  Notation luck := (lucky_bits G H i).
  Notation stp := (stp G).
  Notation duoL := (duoL G H i).
  Notation rep := (rep G i).
  Notation reps := (reps G i).
  Notation lucky_here := (lucky_here G i).

  Lemma clean_dec (s t : ST) : clean s t \/ ~ clean s t.
  Proof. unfold ProgMalDuo.clean. destruct (list_eq_dec Z.eq_dec (j_rcv G s) (j_snd G t)); auto. Qed.
  Lemma reps_out (b : Prop) s t K xs ys vs : reps b s t K xs ys vs -> b \/ reps False s t K xs ys vs.
  Proof.
    intros (R1 & R2 & L1 & L2 & R). destruct (clean_dec s t) as [C|C].
    - destruct (R C) as [B|GD]; [left; exact B|right]. do 4 (split; [assumption|]). auto.
    - right. do 4 (split; [assumption|]). intros C'. destruct (C C').
  Qed.
  Lemma rep_out (b : Prop) s t K x y v : rep b s t K x y v -> b \/ rep False s t K x y v.
  Proof.
    intros (R1 & R2 & R). destruct (clean_dec s t) as [C|C].
    - destruct (R C) as [B|GD]; [left; exact B|right]. do 2 (split; [assumption|]). auto.
    - right. do 2 (split; [assumption|]). intros C'. destruct (C C').
  Qed.
  Lemma stp_out (b : Prop) s t s' t' : stp False s t b s' t' -> b \/ (synced s' t' /\ (clean s' t' -> clean s t)).
  Proof.
    intros (Hs & _ & _ & _ & C). destruct (clean_dec s' t') as [C'|C'].
    - destruct (C C') as [B|C0]; [left; exact B|right; auto].
    - right. split; [exact Hs|]. intros D. destruct (C' D).
  Qed.
  Lemma reps_weak s t s' t' K xs ys vs : reps False s t K xs ys vs -> (clean s' t' -> clean s t) -> reps False s' t' K xs ys vs.
  Proof. intros (R1 & R2 & L1 & L2 & R) HC. do 4 (split; [assumption|]). auto. Qed.

  Definition inv3 (K : Z) (s t : ST) (mi mj : mem share share) (m : mem Z bool) : Prop :=
    inv G K s t mi mj m /\ reps False s t 1 (breg mi) (breg mj) (map Z.b2z (breg m)) /\ bout mi = bout m /\ bout mj = bout m.
  Lemma inv3_step (b : Prop) K s t mi mj m s' t' : inv3 K s t mi mj m -> stp False s t b s' t' -> b \/ inv3 K s' t' mi mj m.
  Proof.
    intros ((_ & R & A1 & A2) & B & O1 & O2) S. destruct (stp_out _ _ _ _ _ S) as [?|[Hs HC]]; [left; assumption|right].
    split; [split; [exact Hs|]; split; [eapply regs_weak; eassumption|auto]|]. split; [eapply reps_weak; eassumption|auto].
  Qed.
  Lemma inv3_pushB K s t mi mj m x y v : inv3 K s t mi mj m -> reps False s t 1 x y (map Z.b2z v) -> inv3 K s t (pushB mi x) (pushB mj y) (pushB m v).
  Proof. intros (I & B & O1 & O2) R. split; [exact I|]. split; [|auto]. cbn [pushB breg]. rewrite map_app. apply reps_app; assumption. Qed.
  Lemma inv3_outB K s t mi mj m v : inv3 K s t mi mj m -> inv3 K s t (outB mi v) (outB mj v) (outB m v).
  Proof. intros (I & B & O1 & O2). split; [exact I|]. split; [exact B|]. cbn [outB bout]. split; congruence. Qed.

  Lemma reps_nth b s t K xs ys vs n v : reps b s t K xs ys vs -> nth_error vs n = Some v -> exists x y, nth_error xs n = Some x /\ nth_error ys n = Some y /\ rep b s t K x y v.
  Proof.
    revert xs ys vs. induction n as [|n IH]; intros xs ys [|w vs] R E; try discriminate; apply reps_cons_inv in R; destruct R as (x & xs' & y & ys' & -> & -> & R0 & R).
    - injection E as ->. exists x, y. auto.
    - apply (IH _ _ _ R E).
  Qed.
  Lemma bits_nth b s t xs ys (bs : list bool) n v : reps b s t 1 xs ys (map Z.b2z bs) -> nth_error bs n = Some v -> exists x y, nth_error xs n = Some x /\ nth_error ys n = Some y /\ rep b s t 1 x y (Z.b2z v).
  Proof. intros R E. eapply reps_nth; [exact R|]. apply (map_nth_error Z.b2z), E. Qed.
  Lemma bits_gets b s t xs ys (bs : list bool) ns v : reps b s t 1 xs ys (map Z.b2z bs) -> gets bs ns = Some v ->
    exists x y, gets xs ns = Some x /\ gets ys ns = Some y /\ reps b s t 1 x y (map Z.b2z v) /\ length v = length ns.
  Proof.
    intros R. unfold gets. revert v. induction ns as [|n ns IH]; cbn; intros v E.
    - injection E as <-. exists [], []. split; [reflexivity|]. split; [reflexivity|]. split; [apply reps_nil|reflexivity].
    - destruct (nth_error bs n) as [u|] eqn:EN; [|discriminate]. destruct (all_some (map (nth_error bs) ns)) as [w|]; [|discriminate]. injection E as <-.
      destruct (bits_nth _ _ _ _ _ _ _ _ R EN) as (x & y & -> & -> & R0). destruct (IH w eq_refl) as (xi & xj & -> & -> & RR & L).
      exists (x :: xi), (y :: xj). split; [reflexivity|]. split; [reflexivity|]. split; [cbn [map]; apply reps_cons; assumption|cbn; congruence].
  Qed.

  (** One call of the binary part. *)
  Lemma op_T {A} K c mi mj m m1 (s t : ST) (p q : M ST A) (f g : A -> mem share share) Q :
    exec_cmd (mal_api G H i K) i c mi s = bindM p (fun r => retM (f r)) s -> exec_cmd (mal_api G H j K) j c mj t = bindM q (fun r => retM (g r)) t ->
    inv3 K s t mi mj m -> duoL False p q s t Q ->
    (forall (b : Prop) s' x t' y, inv3 K s' t' mi mj m -> Q b s' x t' y -> b \/ inv3 K s' t' (f x) (g y) m1) ->
    duoT i (exec_cmd (mal_api G H i K) i c mi s) (exec_cmd (mal_api G H j K) j c mj t)
      (fun ti r tj r' => coll (fst r) (fst r') \/ luck (exec_cmd (mal_api G H i K) i c mi s) (exec_cmd (mal_api G H j K) j c mj t) ti tj \/ inv3 K (fst r) (fst r') (snd r) (snd r') m1).
  Proof.
    intros E1 E2 HI D HQ. rewrite E1, E2. unfold bindM at 1 2. apply duoT_bind. eapply duoT_mono; [|apply D, HI]. clear D.
    intros ti [s1 x] tj [t1 y] D. apply duoT_ret. cbn [fst snd] in *.
    assert (HB : forall b : Prop, (coll s1 t1 -> b) -> (luck (p s) (q t) ti tj -> b) -> b \/ inv3 K s1 t1 (f x) (g y) m1).
    { intros b H1 H2. destruct (D b ltac:(tauto) H1 H2) as [S QQ]. destruct (inv3_step b K s t mi mj m s1 t1 HI S) as [?|HI1]; [left; assumption|]. exact (HQ b s1 x t1 y HI1 QQ). }
    destruct (HB (coll s1 t1 \/ luck (p s) (q t) ti tj)) as [[B|B]|B]; [tauto|tauto|left; exact B|right; left|right; right; exact B].
    unfold bindM. apply luck_first, B.
  Qed.

  Lemma bin_T K c mi mj m m1 (s t : ST) : In K widths -> sharing c = false -> eval_cmd K c m = Some m1 -> inv3 K s t mi mj m ->
    duoT i (exec_cmd (mal_api G H i K) i c mi s) (exec_cmd (mal_api G H j K) j c mj t)
      (fun ti r tj r' => coll (fst r) (fst r') \/ luck (exec_cmd (mal_api G H i K) i c mi s) (exec_cmd (mal_api G H j K) j c mj t) ti tj \/ inv3 K (fst r) (fst r') (snd r) (snd r') m1).
  Proof.
    intros HK Ha He HI. pose proof HI as ((Hs & HR & A1 & A2) & HB & O1 & O2).
    destruct c as [ | | | | | | | | |a|a|a b|a ch| | |a|a]; try discriminate Ha; clear Ha; cbn [eval_cmd] in He.
    - (* msb *)
      destruct (nth_error (areg m) a) as [u|] eqn:Eu; [|discriminate]. injection He as <-. destruct (regs_nth _ _ _ _ _ _ _ HR Eu) as (x & y & EX & EY & RX & RY & P).
      assert (AR : arep G False s t K x y u) by (split; [exact RX|]; split; [exact RY|]; auto).
      eapply (op_T K _ mi mj m _ s t (mal_get_msb G H i K x) (mal_get_msb G H j K y) (fun r => pushB mi [r]) (fun r => pushB mj [r])); [cbn [exec_cmd]; rewrite EX; reflexivity|cbn [exec_cmd]; rewrite EY; reflexivity|exact HI|apply (msb_L G H i False K x y u s t HK AR)|].
      intros b s' w t' w' HI' W. destruct (rep_out _ _ _ _ _ _ _ W) as [?|W']; [left; assumption|right]. apply inv3_pushB; [exact HI'|apply reps_one, W'].
    - (* msb many *)
      destruct (Nat.ltb 0 (length a)); [|discriminate]. cbn [guard] in He.
      destruct (gets (areg m) a) as [u|] eqn:Eu; [|discriminate]. injection He as <-. destruct (regs_gets _ _ _ _ _ _ _ HR Eu) as (x & y & EX & EY & (X1 & X2 & RX & RY & P) & _).
      assert (AR : areps G False s t K x y u) by (split; [exact RX|]; split; [exact RY|]; split; [exact X1|]; split; [exact X2|]; auto).
      eapply (op_T K _ mi mj m _ s t (mal_get_msb_many G H i K x) (mal_get_msb_many G H j K y) (fun r => pushB mi r) (fun r => pushB mj r)); [cbn [exec_cmd]; rewrite EX; reflexivity|cbn [exec_cmd]; rewrite EY; reflexivity|exact HI|apply (msb_many_L G H i False K x y u s t HK AR)|].
      intros b s' w t' w' HI' W. destruct (reps_out _ _ _ _ _ _ _ W) as [?|W']; [left; assumption|right]. apply inv3_pushB; [exact HI'|exact W'].
    - (* or *)
      destruct (nth_error (breg m) a) as [u|] eqn:Eu; [|discriminate]. cbn [obind] in He. destruct (nth_error (breg m) b) as [v|] eqn:Ev; [|discriminate]. injection He as <-.
      destruct (bits_nth _ _ _ _ _ _ _ _ HB Eu) as (x & y & EX & EY & RX). destruct (bits_nth _ _ _ _ _ _ _ _ HB Ev) as (x' & y' & EX' & EY' & RY).
      eapply (op_T K _ mi mj m _ s t (b_or (mal_bin G H i 1) x x') (b_or (mal_bin G H j 1) y y') (fun r => pushB mi [r]) (fun r => pushB mj [r])); [cbn [exec_cmd]; rewrite EX, EX'; reflexivity|cbn [exec_cmd]; rewrite EY, EY'; reflexivity|exact HI|apply (or_L G H i False 1 x y _ x' y' _ s t (or_introl eq_refl) RX RY)|].
      intros b0 s' w t' w' HI' W. destruct (rep_out _ _ _ _ _ _ _ W) as [?|W']; [left; assumption|right]. apply inv3_pushB; [exact HI'|]. cbn [map]. replace (Z.b2z (u || v)) with (Z.lor (Z.b2z u) (Z.b2z v)) by (destruct u, v; reflexivity). apply reps_one, W'.
    - (* reduce or *)
      destruct (Nat.ltb 0 (length a) && Nat.ltb 0 ch) eqn:Ec; [|discriminate]. cbn [guard] in He. apply andb_prop in Ec. destruct Ec as [Ec1 Ec2]. apply Nat.ltb_lt in Ec1, Ec2.
      destruct (gets (breg m) a) as [u|] eqn:Eu; [|discriminate]. injection He as <-. destruct (bits_gets _ _ _ _ _ _ _ _ HB Eu) as (x & y & EX & EY & RX & L).
      eapply (op_T K _ mi mj m _ s t (mal_reduce_binary_or G H i x ch) (mal_reduce_binary_or G H j y ch) (fun r => pushB mi [r]) (fun r => pushB mj [r])); [cbn [exec_cmd]; rewrite EX; reflexivity|cbn [exec_cmd]; rewrite EY; reflexivity|exact HI|apply (reduce_or_L G H i False x y u ch s t Ec2 ltac:(lia) RX)|].
      intros b s' w t' w' HI' W. destruct (rep_out _ _ _ _ _ _ _ W) as [?|W']; [left; assumption|right]. apply inv3_pushB; [exact HI'|apply reps_one, W'].
    - (* open bit *)
      destruct (nth_error (breg m) a) as [u|] eqn:Eu; [|discriminate]. injection He as <-. destruct (bits_nth _ _ _ _ _ _ _ _ HB Eu) as (x & y & EX & EY & RX).
      eapply (op_T K _ mi mj m _ s t (mal_open_bit G H i x) (mal_open_bit G H j y) (fun r => outB mi [r]) (fun r => outB mj [r])); [cbn [exec_cmd]; rewrite EX; reflexivity|cbn [exec_cmd]; rewrite EY; reflexivity|exact HI|apply (open_bit_L G H i False x y u s t RX)|].
      intros b s' w t' w' HI' [?|[-> ->]]; [left; assumption|right]. apply inv3_outB, HI'.
    - (* open bits *)
      destruct (gets (breg m) a) as [u|] eqn:Eu; [|discriminate]. injection He as <-. destruct (bits_gets _ _ _ _ _ _ _ _ HB Eu) as (x & y & EX & EY & RX & L).
      eapply (op_T K _ mi mj m _ s t (mal_open_bit_many G H i x) (mal_open_bit_many G H j y) (fun r => outB mi r) (fun r => outB mj r)); [cbn [exec_cmd]; rewrite EX; reflexivity|cbn [exec_cmd]; rewrite EY; reflexivity|exact HI|apply (open_bit_many_L G H i False x y u s t RX)|].
      intros b s' w t' w' HI' [?|[-> ->]]; [left; assumption|right]. apply inv3_outB, HI'.
  Qed.

  Lemma cmd_T3 K c mi mj m m1 (s t : ST) : In K widths -> eval_cmd K c m = Some m1 -> inv3 K s t mi mj m ->
    duoT i (exec_cmd (mal_api G H i K) i c mi s) (exec_cmd (mal_api G H j K) j c mj t)
      (fun ti r tj r' => coll (fst r) (fst r') \/ lucky_here K c mi mj s t ti tj \/ luck (exec_cmd (mal_api G H i K) i c mi s) (exec_cmd (mal_api G H j K) j c mj t) ti tj \/
        exists m', eval_cmd K (third_input k K (areg (snd r)) (areg (snd r')) (length (areg m)) c) m = Some m' /\ inv3 K (fst r) (fst r') (snd r) (snd r') m').
  Proof.
    intros HK He HI. destruct (sharing c) eqn:Ha.
    - pose proof HI as (HI0 & HB & O1 & O2). apply duoT_runs. eapply duoT_mono; [|apply (cmd_T2 G H i K c mi mj m m1 s t HK Ha He HI0)].
      intros ti [s' n] tj [t' n'] D L1 L2. cbn [fst snd] in *. destruct D as [D|[D|(m' & E & D & HC)]]; [auto|auto|]. do 3 right. exists m'. split; [exact E|].
      destruct (exec_cmd_bits _ _ _ _ _ _ _ _ Ha L1) as [B1 B2]. destruct (exec_cmd_bits _ _ _ _ _ _ _ _ Ha L2) as [B3 B4].
      rewrite <- (third_sharing i K (areg n) (areg n') (length (areg m)) c) in Ha. destruct (eval_cmd_bits _ _ _ _ Ha E) as [B5 B6].
      split; [exact D|]. rewrite B1, B3, B5, B2, B4, B6. split; [eapply reps_weak; eassumption|auto].
    - eapply duoT_mono; [|apply (bin_T K c mi mj m m1 s t HK Ha He HI)]. intros ti r tj r' [D|[D|D]]; [auto|auto|]. do 3 right. exists m1. split; [|exact D].
      destruct c; try discriminate Ha; exact He.
  Qed.

  Lemma exec_B3 K cs : In K widths -> forall mi mj m m' (s t : ST), eval K cs m = Some m' -> inv3 K s t mi mj m ->
    duoB i (exec (mal_api G H i K) i cs mi s) (exec (mal_api G H j K) j cs mj t)
      (fun ti r tj r' => coll (fst r) (fst r') \/ lucky_run G H i K cs mi mj s t ti tj \/ luck (exec (mal_api G H i K) i cs mi s) (exec (mal_api G H j K) j cs mj t) ti tj \/
        exists p, eval K (third_inputs k K (areg (snd r)) (areg (snd r')) (length (areg m)) cs) m = Some p /\ inv3 K (fst r) (fst r') (snd r) (snd r') p).
  Proof.
    intros HK. induction cs as [|c cs IH]; intros mi mj m m' s t He HI; cbn [exec].
    - apply duoB_T, duoT_ret. do 3 right. exists m. split; [reflexivity|exact HI].
    - cbn [eval] in He. destruct (eval_cmd K c m) as [m1|] eqn:E1; [|discriminate]. cbn [obind] in He.
      unfold bindM. apply duoB_bind. apply duoT_runs. eapply duoT_mono; [|apply (cmd_T3 K c mi mj m m1 s t HK E1 HI)].
      intros ti [s1 n1] tj [t1 n1'] D L1 L2. cbn [fst snd] in *. destruct D as [D|[D|[D|(m2 & E2 & D)]]].
      + intros ti' [s2 n2] tj' [t2 n2'] xi yi xj yj R1 R2 _ _ _ _. left. cbn [fst snd].
        destruct (exec_grows3 G H i K cs n1 _ _ _ _ R1) as [l El]. destruct (exec_grows3 G H j K cs n1' _ _ _ _ R2) as [l' El'].
        eapply coll_grows; [exact D|exact El|exact El'].
      + intros ti' [s2 n2] tj' [t2 n2'] xi yi xj yj R1 R2 _ _ _ _. right. left. apply lucky_first, D.
      + intros ti' [s2 n2] tj' [t2 n2'] xi yi xj yj R1 R2 _ _ _ _. right. right. left. apply luck_first, D.
      + destruct (eval_cmd_shape3 K c m m m1 (conj eq_refl eq_refl) E1) as (S1 & _).
        assert (E1' : exists mm, eval_cmd K c m = Some mm /\ shape mm m2).
        { destruct (sharing c) eqn:Ha.
          - exists m1. split; [exact E1|]. split.
            + rewrite S1. rewrite <- (third_produced i K (areg n1) (areg n1') (length (areg m)) c). symmetry. apply (eval_cmd_shape3 K _ m m m2 (conj eq_refl eq_refl) E2).
            + rewrite (proj1 (eval_cmd_bits _ _ _ _ Ha E1)). rewrite <- (third_sharing i K (areg n1) (areg n1') (length (areg m)) c) in Ha. rewrite (proj1 (eval_cmd_bits _ _ _ _ Ha E2)). reflexivity.
          - exists m2. split; [|split; reflexivity]. destruct c; try discriminate Ha; exact E2. }
        destruct E1' as (mm & E1' & SH). rewrite E1 in E1'. injection E1' as <-.
        destruct (eval_shape3 K cs m1 m2 m' SH He) as [m3 E3].
        pose proof (IH n1 n1' m2 m3 s1 t1 E3 D) as HB. pose proof D as ((_ & (N1 & N2 & _) & _) & _).
        assert (S2 : length (areg m2) = (length (areg m) + produced c)%nat) by (rewrite <- (proj1 SH); exact S1).
        intros ti' [s2 n2] tj' [t2 n2'] xi yi xj yj R1 R2 B1 B2 Q1 Q2. cbn [fst snd].
        destruct (HB _ _ _ _ _ _ _ _ R1 R2 B1 B2 Q1 Q2) as [C|[C|[C|(p & EP & C)]]]; cbn [fst snd] in *; [left; exact C|right; left; eapply lucky_cons; eassumption|right; right; left; eapply (luck_then G H i); eassumption|do 3 right].
        destruct (exec_appends _ _ _ _ _ _ _ _ R1) as [l El]. destruct (exec_appends _ _ _ _ _ _ _ _ R2) as [l' El']. cbn [fst snd] in El, El'.
        exists p. split; [|exact C]. cbn [third_inputs eval]. rewrite El, El' in *. rewrite third_input_app.
        * rewrite E2. cbn [obind]. rewrite <- S2. exact EP.
        * destruct (produced c) eqn:EPr; [right; reflexivity|left; lia].
  Qed.
End D.
