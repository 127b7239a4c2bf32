(** Property C53: setting up the network. *)
From Coq Require Import Permutation.
From Verif Require Import Base Channel ChannelProofs Establish EstablishSpec EstablishProofs EstablishLive.

(** Any number of processes, each with a complete configuration in an order of its own: however their
    actions interleave, set-up never deadlocks and no assertion fails; after at most n (4 n + 5) actions
    everybody has one channel to each of the others, and its other end is theirs. *)
Theorem C53_completes : forall w, configured w -> w_outsiders w = false -> w_faults w = false -> (2 <= length (w_ids w))%nat ->
  forall k s, nsteps w k net0 s ->
    (k <= length (w_ids w) * (4 * length (w_ids w) + 5))%nat /\
    (nstuck w s -> wired w s) /\
    exists k' s', nsteps w k' s s' /\ wired w s'.
Proof. intros w HC Ho Hf H2 k s H. pose proof (setup_completes w HC Ho Hf H2 k s H) as G. rewrite (total0 w HC H2) in G. exact G. Qed.
Print Assumptions C53_completes.

(** Whatever the configurations say (wrong addresses, wrong names, missing or superfluous parties) and
    whatever fails: who gets channels at all has them with the party meant, and if both have one they are
    the two ends of the same connection. *)
Theorem C53_no_mixup : forall w, distinct_ids w -> unsigned_conf w -> w_outsiders w = false ->
  forall k s p ch q n, nsteps w k net0 s -> In p (w_ids w) -> n_at s p = Ready ch -> In (q, n) ch -> q <> p ->
    between s n p q /\
    forall ch' n', In q (w_ids w) -> n_at s q = Ready ch' -> In (p, n') ch' -> n' = n.
Proof.
  intros w Hi Hu Ho k s p ch q n H Hp E Hin Hne. split; [eapply ready_between; eassumption|].
  intros ch' n' Hq E' Hin'. symmetry. eapply (ready_agree w Hi Hu Ho k s p q ch ch' n n' H); auto.
Qed.
Print Assumptions C53_no_mixup.

(** Three processes 0, 1, 2: Aby3Network::new finds its two channels, and what a party sends to the next
    one goes into the channel from which the next one receives. *)
Lemma chan_of_in ch z n : NoDup (map fst ch) -> In (z, n) ch -> chan_of ch z = Some n.
Proof.
  unfold chan_of. induction ch as [|[k v] ch IH]; intros Hn Hin; [contradiction|]. cbn [map fst] in Hn. inversion Hn as [|? ? Hk Hn']; subst. cbn [find fst].
  destruct Hin as [H|H]; [injection H as -> ->; rewrite Z.eqb_refl; reflexivity|].
  destruct (Z.eqb_spec k z) as [->|Hne]; [exfalso; apply Hk, in_map_iff; exists (z, n); auto|apply IH; assumption].
Qed.
Lemma chan_of_filter ch z y : z <> y -> chan_of (filter (fun kv => negb (fst kv =? y)) ch) z = chan_of ch z.
Proof.
  intros H. unfold chan_of. induction ch as [|[k v] ch IH]; [reflexivity|]. cbn [filter fst find].
  destruct (Z.eqb_spec k y) as [->|Hk]; cbn [negb find fst].
  - destruct (Z.eqb_spec y z); [congruence|exact IH].
  - destruct (k =? z); [reflexivity|exact IH].
Qed.
Theorem C53_three : forall w s, Permutation (w_ids w) [0; 1; 2] -> wired w s ->
  exists send recv : pid -> nat, forall i,
    (exists ch, n_at s (pid_num i) = Ready ch /\ network_channels i ch = Ok (send i, recv i)) /\
    between s (send i) (pid_num i) (pid_num (next i)) /\ recv (next i) = send i.
Proof.
  intros w s HP HW.
  assert (Hid : forall i, In (pid_num i) (w_ids w)) by (intros i; eapply Permutation_in; [symmetry; exact HP|destruct i; cbn; auto]).
  assert (HX : forall i, exists sr, (exists ch, n_at s (pid_num i) = Ready ch /\ network_channels i ch = Ok sr /\ In (pid_num (next i), fst sr) ch /\ In (pid_num (prev i), snd sr) ch)).
  { intros i. destruct (HW _ (Hid i)) as (ch & E & Hn & Hk & _).
    assert (Hnx : exists a, In (pid_num (next i), a) ch). { assert (H : In (pid_num (next i)) (map fst ch)) by (apply Hk; split; [apply Hid|destruct i; discriminate]). apply in_map_iff in H. destruct H as ([x y] & <- & H). exists y. exact H. }
    assert (Hpv : exists b, In (pid_num (prev i), b) ch). { assert (H : In (pid_num (prev i)) (map fst ch)) by (apply Hk; split; [apply Hid|destruct i; discriminate]). apply in_map_iff in H. destruct H as ([x y] & <- & H). exists y. exact H. }
    destruct Hnx as (a & Ha), Hpv as (b & Hb). exists (a, b), ch. split; [exact E|]. split; [|split; assumption].
    unfold network_channels. rewrite (chan_of_in _ _ _ Hn Ha). rewrite chan_of_filter by (destruct i; discriminate). rewrite (chan_of_in _ _ _ Hn Hb). reflexivity. }
  destruct (HX P0) as ([a0 b0] & c0 & E0 & N0 & A0 & B0), (HX P1) as ([a1 b1] & c1 & E1 & N1 & A1 & B1), (HX P2) as ([a2 b2] & c2 & E2 & N2 & A2 & B2).
  exists (fun i => match i with P0 => a0 | P1 => a1 | P2 => a2 end), (fun i => match i with P0 => b0 | P1 => b1 | P2 => b2 end).
  assert (HB : forall i a ch, n_at s (pid_num i) = Ready ch -> In (pid_num (next i), a) ch -> between s a (pid_num i) (pid_num (next i)) /\
            forall ch' b, n_at s (pid_num (next i)) = Ready ch' -> In (pid_num i, b) ch' -> b = a).
  { intros i a ch E Hin. destruct (HW _ (Hid i)) as (ch1 & E' & _ & _ & Hl). assert (ch1 = ch) by congruence. subst ch1.
    destruct (Hl _ _ Hin) as (Hb & ch2 & E2' & Hin2). split; [exact Hb|]. intros ch' b E3 Hin3. assert (ch2 = ch') by congruence. subst ch2.
    destruct (HW _ (Hid (next i))) as (ch3 & E4 & Hn3 & _). assert (ch3 = ch') by congruence. subst ch3.
    eapply (key_fun (pid_num i)); eassumption. }
  intros []; cbn [next fst snd] in *.
  - destruct (HB P0 a0 c0 E0 A0) as [G1 G2]. split; [exists c0; auto|]. split; [exact G1|]. apply (G2 c1); assumption.
  - destruct (HB P1 a1 c1 E1 A1) as [G1 G2]. split; [exists c1; auto|]. split; [exact G1|]. apply (G2 c2); assumption.
  - destruct (HB P2 a2 c2 E2 A2) as [G1 G2]. split; [exists c2; auto|]. split; [exact G1|]. apply (G2 c0); assumption.
Qed.
Print Assumptions C53_three.

(** A configuration that lists only its own party passes the checks, but asking for channels panics. *)
Theorem C53_alone : forall w p, configured w -> w_ids w = [p] -> w_outsiders w = false -> w_faults w = false ->
  (forall k s, nsteps w k net0 s -> (forall ch, n_at s p <> Ready ch) /\ (nstuck w s -> n_at s p = Dead EPanic)) /\
  exists s, nsteps w 4 net0 s /\ n_at s p = Dead EPanic.
Proof.
  intros w p ((HN & Hr) & Hcf) Hi Ho Hf. assert (Hp : In p (w_ids w)) by (rewrite Hi; left; reflexivity). destruct (Hcf p Hp) as [HP _]. rewrite Hi in HP.
  apply Permutation_sym, Permutation_length_1_inv in HP. destruct (w_conf w p) as [|e [|? ?]] eqn:EC; try discriminate. injection HP as Ee.
  assert (CK : check_config p (map e_id (w_conf w p)) = Ok tt) by (apply check_config_spec; rewrite EC; cbn; split; [left; exact Ee|repeat constructor; auto]).
  pose (ok := fun f => f = Down \/ f = Loop [e] [] \/ f = Loop [] [] \/ f = Up [] \/ f = Dead EPanic).
  assert (INV : forall k s, nsteps w k net0 s -> ok (n_at s p)).
  { intros k s H. remember net0 as s0. induction H as [s|k s s1 s2 H IH Hs]; subst; [left; reflexivity|]. specialize (IH eq_refl).
    destruct Hs as [q s1 Hq E|q s1 e' t m Hq E Ee'|q s1 e' t m q' Hq E Ee' Hh Hl Ht|q s1 e' t m q' Hq E Ee' Hh Hl Ht|q s1 e' t m n r Hq E Er Hz|
      q s1 e' t m n r Hq E Ee' Hn Er Hs Ha|q s1 t m n z Hq E Hz|q s1 m Hq E|q s1 m Hq E|q s1 z n t ch r Hq E Hz Er|q s1 z n t ch v Hq E Hv|
      q s1 z n t ch r v Hq E Hz Er Hv|q s1 ch Hq E|q s1 Hq Hf' Hov|q z s1 h o Hq Hz Hos Hl]; [..|congruence|congruence].
    all: rewrite Hi in Hq; destruct Hq as [<-|[]]; rewrite E in IH; unfold ok in IH.
    all: try (destruct IH as [IH|[IH|[IH|[IH|IH]]]]; try discriminate; injection IH as ?; subst; try lia; try discriminate).
    all: unfold goto; cbn [n_at]; rewrite ?upd_same.
    - rewrite CK, EC. right. left. reflexivity.
    - right. right. left. congruence.
    - right. right. right. left. congruence.
    - right. right. right. right. reflexivity. }
  split.
  - intros k s H. pose proof (INV k s H) as G. split; [intros ch E; rewrite E in G; destruct G as [G|[G|[G|[G|G]]]]; discriminate|].
    intros Hst. destruct G as [G|[G|[G|[G|G]]]]; [..|exact G]; exfalso; eapply Hst.
    + eapply n_start; eassumption.
    + eapply n_skip; [exact Hp|exact G|exact Ee].
    + eapply n_up; eassumption.
    + eapply n_chans; eassumption.
  - eexists. split.
    + econstructor; [econstructor; [econstructor; [econstructor; [constructor|eapply (n_start w p); [exact Hp|reflexivity]]|]|]|].
      * eapply (n_skip w p); [exact Hp| |exact Ee]. unfold goto. cbn [n_at]. rewrite upd_same, CK, EC. reflexivity.
      * eapply (n_up w p); [exact Hp|]. unfold goto. cbn [n_at]. rewrite upd_same. reflexivity.
      * eapply (n_chans w p); [exact Hp|]. unfold goto. cbn [n_at]. rewrite upd_same. reflexivity.
    + unfold goto. cbn [n_at]. rewrite upd_same. reflexivity.
Qed.
Print Assumptions C53_alone.

(** The hypotheses are met: three processes whose configuration files list the parties in different orders. *)
Definition ent (z : Z) : entry := Entry z (10 + z) z.
Definition lab (outsiders : bool) : world :=
  World [0; 1; 2]
    (fun p => if p =? 0 then [ent 2; ent 0; ent 1] else if p =? 1 then [ent 1; ent 0; ent 2] else [ent 0; ent 1; ent 2])
    (fun a => if (10 <=? a) && (a <? 13) then Some (a - 10) else None)
    (fun p q s => s =? q) false false outsiders.
Lemma lab_configured o : configured (lab o).
Proof.
  split.
  - split; [cbn; repeat constructor; cbn; intuition discriminate|]. cbn. intros p H. lia.
  - cbn [lab w_ids w_conf w_host w_tls]. intros p [<-|[<-|[<-|[]]]]; cbn; (split;
      [|intros e H; repeat (destruct H as [<-|H]; [split; reflexivity|]); contradiction]).
    + apply (Permutation_trans (l' := [0; 2; 1])); [constructor|apply perm_skip; constructor].
    + constructor.
    + reflexivity.
Qed.
Example C53_completes_met : configured (lab false) /\ w_outsiders (lab false) = false /\ w_faults (lab false) = false /\
  (2 <= length (w_ids (lab false)))%nat /\ (exists s, nsteps (lab false) 0 net0 s) /\ exists k s, nsteps (lab false) k net0 s /\ wired (lab false) s.
Proof.
  split; [apply lab_configured|]. repeat (split; [reflexivity || (cbn; lia)|]). split; [eexists; constructor|].
  destruct (C53_completes (lab false) (lab_configured _) eq_refl eq_refl ltac:(cbn; lia) 0 net0 ltac:(constructor)) as (_ & _ & k & s & H & HW). eauto.
Qed.

(* one more step of a concrete run whose state is known by equations *)
Ltac look E0 E1 E2 C0 C1 C2 N :=
  unfold goto, goto_set; cbn [n_at n_conn n_next]; rewrite ?N; cbn; rewrite ?E0, ?E1, ?E2, ?C0, ?C1, ?C2; cbn; reflexivity.
Ltac hop0 X H k :=
  lazymatch type of H with nsteps _ _ _ ?s0 =>
  lazymatch goal with E0 : n_at s0 0 = _, E1 : n_at s0 1 = _, E2 : n_at s0 2 = _, C0 : n_conn s0 0%nat = _, C1 : n_conn s0 1%nat = _, C2 : n_conn s0 2%nat = _, N : n_next s0 = _ |- _ =>
    let G := fresh "G" in
    eassert (G : exists s', nsteps _ _ net0 s' /\ n_at s' 0 = _ /\ n_at s' 1 = _ /\ n_at s' 2 = _ /\ n_conn s' 0%nat = _ /\ n_conn s' 1%nat = _ /\ n_conn s' 2%nat = _ /\ n_next s' = _)
      by (eexists; split; [eapply nsteps_snoc; [exact H|eapply X; k E0 E1 E2 C0 C1 C2 N]|repeat (split; [look E0 E1 E2 C0 C1 C2 N|]); look E0 E1 E2 C0 C1 C2 N]);
    clear H E0 E1 E2 C0 C1 C2 N; destruct G as (? & ? & ? & ? & ? & ? & ? & ? & ?)
  end end.
Ltac known E0 E1 E2 C0 C1 C2 N :=
  first [ exact E0 | exact E1 | exact E2 | exact C0 | exact C1 | exact C2
        | solve [cbn; rewrite ?E0, ?E1, ?E2, ?C0, ?C1, ?C2, ?N; cbn; reflexivity]
        | solve [cbn; auto] | solve [cbn; lia] | solve [left; reflexivity] | solve [intro; discriminate] ].
Ltac hop X := lazymatch goal with H : nsteps _ _ net0 ?s |- _ => hop0 X H known end.
Ltac start_run w :=
  let H := fresh "H" in let E0 := fresh "E" in let E1 := fresh "E" in let E2 := fresh "E" in let C0 := fresh "C" in let C1 := fresh "C" in let C2 := fresh "C" in let N := fresh "N" in
  assert (H : nsteps w 0 net0 net0) by constructor;
  assert (E0 : n_at net0 0 = Down) by reflexivity; assert (E1 : n_at net0 1 = Down) by reflexivity; assert (E2 : n_at net0 2 = Down) by reflexivity;
  assert (C0 : n_conn net0 0%nat = blank) by reflexivity; assert (C1 : n_conn net0 1%nat = blank) by reflexivity; assert (C2 : n_conn net0 2%nat = blank) by reflexivity;
  assert (N : n_next net0 = 0%nat) by reflexivity; revert H E0 E1 E2 C0 C1 C2 N; generalize net0 at 2 3 4 5 6 7 8 9; intros ? H E0 E1 E2 C0 C1 C2 N.

(** A wrong configuration: party 2 has the addresses of parties 0 and 1 mixed up, and the certificates are
    all for the same name, so that TLS does not notice.  The hypotheses of C53_no_mixup hold; party 1 gets
    its channels, and party 2 notices that it talks to the wrong party. *)
Definition wrong_lab : world :=
  World [0; 1; 2] (fun p => if p =? 2 then [Entry 0 11 9; Entry 1 10 9; Entry 2 12 9] else [Entry 0 10 9; Entry 1 11 9; Entry 2 12 9])
    (fun a => if (10 <=? a) && (a <? 13) then Some (a - 10) else None)
    (fun p q s => s =? 9) false false false.
Example C53_no_mixup_met : distinct_ids wrong_lab /\ unsigned_conf wrong_lab /\ w_outsiders wrong_lab = false /\ ~ configured wrong_lab /\
  exists k s ch n, nsteps wrong_lab k net0 s /\ n_at s 1 = Ready ch /\ In (2, n) ch /\ n_at s 2 = Dead EPanic.
Proof.
  split; [|split; [|split; [reflexivity|split]]].
  - split; [cbn; repeat constructor; cbn; intuition discriminate|]. cbn. intros p H. lia.
  - intros p e H. cbn in H. destruct (p =? 2); cbn in H; repeat (destruct H as [<-|H]; [cbn; lia|]); contradiction.
  - intros [_ H]. destruct (H 2) as [_ H1]; [cbn; auto|]. destruct (H1 (Entry 0 11 9)) as [H2 _]; [cbn; auto|]. discriminate.
  - pose (w := wrong_lab). start_run w.
    hop (n_start w 0). hop (n_start w 1). hop (n_start w 2).
    hop (n_dial w 1). hop (n_greet w 1). hop (n_skip w 1).
    hop (n_dial w 2). hop (n_greet w 2). hop (n_dial w 2). hop (n_greet w 2). hop (n_skip w 2). hop (n_up w 2). hop (n_chans w 2). hop (n_open w 2).
    hop (n_skip w 0). hop (fun s e t m => n_accept w 0 s e t m 0). hop (n_hear w 0). hop (fun s e t m => n_accept w 0 s e t m 2). hop (n_hear w 0). hop (n_up w 0). hop (n_chans w 0).
    hop (fun s e t m => n_accept w 1 s e t m 1). hop (n_hear w 1). hop (n_up w 1). hop (n_chans w 1). hop (n_open w 1).
    hop (n_serve w 0). hop (n_reply w 1). hop (n_serve w 1). hop (n_ready w 1). hop (n_reply w 2).
    match goal with H : nsteps _ ?k _ ?s, E1 : n_at ?s 1 = Ready ?ch, E2 : n_at ?s 2 = _ |- _ => exists k, s, ch, 1%nat; rewrite E1, E2; split; [exact H|] end.
    split; [reflexivity|]. split; [cbn; auto|reflexivity].
Qed.

(** Only the servers are authenticated: clients show no certificate (with_no_client_auth, lib.rs:59) and
    are taken for whoever they say they are (lib.rs:128-135).  If strangers can reach the server's port,
    a complete configuration with valid certificates does not keep them out: party 0 ends up with a channel
    "to party 1" whose other end is a stranger. *)
Theorem C53_outsider_refuted : exists w k s ch n,
  configured w /\ w_faults w = false /\ nsteps w k net0 s /\ n_at s 0 = Ready ch /\ In (1, n) ch /\
  ~ In (c_client (n_conn s n)) (w_ids w).
Proof.
  pose (w := lab true).
  start_run w.
  hop (n_start w 0).
  hop (fun s => n_outsider w 0 7 s (Some 1) (Some 1)).
  hop (n_start w 2). hop (n_dial w 2). hop (n_greet w 2). hop (n_start w 1). hop (n_dial w 2). hop (n_greet w 2).
  hop (n_skip w 2). hop (n_up w 2). hop (n_chans w 2). hop (n_open w 2).
  hop (fun s e t m => n_accept w 0 s e t m 0). hop (n_hear w 0). hop (n_skip w 0).
  hop (fun s e t m => n_accept w 0 s e t m 1). hop (n_hear w 0). hop (n_up w 0). hop (n_chans w 0).
  hop (n_serve w 0). hop (n_serve w 0). hop (n_ready w 0).
  match goal with H : nsteps _ ?k _ ?s, E0 : n_at ?s 0 = Ready ?ch, C0 : n_conn ?s 0%nat = _ |- _ => exists w, k, s, ch, 0%nat; rewrite C0, E0; split; [apply lab_configured|]; split; [reflexivity|]; split; [exact H|] end.
  split; [reflexivity|]. split; [left; reflexivity|]. cbn. lia.
Qed.
Print Assumptions C53_outsider_refuted.
