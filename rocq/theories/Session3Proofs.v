(** What a successful Swift3 verification says about the other parties, one of which may be malicious. *)
From Verif Require Import Base Ring RingProofs Prog Sched Conc Rng Rel Net Aby3 ShareSpec Jmp JmpProofs Session SessionProofs Swift3 Session3.

Fixpoint pick {A} (p : list bool) (m : list A) : list A :=
  match p, m with
  | b :: p, x :: m => if b then x :: pick p m else pick p m
  | _, _ => []
  end.
Lemma pick_app {A} (p p' : list bool) (m m' : list A) : length p = length m -> pick (p ++ p') (m ++ m') = pick p m ++ pick p' m'.
Proof. revert m. induction p as [|b p IH]; intros [|x m] L; try discriminate; [reflexivity|]. cbn. injection L as L. rewrite (IH m L). destruct b; reflexivity. Qed.
Lemma pick_fill {A} (d : A) p : forall hs : list A, length hs = count_occ Bool.bool_dec p true -> exists m, length m = length p /\ pick p m = hs.
Proof.
  induction p as [|[|] p IH]; intros hs E; cbn in E.
  - destruct hs; [|discriminate]. exists []. auto.
  - destruct hs as [|h hs]; [discriminate|]. injection E as E. destruct (IH hs E) as (m & L & <-). exists (h :: m). cbn. rewrite L. auto.
  - destruct (IH hs E) as (m & L & <-). exists (d :: m). cbn. rewrite L. auto.
Qed.

Section S.
  Variables (G : rng) (H : hasher).
  Notation ST := (sst G).
  Notation hashes := (map (fun seg => hfun H (wire seg))).

  Definition rqueue (i k : pid) (s : ST) : list Z := if pid_eqb k (next i) then w_rp G s else w_rn G s.
  Definition squeue (j i : pid) (s : ST) : list Z := if pid_eqb i (next j) then w_sn G s else w_sp G s.

  Lemma got_app k l l' : got_from k (l ++ l') = got_from k l ++ got_from k l'.
  Proof. unfold got_from. rewrite filter_app, map_app. reflexivity. Qed.
  Lemma got_many k K from vs : got_from k (map (fun v => (from, (K, v))) vs) = if pid_eqb from k then map (pair K) vs else [].
  Proof. unfold got_from. induction vs as [|v vs IH]; cbn; [destruct (pid_eqb from k); reflexivity|]. destruct (pid_eqb from k) eqn:E; cbn; rewrite IH; reflexivity. Qed.
  Lemma vouched_count i ops : forall cur, length (vouched i ops cur) = count_occ Bool.bool_dec (sends_to i ops) true.
  Proof.
    induction ops as [|op ops IH]; intros cur; [reflexivity|]. destruct op; cbn; try apply IH.
    - destruct (pid_eqb to i); cbn; apply IH.
    - destruct (pid_eqb to i); cbn; apply IH.
    - f_equal. apply IH.
  Qed.

  (** ** Single operations that are not verifications *)
  Definition op_vouch (i : pid) (op : wop) : list (Z * Z) :=
    match op with WQueue K v to => if pid_eqb to i then [(K, v)] else [] | WQueueMany K vs to => if pid_eqb to i then map (pair K) vs else [] | _ => [] end.
  Definition op_ok {A} (i : pid) (op : wop) (p : M ST A) (g : A -> list (pid * (Z * Z))) : Prop :=
    forall (s : ST) tr q, lrun (p s) tr q ->
      (forall s1 v, q = Ret (s1, v) ->
         (forall j, length (rcvd_from j tr) = length (expects_from j [op])) /\
         (forall j, length (sent_to j tr) = length (sends_to j [op])) /\
         (forall k, k <> i -> rqueue i k s1 = rqueue i k s ++ wire (got_from k (g v))) /\
         (forall j, j <> i -> squeue i j s1 = squeue i j s ++ wire (op_vouch j op))) /\
      ((forall sv, q <> Ret sv) -> forall j, sent_to j tr = []).

  Lemma send_ok i K v to : op_ok i (WSend K v to) (w_send G K v to) (fun _ => []).
  Proof.
    intros s tr q L. unfold w_send, liftM, send_value in L. cbn in L. inversion L as [|? ? ? tr1 ? L1|]; subst.
    - split; [discriminate|reflexivity].
    - inversion L1; subst. split; [|intros N; destruct (N _ eq_refl)]. intros s1 u E. injection E as <- <-. cbn. unfold got_from. cbn.
      repeat split; intros; rewrite ?app_nil_r; try reflexivity. destruct (pid_eqb to j); reflexivity.
  Qed.
  Lemma send_many_ok i K vs to : op_ok i (WSendMany K vs to) (w_send_many G K vs to) (fun _ => []).
  Proof.
    intros s tr q L. unfold w_send_many, liftM, send_vec in L. cbn in L. inversion L as [|? ? ? tr1 ? L1|]; subst.
    - split; [discriminate|reflexivity].
    - inversion L1; subst. split; [|intros N; destruct (N _ eq_refl)]. intros s1 u E. injection E as <- <-. cbn. unfold got_from. cbn.
      repeat split; intros; rewrite ?app_nil_r; try reflexivity. destruct (pid_eqb to j); reflexivity.
  Qed.
  Lemma queue_many_ok i K vs to : op_ok i (WQueueMany K vs to) (w_queue_many G i K vs to) (fun _ => []).
  Proof.
    intros s tr q L. unfold w_queue_many, bindM, getM, putM, failM in L. cbn in L.
    assert (Q : tr = [] /\ ((exists s1, q = Ret (s1, tt) /\ forall k, k <> i -> rqueue i k s1 = rqueue i k s /\
                squeue i k s1 = squeue i k s ++ wire (if pid_eqb to k then map (pair K) vs else [])) \/ (forall sv, q <> Ret sv))).
    { destruct (pid_eqb to (next i)) eqn:E1; [|destruct (pid_eqb to (prev i)) eqn:E2]; inversion L; subst; (split; [reflexivity|]); [left; eexists; (split; [reflexivity|])..|right; discriminate].
      - intros k Hk. unfold rqueue, squeue. cbn. rewrite fold_add_to_bytes. destruct i, to, k; try discriminate; try congruence; cbn; rewrite ?app_nil_r; auto.
      - intros k Hk. unfold rqueue, squeue. cbn. rewrite fold_add_to_bytes. destruct i, to, k; try discriminate; try congruence; cbn; rewrite ?app_nil_r; auto. }
    destruct Q as [-> Q]. split; [|reflexivity]. intros s1 v ->. destruct Q as [(s2 & E & Q)|N]; [|destruct (N _ eq_refl)]. injection E as -> ->.
    repeat split; intros k Hk.
    - rewrite (proj1 (Q k Hk)). unfold got_from. cbn. rewrite app_nil_r. reflexivity.
    - apply (Q k Hk).
  Qed.
  Lemma queue_ok i K v to : op_ok i (WQueue K v to) (w_queue G i K v to) (fun _ => []).
  Proof.
    intros s tr q L. destruct (queue_many_ok i K [v] to s tr q L) as [Q1 Q2]. split; [|exact Q2]. intros s1 u E. destruct (Q1 s1 u E) as (A & B & C & D). auto.
  Qed.
  (** Common part of the two receive operations. *)
  Lemma received_ok i K vs from (s : ST) s1 u : w_received G i K vs from s = Ret (s1, u) -> forall k, k <> i ->
    rqueue i k s1 = rqueue i k s ++ wire (if pid_eqb from k then map (pair K) vs else []) /\ squeue i k s1 = squeue i k s.
  Proof.
    unfold w_received, bindM, getM, putM, failM. cbn. intros L k Hk.
    destruct (pid_eqb from (next i)) eqn:E1; [|destruct (pid_eqb from (prev i)) eqn:E2]; inversion L; subst;
      unfold rqueue, squeue; cbn; rewrite fold_add_to_bytes; destruct i, from, k; try discriminate; try congruence; cbn; rewrite ?app_nil_r; auto.
  Qed.
  Lemma received_flat i K vs from (s : ST) : (exists s1, w_received G i K vs from s = Ret (s1, tt)) \/ exists e, w_received G i K vs from s = Fail e.
  Proof. unfold w_received, bindM, getM, putM, failM. cbn. destruct (pid_eqb from (next i)); [eauto|]. destruct (pid_eqb from (prev i)); eauto. Qed.
  Lemma receive_ok i K from : op_ok i (WReceive K from) (w_receive G i K from) (fun v => [(from, (K, v))]).
  Proof.
    intros s tr q L. unfold w_receive, bindM at 1, liftM, receive_value in L. cbn [bind] in L.
    inversion L as [|? ? ? ? ? L1|from' k m tr1 q1 L1]; subst; [split; [discriminate|reflexivity]|]. cbn beta in L1.
    destruct (from_bytes K m) as [v|e]; cbn [of_res bind fst snd] in L1; [|inversion L1; subst; split; [discriminate|reflexivity]].
    unfold bindM in L1. destruct (received_flat i K [v] from s) as [(s1 & E)|(e & E)]; rewrite E in L1; cbn in L1; inversion L1; subst.
    - split; [|intros N; destruct (N _ eq_refl)]. intros s2 v2 E2. injection E2 as <- <-. pose proof (received_ok i K [v] from s s1 tt E) as R.
      split; [intros j; cbn; destruct (pid_eqb from j); reflexivity|]. split; [reflexivity|]. split; intros k' Hk.
      + rewrite (proj1 (R k' Hk)). unfold got_from. cbn [filter fst map snd]. destruct (pid_eqb from k'); reflexivity.
      + rewrite (proj2 (R k' Hk)). cbn. rewrite app_nil_r. reflexivity.
    - split; [discriminate|reflexivity].
  Qed.
  Lemma receive_many_ok i K n from : op_ok i (WReceiveMany K n from) (w_receive_many G i K from n) (fun vs => map (fun v => (from, (K, v))) vs).
  Proof.
    intros s tr q L. unfold w_receive_many, bindM at 1, liftM, receive_vec in L. cbn [bind] in L.
    inversion L as [|? ? ? ? ? L1|from' k m tr1 q1 L1]; subst; [split; [discriminate|reflexivity]|]. cbn beta in L1.
    destruct (ring_vec_from_bytes K m n) as [vs|e]; cbn [of_res bind fst snd] in L1; [|inversion L1; subst; split; [discriminate|reflexivity]].
    unfold bindM in L1. destruct (received_flat i K vs from s) as [(s1 & E)|(e & E)]; rewrite E in L1; cbn in L1; inversion L1; subst.
    - split; [|intros N; destruct (N _ eq_refl)]. intros s2 v2 E2. injection E2 as <- <-. pose proof (received_ok i K vs from s s1 tt E) as R.
      split; [intros j; cbn; destruct (pid_eqb from j); reflexivity|]. split; [reflexivity|]. split; intros k' Hk.
      + rewrite (proj1 (R k' Hk)), got_many. reflexivity.
      + rewrite (proj2 (R k' Hk)). cbn. rewrite app_nil_r. reflexivity.
    - split; [discriminate|reflexivity].
  Qed.

  (** ** Verification *)
  Definition third (i j : pid) : pid := if pid_eqb j (next i) then prev i else next i.
  Lemma verify_rcvd i j (s s1 : ST) tr u : j <> i -> lrun (w_verify G H i s) tr (Ret (s1, u)) ->
    rcvd_from j tr = [hfun H (rqueue i (third i j) s)] /\ w_rn G s1 = [] /\ w_rp G s1 = [].
  Proof.
    intros Hj L. unfold w_verify, bindM, liftM, getM, putM in L. cbn in L.
    inversion L as [|? ? ? tr1 ? L1|]; subst. inversion L1 as [|? ? ? tr2 ? L2|]; subst.
    inversion L2 as [| |? ? m tr3 ? L3]; subst. inversion L3 as [| |? ? m' tr4 ? L4]; subst. cbn in L4.
    destruct (bytes_eqb m (hfun H (w_rp G s))) eqn:E1; [|cbn in L4; inversion L4]. destruct (bytes_eqb m' (hfun H (w_rn G s))) eqn:E2; [|cbn in L4; inversion L4].
    cbn in L4. inversion L4; subst. apply bytes_eqb_spec in E1, E2. subst m m'. split; [|auto].
    unfold rqueue, third. destruct i, j; try congruence; reflexivity.
  Qed.
  Lemma verify_sent j i (s : ST) tr q : i <> j -> lrun (w_verify G H j s) tr q ->
    (forall s1 u, q = Ret (s1, u) -> sent_to i tr = [hfun H (squeue j i s)] /\ w_sn G s1 = [] /\ w_sp G s1 = []) /\
    (sent_to i tr = [] \/ sent_to i tr = [hfun H (squeue j i s)]).
  Proof.
    intros Hi L. unfold w_verify, bindM, liftM, getM, putM in L. cbn in L.
    inversion L as [|? ? ? tr1 ? L1|]; subst; [split; [discriminate|auto]|]. inversion L1 as [|? ? ? tr2 ? L2|]; subst.
    { split; [discriminate|]. unfold squeue. destruct i, j; try congruence; cbn; auto. }
    assert (E : sent_to i tr2 = [] /\ (forall s1 u, q = Ret (s1, u) -> w_sn G s1 = [] /\ w_sp G s1 = [])).
    { inversion L2 as [| |? ? m tr3 ? L3]; subst; [split; [reflexivity|discriminate]|]. inversion L3 as [| |? ? m' tr4 ? L4]; subst; [split; [reflexivity|discriminate]|]. cbn in L4.
      destruct (negb (bytes_eqb m (hfun H (w_rp G s))) || negb (bytes_eqb m' (hfun H (w_rn G s)))); cbn in L4; inversion L4; subst; (split; [reflexivity|]); [discriminate|].
      intros s1 u E. injection E as <- <-. auto. }
    destruct E as [E1 E2]. assert (E : sent_to i (ASend (next j) (hfun H (w_sn G s)) :: ASend (prev j) (hfun H (w_sp G s)) :: tr2) = [hfun H (squeue j i s)]).
    { unfold squeue. destruct i, j; try congruence; cbn in *; rewrite E1; reflexivity. }
    rewrite E. split; [|auto]. intros s1 u Q. split; [reflexivity|apply (E2 s1 u Q)].
  Qed.

  (** ** Sessions *)
  Lemma pick_none {A} op (m : list A) : forall j, op <> WVerify -> pick (expects_from j [op]) m = [] /\ pick (sends_to j [op]) m = [].
  Proof. intros j N. destruct op; cbn; try destruct (pid_eqb _ _); cbn; auto; try (destruct m; auto); congruence. Qed.
  Lemma expects_cons j op ops : expects_from j (op :: ops) = expects_from j [op] ++ expects_from j ops.
  Proof. unfold expects_from. cbn. rewrite app_nil_r. reflexivity. Qed.
  Lemma sends_cons j op ops : sends_to j (op :: ops) = sends_to j [op] ++ sends_to j ops.
  Proof. unfold sends_to. cbn. rewrite app_nil_r. reflexivity. Qed.
  Lemma vouched_cons j op ops cur : op <> WVerify -> vouched j (op :: ops) cur = vouched j ops (cur ++ op_vouch j op).
  Proof. intros N. destruct op; cbn; rewrite ?app_nil_r; try reflexivity; try congruence; destruct (pid_eqb to j); rewrite ?app_nil_r; reflexivity. Qed.

  Section Rcvd.
    Variables i j : pid.
    Hypothesis Hj : j <> i.
    Notation k := (third i j).
    Lemma third_ne : k <> i.
    Proof. unfold third. destruct i, j; cbn; congruence. Qed.
    Definition rcvd_ok (ops : list wop) : Prop := forall cur s tr s' log, rqueue i k s = wire (got_from k cur) ->
      lrun (session3 G H i ops cur s) tr (Ret (s', log)) ->
      length (rcvd_from j tr) = length (expects_from j ops) /\ pick (expects_from j ops) (rcvd_from j tr) = hashes (map (got_from k) log).
    Lemma rcvd_step {A} op ops (p : M ST A) g : op <> WVerify -> op_ok i op p g -> rcvd_ok ops ->
      forall cur s tr s' log, rqueue i k s = wire (got_from k cur) ->
      lrun (bindM p (fun v => session3 G H i ops (cur ++ g v)) s) tr (Ret (s', log)) ->
      length (rcvd_from j tr) = length (expects_from j (op :: ops)) /\ pick (expects_from j (op :: ops)) (rcvd_from j tr) = hashes (map (got_from k) log).
    Proof.
      intros N Hp IH cur s tr s' log Hc L. unfold bindM in L. apply lrun_bind in L. destruct L as (t1 & [s1 v] & t2 & L1 & L2 & ->). cbn [fst snd] in L2.
      destruct (proj1 (Hp s t1 _ L1) s1 v eq_refl) as (R1 & _ & R3 & _). specialize (R3 k third_ne).
      destruct (IH (cur ++ g v) s1 t2 s' log) as (I1 & I2); [rewrite R3, Hc, got_app, wire_app; reflexivity|exact L2|].
      rewrite rcvd_app, expects_cons, !app_length, R1, I1. split; [reflexivity|]. rewrite pick_app by (symmetry; apply R1).
      rewrite (proj1 (pick_none op (rcvd_from j t1) j N)). exact I2.
    Qed.
    Lemma rcvd_step0 {A} op ops (p : M ST A) : op <> WVerify -> op_ok i op p (fun _ => []) -> rcvd_ok ops ->
      forall cur s tr s' log, rqueue i k s = wire (got_from k cur) ->
      lrun (bindM p (fun _ => session3 G H i ops cur) s) tr (Ret (s', log)) ->
      length (rcvd_from j tr) = length (expects_from j (op :: ops)) /\ pick (expects_from j (op :: ops)) (rcvd_from j tr) = hashes (map (got_from k) log).
    Proof.
      intros N Hp IH cur s tr s' log Hc L. apply (rcvd_step op ops p (fun _ => []) N Hp IH cur s tr s' log Hc). rewrite app_nil_r. exact L.
    Qed.
    Lemma session_rcvd3 ops : rcvd_ok ops.
    Proof.
      induction ops as [|op ops IH].
      - intros cur s tr s' log Hc L. cbn in L. apply lrun_ret in L. destruct L as [-> E]. injection E as <- <-. auto.
      - destruct op; intros cur s tr s' log Hc L; cbn [session3] in L.
        + apply (rcvd_step0 (WSend K v to) _ _ ltac:(discriminate) (send_ok i K v to) IH _ _ _ _ _ Hc L).
        + apply (rcvd_step0 (WSendMany K vs to) _ _ ltac:(discriminate) (send_many_ok i K vs to) IH _ _ _ _ _ Hc L).
        + apply (rcvd_step0 (WQueue K v to) _ _ ltac:(discriminate) (queue_ok i K v to) IH _ _ _ _ _ Hc L).
        + apply (rcvd_step0 (WQueueMany K vs to) _ _ ltac:(discriminate) (queue_many_ok i K vs to) IH _ _ _ _ _ Hc L).
        + apply (rcvd_step (WReceive K from) _ _ _ ltac:(discriminate) (receive_ok i K from) IH _ _ _ _ _ Hc L).
        + apply (rcvd_step (WReceiveMany K n from) _ _ _ ltac:(discriminate) (receive_many_ok i K n from) IH _ _ _ _ _ Hc L).
        + unfold bindM at 1 in L. apply lrun_bind in L. destruct L as (t1 & [s1 u] & t2 & L1 & L2 & ->). cbn [fst snd] in L2.
          apply lrun_bind in L2. destruct L2 as (t3 & [s3 l] & t4 & L3 & L4 & ->). cbn [fst snd] in L4.
          apply lrun_ret in L4. destruct L4 as [-> E]. injection E as <- <-.
          destruct (verify_rcvd i j s s1 t1 u Hj L1) as (V1 & V2 & V3). destruct (IH [] s1 t3 s3 l) as (I1 & I2); [unfold rqueue; rewrite V2, V3; destruct (pid_eqb _ _); reflexivity|exact L3|].
          rewrite !rcvd_app, V1. cbn [rcvd_from]. rewrite app_nil_r. rewrite expects_cons. change (expects_from j [WVerify]) with [true]. cbn [app length pick map]. rewrite I1, I2, Hc. auto.
    Qed.
  End Rcvd.

  Section Sent.
    Variables j i : pid.
    Hypothesis Hi : i <> j.
    Definition sent_ok (ops : list wop) : Prop := forall vcur cur s tr p, squeue j i s = wire vcur ->
      lrun (session3 G H j ops cur s) tr p ->
      exists rest, length (sent_to i tr ++ rest) = length (sends_to i ops) /\ pick (sends_to i ops) (sent_to i tr ++ rest) = hashes (vouched i ops vcur).
    Lemma sent_none ops vcur : exists rest : list msg, length ([] ++ rest) = length (sends_to i ops) /\ pick (sends_to i ops) ([] ++ rest) = hashes (vouched i ops vcur).
    Proof. apply (pick_fill []). rewrite map_length. apply vouched_count. Qed.
    Lemma sent_step {A} op ops (p : M ST A) g : op <> WVerify -> op_ok j op p g -> sent_ok ops ->
      forall vcur cur s tr q, squeue j i s = wire vcur -> lrun (bindM p (fun v => session3 G H j ops (cur v)) s) tr q ->
      exists rest, length (sent_to i tr ++ rest) = length (sends_to i (op :: ops)) /\ pick (sends_to i (op :: ops)) (sent_to i tr ++ rest) = hashes (vouched i (op :: ops) vcur).
    Proof.
      intros N Hp IH vcur cur s tr q Hc L. unfold bindM in L. apply lrun_bind_any in L. destruct L as [(p' & L & E)|(t1 & [s1 v] & t2 & L1 & L2 & ->)].
      - destruct p' as [[s1 v]|e|to m p'|from k].
        + destruct (proj1 (Hp s tr _ L) s1 v eq_refl) as (_ & R2 & _ & R4). specialize (R4 i Hi). destruct (sent_none ops (vcur ++ op_vouch i op)) as (rest & I1 & I2). cbn [app] in I1, I2.
          exists rest. rewrite vouched_cons by exact N. rewrite sends_cons, !app_length, R2, I1. split; [reflexivity|]. rewrite pick_app by (symmetry; apply R2).
          rewrite (proj2 (pick_none op (sent_to i tr) i N)). exact I2.
        + rewrite (proj2 (Hp s tr _ L) (fun sv (E' : Fail e = Ret sv) => ltac:(discriminate E'))). apply sent_none.
        + rewrite (proj2 (Hp s tr _ L) (fun sv (E' : Send to m p' = Ret sv) => ltac:(discriminate E'))). apply sent_none.
        + rewrite (proj2 (Hp s tr _ L) (fun sv (E' : Recv from k = Ret sv) => ltac:(discriminate E'))). apply sent_none.
      - cbn [fst snd] in L2. destruct (proj1 (Hp s t1 _ L1) s1 v eq_refl) as (_ & R2 & _ & R4). specialize (R4 i Hi).
        destruct (IH (vcur ++ op_vouch i op) (cur v) s1 t2 q) as (rest & I1 & I2); [rewrite R4, Hc, wire_app; reflexivity|exact L2|].
        exists rest. rewrite vouched_cons by exact N. rewrite sent_app, sends_cons, <- app_assoc. rewrite (app_length (sent_to i t1)), (app_length (sends_to i [op])), R2, I1. split; [reflexivity|].
        rewrite pick_app by (symmetry; apply R2). rewrite (proj2 (pick_none op (sent_to i t1) i N)). exact I2.
    Qed.
    Lemma session_sent3 ops : sent_ok ops.
    Proof.
      induction ops as [|op ops IH].
      - intros vcur cur s tr p Hc L. cbn in L. inversion L; subst. exists []. auto.
      - destruct op; intros vcur cur s tr q Hc L; cbn [session3] in L.
        + apply (sent_step (WSend K v to) _ _ _ ltac:(discriminate) (send_ok j K v to) IH _ _ _ _ _ Hc L).
        + apply (sent_step (WSendMany K vs to) _ _ _ ltac:(discriminate) (send_many_ok j K vs to) IH _ _ _ _ _ Hc L).
        + apply (sent_step (WQueue K v to) _ _ _ ltac:(discriminate) (queue_ok j K v to) IH _ _ _ _ _ Hc L).
        + apply (sent_step (WQueueMany K vs to) _ _ _ ltac:(discriminate) (queue_many_ok j K vs to) IH _ _ _ _ _ Hc L).
        + apply (sent_step (WReceive K from) _ _ _ ltac:(discriminate) (receive_ok j K from) IH _ _ _ _ _ Hc L).
        + apply (sent_step (WReceiveMany K n from) _ _ _ ltac:(discriminate) (receive_many_ok j K n from) IH _ _ _ _ _ Hc L).
        + unfold bindM at 1 in L. apply lrun_bind_any in L. rewrite sends_cons; change (sends_to i [WVerify]) with [true]; cbn [vouched]. destruct (sent_none ops []) as (rest0 & F1 & F2). cbn [app] in F1, F2.
          destruct L as [(p' & L & _)|(t1 & [s1 u] & t2 & L1 & L2 & ->)].
          * destruct (proj2 (verify_sent j i s tr p' Hi L)) as [E|E]; rewrite E.
            { exists (hfun H (wire vcur) :: rest0). cbn [app length pick map]. rewrite F1, F2. auto. }
            { exists rest0. cbn [app length pick map]. rewrite F1, F2, Hc. auto. }
          * cbn [fst snd] in L2. destruct (proj1 (verify_sent j i s t1 _ Hi L1) s1 u eq_refl) as (V1 & V2 & V3).
            assert (Q : squeue j i s1 = wire []) by (unfold squeue; rewrite V2, V3; destruct (pid_eqb _ _); reflexivity).
            apply lrun_bind_any in L2. destruct L2 as [(p' & L & _)|(t3 & [s3 l] & t4 & L3 & L4 & ->)].
            -- destruct (IH [] [] s1 _ _ Q L) as (rest & I1 & I2). exists rest. rewrite sent_app, V1, Hc. cbn [app length pick map]. rewrite I1, I2. auto.
            -- destruct (IH [] [] s1 _ _ Q L3) as (rest & I1 & I2). exists rest. rewrite !sent_app, V1, Hc. cbn [fst snd] in L4. inversion L4; subst. cbn [sent_to]. rewrite app_nil_r. cbn [app length pick map]. rewrite I1, I2. auto.
    Qed.
  End Sent.

  (** i and j run sessions; the third party runs anything. *)
  Theorem session3_detect (P : pid -> prog (ST * list (list (pid * (Z * Z))))) i j k opsi opsj (si sj : ST) more sched c si' log :
    i <> j -> k <> i -> k <> j ->
    w_rn G si = [] -> w_rp G si = [] -> w_sn G sj = [] -> w_sp G sj = [] ->
    sends_to i opsj = expects_from j opsi ++ more ->
    P i = session3 G H i opsi [] si -> P j = session3 G H j opsj [] sj ->
    steps sched (start P) c -> get (progs c) i = Ret (si', log) ->
    forall n seg, nth_error log n = Some seg ->
      exists buf, nth_error (vouched i opsj []) n = Some buf /\ (wire (got_from k seg) = wire buf \/ collision H (wire (got_from k seg)) (wire buf)).
  Proof.
    intros Hij Hki Hkj I1 I2 J1 J2 HE Ei Ej Hst Hret n seg Hn. destruct (project P sched c Hst) as (tr & L & Q).
    assert (Ek : k = third i j) by (unfold third; destruct i, j, k; try reflexivity; congruence).
    pose proof (L i) as Li. rewrite Ei, Hret in Li.
    assert (Qi : rqueue i (third i j) si = wire (got_from (third i j) [])) by (unfold rqueue; rewrite I1, I2; destruct (pid_eqb _ _); reflexivity).
    destruct (session_rcvd3 i j ltac:(congruence) opsi [] si _ _ _ Qi Li) as (R1 & R2).
    pose proof (L j) as Lj. rewrite Ej in Lj.
    assert (Qj : squeue j i sj = wire []) by (unfold squeue; rewrite J1, J2; destruct (pid_eqb _ _); reflexivity).
    destruct (session_sent3 j i Hij opsj [] [] sj _ _ Qj Lj) as (rest & S1 & S2).
    rewrite <- (Q j i), HE, <- app_assoc in S2. rewrite pick_app, R2 in S2 by (symmetry; exact R1). rewrite <- Ek in S2.
    assert (E : nth_error (hashes (vouched i opsj [])) n = Some (hfun H (wire (got_from k seg)))).
    { rewrite <- S2, nth_error_app1; [|rewrite !map_length; apply nth_error_Some; congruence]. rewrite map_map. apply (map_nth_error (fun seg => hfun H (wire (got_from k seg))) n log Hn). }
    rewrite nth_error_map in E. destruct (nth_error (vouched i opsj []) n) as [buf|]; [|discriminate]. injection E as E.
    exists buf. split; [reflexivity|]. destruct (list_eq_dec Z.eq_dec (wire (got_from k seg)) (wire buf)) as [?|Hne]; [left; assumption|right]. split; [exact Hne|congruence].
  Qed.
End S.
