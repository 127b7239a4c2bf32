From Coq Require Import ZifyBool ZifyNat Permutation Sorted.
From Verif Require Import Base Ring RingProofs Prog Channel.

(** ** Framing *)
Lemma frame_length m : length (frame m) = (4 + length m)%nat.
Proof. unfold frame. rewrite app_length, to_be_length. reflexivity. Qed.
Lemma app_split_len {A} (a b c d : list A) : length a = length b -> a ++ c = b ++ d -> a = b /\ c = d.
Proof.
  revert b. induction a as [|x a IH]; intros [|y b] L E; cbn in *; try discriminate; [split; [reflexivity|exact E]|].
  injection E as -> E. destruct (IH b ltac:(lia) E) as [-> ->]. split; reflexivity.
Qed.
Lemma decode_frame m X Y buf : fits m = true -> frame m ++ X = buf ++ Y ->
  (decode buf = None /\ (length buf < 4 + length m)%nat) \/ exists rest, decode buf = Some (m, rest) /\ X = rest ++ Y.
Proof.
  intros Hf E. unfold decode. destruct (Nat.ltb_spec (length buf) 4) as [L|L]; [left; split; [reflexivity|lia]|].
  assert (E1 : to_be 4 (Z.of_nat (length m)) = firstn 4 buf /\ m ++ X = skipn 4 buf ++ Y).
  { apply app_split_len; [rewrite to_be_length, firstn_length; lia|]. rewrite !app_assoc, firstn_skipn. exact E. }
  destruct E1 as [E1 E2]. symmetry in E1.
  rewrite E1, of_be_to_be. unfold fits, max_frame in Hf. apply Z.leb_le in Hf.
  rewrite Z.mod_small by (cbn; lia). rewrite Nat2Z.id.
  destruct (Nat.ltb_spec (length (skipn 4 buf)) (length m)) as [L2|L2].
  - left. split; [reflexivity|]. rewrite skipn_length in L2. lia.
  - right. exists (skipn (length m) (skipn 4 buf)). set (b := skipn 4 buf) in *. clearbody b.
    assert (E3 : m = firstn (length m) b /\ X = skipn (length m) b ++ Y).
    { apply app_split_len; [rewrite firstn_length; lia|]. rewrite app_assoc, firstn_skipn. exact E2. }
    destruct E3 as [E3 E4]. split; [rewrite <- E3; reflexivity|exact E4].
Qed.

(** ** Invariant: with T the messages taken by the writer and P those of them not yet received *)
Definition oks (l : list (nat * option msg)) : list msg := flat_map (fun r => match snd r with Some m => [m] | None => [] end) l.
Lemma oks_app a b : oks (a ++ b) = oks a ++ oks b.
Proof. apply flat_map_app. Qed.
Definition pend (c : chan) : list Z := match c_wcur c with Some (_, bs) => bs | None => [] end.
Definition ids {A} (l : list (nat * A)) : list nat := map fst l.
Definition cur_id {A} (o : option (nat * A)) : list nat := match o with Some (n, _) => [n] | None => [] end.
Definition rcur_id (o : option nat) : list nat := match o with Some n => [n] | None => [] end.

Record inv (sent : list msg) (c : chan) : Prop := {
  i_wids : ids (c_wret c) ++ cur_id (c_wcur c) ++ ids (c_wq c) = seq 0 (length sent);
  i_wsub : c_wsub c = length sent;
  i_rids : ids (c_rret c) ++ rcur_id (c_rcur c) ++ c_rq c = seq 0 (c_rsub c);
  i_data : exists T P, sent = T ++ map snd (c_wq c) /\ filter fits T = oks (c_rret c) ++ P /\
     (if c_alive c then concat (map frame P) = c_buf c ++ c_net c ++ pend c else exists lost, concat (map frame P) = c_buf c ++ lost);
  i_alive : c_alive c = true -> Forall (fun r => snd r <> None) (c_rret c);
  i_dead : exists a n, map snd (c_rret c) = map Some a ++ repeat None n /\ (n <> 0%nat -> decode (c_buf c) = None /\ c_alive c = false)
}.

Lemma Forall_fits T : Forall (fun m => fits m = true) (filter fits T).
Proof. apply Forall_forall. intros x Hx. apply filter_In in Hx. apply Hx. Qed.

Lemma inv_move sent mv c c' : inv sent c -> cmove mv c c' -> inv (sent ++ submitted [mv]) c'.
Proof.
  intros [W1 W2 R1 (T & P & D1 & D2 & D3) A (a & n & B1 & B2)] M. inversion M; subst mv c c'; cbn [c_wsub c_wq c_wcur c_wret c_net c_buf c_rsub c_rq c_rcur c_rret c_alive] in *;
    cbn [submitted]; rewrite ?app_nil_r.
  - (* send *) constructor; cbn [c_wsub c_wq c_wcur c_wret c_net c_buf c_rsub c_rq c_rcur c_rret c_alive]; auto.
    + rewrite app_length, seq_app. cbn. rewrite <- W1, W2. unfold ids. rewrite map_app. cbn. rewrite <- !app_assoc. reflexivity.
    + rewrite app_length. cbn. lia.
    + exists T, P. split; [rewrite D1, map_app, <- app_assoc; reflexivity|]. split; [exact D2|exact D3].
    + exists a, n. auto.
  - (* recv *) constructor; cbn [c_wsub c_wq c_wcur c_wret c_net c_buf c_rsub c_rq c_rcur c_rret c_alive]; auto.
    + rewrite seq_S. cbn. rewrite <- R1. rewrite <- !app_assoc. reflexivity.
    + exists T, P. auto.
    + exists a, n. auto.
  - (* take *) cbn [ids map fst cur_id app] in W1. fold (@ids msg) in W1. destruct (fits m) eqn:F; constructor; cbn [c_wsub c_wq c_wcur c_wret c_net c_buf c_rsub c_rq c_rcur c_rret c_alive cur_id app]; auto.
    + exists (T ++ [m]), (P ++ [m]). cbn [map snd] in *. rewrite <- app_assoc. split; [exact D1|]. rewrite filter_app. cbn [filter]. rewrite F, D2, <- app_assoc. split; [reflexivity|].
      rewrite map_app, concat_app. cbn [map concat]. rewrite app_nil_r. destruct al; cbn [pend c_wcur] in *.
      * rewrite D3, app_nil_r, <- !app_assoc. reflexivity.
      * destruct D3 as [lost D3]. exists (lost ++ frame m). rewrite D3, app_assoc. reflexivity.
    + exists a, n. auto.
    + unfold ids in *. rewrite map_app. cbn. rewrite <- app_assoc. exact W1.
    + exists (T ++ [m]), P. cbn [map snd] in *. rewrite <- app_assoc. split; [exact D1|]. rewrite filter_app. cbn [filter]. rewrite F, app_nil_r. split; [exact D2|exact D3].
    + exists a, n. auto.
  - (* write *) constructor; cbn [c_wsub c_wq c_wcur c_wret c_net c_buf c_rsub c_rq c_rcur c_rret c_alive cur_id app]; auto.
    + exists T, P. split; [exact D1|]. split; [exact D2|]. cbn [pend c_wcur] in *. rewrite <- app_assoc. exact D3.
    + exists a, n. auto.
  - (* done *) constructor; cbn [c_wsub c_wq c_wcur c_wret c_net c_buf c_rsub c_rq c_rcur c_rret c_alive cur_id app] in *; auto.
    + unfold ids in *. rewrite map_app. cbn. rewrite <- app_assoc. exact W1.
    + exists T, P. split; [exact D1|]. split; [exact D2|]. cbn [pend c_wcur] in *. exact D3.
    + exists a, n. auto.
  - (* deliver *) constructor; cbn [c_wsub c_wq c_wcur c_wret c_net c_buf c_rsub c_rq c_rcur c_rret c_alive cur_id app] in *; auto.
    + exists T, P. split; [exact D1|]. split; [exact D2|]. unfold pend in *. cbn [c_wcur] in *. rewrite <- app_assoc. exact D3.
    + exists a, n. split; [exact B1|]. intros Hn. destruct (B2 Hn). discriminate.
  - (* take read *) constructor; cbn [c_wsub c_wq c_wcur c_wret c_net c_buf c_rsub c_rq c_rcur c_rret c_alive cur_id rcur_id app] in *; auto.
    + exists T, P. auto.
    + exists a, n. auto.
  - (* read *) assert (n = 0%nat) as -> by (destruct n; [reflexivity|]; destruct (B2 ltac:(lia)); congruence).
    assert (exists Y, concat (map frame P) = bf ++ Y) as [Y EY].
    { destruct al; [eexists; exact D3|destruct D3 as [l D3]; exists l; exact D3]. }
    pose proof (Forall_fits T) as FT. rewrite D2 in FT. apply Forall_app in FT. destruct FT as [_ FP].
    assert (exists P', P = m :: P') as [P' ->].
    { destruct P as [|m0 P']; cbn [map concat] in EY.
      - symmetry in EY. apply app_eq_nil in EY. destruct EY as [-> _]. discriminate.
      - inversion FP as [|? ? F0 FP']; subst. destruct (decode_frame _ _ _ _ F0 EY) as [[N _]|(r0 & N & _)]; [congruence|]. rewrite N in H. injection H as -> ->. eauto. }
    cbn [map concat] in *. pose proof (Forall_inv FP) as F0.
    constructor; cbn [c_wsub c_wq c_wcur c_wret c_net c_buf c_rsub c_rq c_rcur c_rret c_alive cur_id rcur_id app] in *; auto.
    + unfold ids in *. rewrite map_app. cbn. rewrite <- app_assoc. exact R1.
    + exists T, P'. split; [exact D1|]. rewrite oks_app. cbn. rewrite <- app_assoc. split; [exact D2|].
      destruct al.
      * destruct (decode_frame _ _ _ _ F0 D3) as [[N _]|(r0 & N & E)]; [congruence|]. rewrite N in H. injection H as <-. exact E.
      * destruct D3 as [l D3]. destruct (decode_frame _ _ _ _ F0 D3) as [[N _]|(r0 & N & E)]; [congruence|]. rewrite N in H. injection H as <-. exists l. exact E.
    + intros Ha. apply Forall_app. split; [exact (A Ha)|]. constructor; [cbn; discriminate|constructor].
    + exists (a ++ [m]), 0%nat. cbn [repeat] in *. rewrite app_nil_r in *. rewrite !map_app, B1. cbn. split; [reflexivity|]. intros []. reflexivity.
  - (* cut *) constructor; cbn [c_wsub c_wq c_wcur c_wret c_net c_buf c_rsub c_rq c_rcur c_rret c_alive cur_id rcur_id app] in *; auto; try discriminate.
    + exists T, P. split; [exact D1|]. split; [exact D2|]. eexists. exact D3.
    + exists a, n. split; [exact B1|]. intros Hn. destruct (B2 Hn). discriminate.
  - (* fail write *) constructor; cbn [c_wsub c_wq c_wcur c_wret c_net c_buf c_rsub c_rq c_rcur c_rret c_alive cur_id rcur_id app] in *; auto.
    + unfold ids in *. rewrite map_app. cbn. rewrite <- app_assoc. exact W1.
    + exists T, P. split; [exact D1|]. split; [exact D2|]. exact D3.
    + exists a, n. auto.
  - (* fail read *) constructor; cbn [c_wsub c_wq c_wcur c_wret c_net c_buf c_rsub c_rq c_rcur c_rret c_alive cur_id rcur_id app] in *; auto; try discriminate.
    + unfold ids in *. rewrite map_app. cbn. rewrite <- app_assoc. exact R1.
    + exists T, P. split; [exact D1|]. rewrite oks_app. cbn. rewrite app_nil_r. split; [exact D2|exact D3].
    + exists a, (n + 1)%nat. rewrite map_app, B1, repeat_app, <- app_assoc. cbn. auto.
Qed.

Lemma submitted_app a b : submitted (a ++ b) = submitted a ++ submitted b.
Proof. induction a as [|[]]; cbn; try assumption; [reflexivity|]. f_equal. assumption. Qed.
Lemma inv_reach ms c : moves ms chan0 c -> inv (submitted ms) c.
Proof.
  intros M. remember chan0 as c0 eqn:E. induction M as [c0|ms m c0 c' c'' M IH S]; subst.
  - constructor; cbn; auto; [exists [], []; auto|exists [], 0%nat; split; [reflexivity|intros []; reflexivity]].
  - rewrite submitted_app. eapply inv_move; [apply IH; reflexivity|exact S].
Qed.

(** The results of recv calls, in the order of the calls: a prefix of the (sendable) messages, then
    errors. *)
Lemma chan_order ms c : moves ms chan0 c ->
  exists a n, c_rret c = combine (seq 0 (length a + n)) (map Some a ++ repeat None n) /\
    (exists rest, filter fits (submitted ms) = a ++ rest) /\ (n <> 0%nat -> c_alive c = false).
Proof.
  intros M. destruct (inv_reach _ _ M) as [W1 W2 R1 (T & P & D1 & D2 & D3) A (a & n & B1 & B2)].
  exists a, n. split; [|split].
  - assert (L : length (c_rret c) = (length a + n)%nat) by (rewrite <- (map_length snd), B1, app_length, map_length, repeat_length; reflexivity).
    rewrite <- B1. assert (ids (c_rret c) = seq 0 (length a + n)).
    { apply (f_equal (firstn (length (c_rret c)))) in R1. unfold ids in *. rewrite firstn_app, firstn_all2, map_length, Nat.sub_diag in R1 by (rewrite map_length; lia).
      cbn [firstn] in R1. rewrite app_nil_r in R1. rewrite R1, L.
      assert (Hle : (length a + n <= c_rsub c)%nat).
      { apply (f_equal (@length nat)) in R1. rewrite map_length, firstn_length, seq_length in R1. lia. }
      replace (c_rsub c) with ((length a + n) + (c_rsub c - (length a + n)))%nat by lia. rewrite seq_app, firstn_app, firstn_all2, seq_length, Nat.sub_diag by (rewrite seq_length; lia).
      cbn [firstn]. rewrite app_nil_r. reflexivity. }
    rewrite <- H. unfold ids. clear. induction (c_rret c) as [|[x y] l IH]; cbn; [reflexivity|]. congruence.
  - exists (P ++ filter fits (map snd (c_wq c))). rewrite D1, filter_app, D2, <- app_assoc. f_equal.
    unfold oks. rewrite flat_map_concat_map. rewrite <- (map_map snd (fun o => match o with Some m => [m] | None => [] end)), B1, map_app, concat_app, map_map.
    replace (concat (map (fun x : msg => [x]) a)) with a by (clear; induction a; cbn; congruence).
    replace (concat (map _ (repeat None n))) with (@nil msg) by (clear; induction n; cbn; auto). apply app_nil_r.
  - intros Hn. apply (B2 Hn).
Qed.

(** Nothing the tasks or the network could do is left. *)
Definition quiet (c : chan) : Prop := forall mv c', cmove mv c c' -> mv = MRecv \/ mv = MCut \/ exists m, mv = MSend m.
Lemma chan_progress ms c : moves ms chan0 c -> c_alive c = true -> quiet c ->
  length (c_rret c) = Nat.min (length (filter fits (submitted ms))) (c_rsub c) /\ length (c_wret c) = length (submitted ms).
Proof.
  intros M HA Q. destruct (inv_reach _ _ M) as [W1 W2 R1 (T & P & D1 & D2 & D3) A (a & n & B1 & B2)]. rewrite HA in D3.
  destruct c as [ws wq wc wr nt bf rs rq rc rr al]. cbn [c_wsub c_wq c_wcur c_wret c_net c_buf c_rsub c_rq c_rcur c_rret c_alive] in *. subst al.
  assert (wc = None) as ->.
  { destruct wc as [[k bs]|]; [|reflexivity]. destruct bs as [|b bs].
    - edestruct (Q MDoneW) as [E|[E|[? E]]]; [constructor|discriminate..].
    - edestruct (Q MWrite) as [E|[E|[? E]]]; [constructor|discriminate..]. }
  assert (wq = []) as ->.
  { destruct wq as [|[k m] wq]; [reflexivity|]. edestruct (Q MTakeW) as [E|[E|[? E]]]; [constructor|discriminate..]. }
  assert (nt = []) as ->.
  { destruct nt as [|b nt]; [reflexivity|]. edestruct (Q MDeliver) as [E|[E|[? E]]]; [constructor|discriminate..]. }
  cbn [pend c_wcur app cur_id ids map] in *. rewrite !app_nil_r in *.
  assert (LW : length wr = length (submitted ms)) by (apply (f_equal (@length nat)) in W1; unfold ids in W1; rewrite map_length, seq_length in W1; exact W1).
  assert (OK : length (oks rr) = length rr).
  { clear -A. specialize (A eq_refl). induction A as [|[k [m|]] l H _ IH]; cbn in *; [reflexivity| |congruence]. f_equal. exact IH. }
  assert (LT : length (filter fits (submitted ms)) = (length rr + length P)%nat) by (rewrite D1, D2, app_length, OK; reflexivity).
  assert (LR : (length rr + length (rcur_id rc) + length rq = rs)%nat).
  { apply (f_equal (@length nat)) in R1. unfold ids in R1. rewrite !app_length, map_length, seq_length in R1. lia. }
  split; [|exact LW]. rewrite LT.
  destruct rc as [r|].
  - cbn [rcur_id length] in LR. destruct P as [|m P']; [cbn; lia|]. exfalso.
    pose proof (Forall_fits T) as FT. rewrite D2 in FT. apply Forall_app in FT. destruct FT as [_ FP]. pose proof (Forall_inv FP) as F0.
    cbn [map concat] in D3. rewrite <- (app_nil_r bf) in D3. destruct (decode_frame _ _ _ _ F0 D3) as [[N L]|(r0 & N & E)].
    + apply (f_equal (@length Z)) in D3. rewrite !app_length, frame_length in D3. cbn [length] in D3. lia.
    + edestruct (Q MDoneR) as [E'|[E'|[? E']]]; [apply (mv_doner _ _ _ _ _ _ _ _ _ _ _ _ _ N)|discriminate..].
  - destruct rq as [|r rq]; [|edestruct (Q MTakeR) as [E'|[E'|[? E']]]; [constructor|discriminate..]]. cbn [rcur_id length] in LR. lia.
Qed.

(** ** Configuration *)
Lemma insert_perm x l : Permutation (insert x l) (x :: l).
Proof. induction l as [|y l IH]; cbn; [reflexivity|]. destruct (x <=? y); [reflexivity|]. rewrite IH. apply perm_swap. Qed.
Lemma sort_perm l : Permutation (sort l) l.
Proof. induction l as [|x l IH]; cbn; [constructor|]. rewrite insert_perm. constructor. exact IH. Qed.
Lemma insert_sorted x l : Sorted Z.le l -> Sorted Z.le (insert x l).
Proof.
  induction 1 as [|y l HS IH HR]; cbn; [repeat constructor|]. destruct (Z.leb_spec x y); [constructor; [constructor; assumption|constructor; assumption]|].
  constructor; [exact IH|]. destruct l as [|z l]; cbn; [constructor; lia|]. destruct (x <=? z); constructor; [lia|]. inversion HR; assumption.
Qed.
Lemma sort_sorted l : Sorted Z.le (sort l).
Proof. induction l; cbn; [constructor|apply insert_sorted; assumption]. Qed.
Lemma dedup_le l : (length (dedup l) <= length l)%nat.
Proof. induction l as [|x [|y l] IH]; cbn [dedup length] in *; [lia..|]. destruct (x =? y); cbn [length] in *; lia. Qed.
Lemma dedup_nodup l : Sorted Z.le l -> (length (dedup l) = length l <-> NoDup l).
Proof.
  intros HS. apply Sorted_StronglySorted in HS; [|intros ? ? ?; lia]. induction HS as [|x l HS IH HF]; [split; [constructor|reflexivity]|].
  destruct l as [|y l]; [split; [repeat constructor; intros []|reflexivity]|].
  change (dedup (x :: y :: l)) with (if x =? y then dedup (y :: l) else x :: dedup (y :: l)). pose proof (dedup_le (y :: l)) as L. destruct (Z.eqb_spec x y) as [->|Hn].
  - cbn [length] in *. split; [intros E; lia|]. intros ND. inversion ND as [|? ? Hx _]; subst. destruct Hx. left. reflexivity.
  - rewrite NoDup_cons_iff, <- IH. cbn [length]. split; [|intros [_ E]; f_equal; exact E]. intros E. split; [|cbn [length]; lia].
    inversion HS as [|? ? HS' HF']; subst. rewrite Forall_forall in HF, HF'. intros [->|Hin]; [congruence|].
    specialize (HF y (or_introl eq_refl)). specialize (HF' x Hin). lia.
Qed.
Lemma check_config_spec my ids : check_config my ids = Ok tt <-> In my ids /\ NoDup ids.
Proof.
  unfold check_config. destruct (find (fun p => p =? my) ids) as [p|] eqn:F.
  - apply find_some in F. destruct F as [Hin Hp]. apply Z.eqb_eq in Hp. subst p.
    assert (E : length (dedup (Channel.sort ids)) = length ids <-> NoDup ids).
    { rewrite <- (Permutation_length (sort_perm ids)). rewrite (dedup_nodup _ (sort_sorted ids)). split; intros ND; (eapply Permutation_NoDup; [|exact ND]); [apply sort_perm|symmetry; apply sort_perm]. }
    destruct (Nat.eqb_spec (length (dedup (Channel.sort ids))) (length ids)) as [E1|E1]; cbn [negb].
    + split; [intros _; split; [exact Hin|apply E, E1]|reflexivity].
    + split; [discriminate|]. intros [_ ND]. apply E in ND. contradiction.
  - split; [discriminate|]. intros [Hin _]. apply (find_none _ _ F) in Hin. rewrite Z.eqb_refl in Hin. discriminate.
Qed.
Lemma network_new_spec my ids i : network_new my ids = Ok i <-> my = pid_num i /\ Permutation ids [0; 1; 2].
Proof.
  assert (PI : forall z k, pid_of z = Ok k <-> z = pid_num k).
  { intros z k. unfold pid_of. destruct (Z.eqb_spec z 0) as [->|]; [split; [intros E; injection E as <-; reflexivity|destruct k; cbn; congruence]|].
    destruct (Z.eqb_spec z 1) as [->|]; [split; [intros E; injection E as <-; reflexivity|destruct k; cbn; congruence]|].
    destruct (Z.eqb_spec z 2) as [->|]; [split; [intros E; injection E as <-; reflexivity|destruct k; cbn; congruence]|].
    split; [discriminate|destruct k; cbn; congruence]. }
  unfold network_new. split.
  - destruct (pid_of my) as [k|] eqn:E; [|discriminate]. cbn [rbind]. apply PI in E. subst my.
    destruct (Nat.eqb_spec (length ids) 3) as [L|]; [|discriminate]. cbn [negb].
    destruct (check_config (pid_num k) ids) as [[]|] eqn:C; [|discriminate]. apply check_config_spec in C. destruct C as [Hin ND]. cbn [rbind].
    destruct (existsb _ (filter _ ids)) eqn:X1; [|discriminate]. destruct (existsb _ (filter _ (filter _ ids))) eqn:X2; [|discriminate].
    intros E. injection E as <-. split; [reflexivity|].
    apply existsb_exists in X1, X2. destruct X1 as (n & N1 & N2). destruct X2 as (p & Q1 & Q2). apply Z.eqb_eq in N2, Q2. subst n p.
    apply filter_In in N1. destruct N1 as [N1 _]. apply filter_In in Q1. destruct Q1 as [Q1 _]. apply filter_In in Q1. destruct Q1 as [Q1 _].
    assert (P2 : Permutation [pid_num k; pid_num (next k); pid_num (prev k)] [0; 1; 2]).
    { destruct k; cbn; [reflexivity|apply (Permutation_app_comm [1;2] [0])|apply (Permutation_app_comm [2] [0;1])]. }
    rewrite <- P2. symmetry. apply NoDup_Permutation_bis; [|cbn; lia|].
    + destruct k; cbn; repeat constructor; cbn; intuition discriminate.
    + intros z [<-|[<-|[<-|[]]]]; assumption.
  - intros [-> HP]. replace (pid_of (pid_num i)) with (Ok i) by (symmetry; apply PI; reflexivity). cbn [rbind].
    rewrite (Permutation_length HP). cbn [length Nat.eqb negb].
    assert (C : check_config (pid_num i) ids = Ok tt).
    { apply check_config_spec. split; [eapply Permutation_in; [symmetry; exact HP|]; destruct i; cbn; auto|].
      eapply Permutation_NoDup; [symmetry; exact HP|]. repeat constructor; cbn; intuition discriminate. }
    rewrite C. cbn [rbind].
    assert (I : forall k, In (pid_num k) ids) by (intros k; eapply Permutation_in; [symmetry; exact HP|]; destruct k; cbn; auto).
    replace (existsb _ (filter _ ids)) with true
      by (symmetry; apply existsb_exists; exists (pid_num (next i)); split; [apply filter_In; split; [apply I|destruct i; reflexivity]|apply Z.eqb_refl]).
    replace (existsb _ (filter _ (filter _ ids))) with true
      by (symmetry; apply existsb_exists; exists (pid_num (prev i)); split; [apply filter_In; split; [apply filter_In; split; [apply I|destruct i; reflexivity]|destruct i; reflexivity]|apply Z.eqb_refl]).
    reflexivity.
Qed.

(** ** Termination: the tasks and the network cannot move forever without new calls *)
Definition work (c : chan) : nat :=
  list_sum (map (fun j => 2 + 2 * (4 + length (snd j)))%nat (c_wq c))
  + match c_wcur c with Some (_, bs) => (1 + 2 * length bs)%nat | None => 0%nat end
  + length (c_net c) + 2 * length (c_rq c) + match c_rcur c with Some _ => 1%nat | None => 0%nat end.
Lemma work_move mv c c' : cmove mv c c' -> mv <> MRecv -> (forall m, mv <> MSend m) -> mv <> MCut -> (work c' < work c)%nat.
Proof.
  intros M N1 N2 N3. inversion M; subst; try congruence; unfold work; cbn [c_wsub c_wq c_wcur c_wret c_net c_buf c_rsub c_rq c_rcur c_rret c_alive]; cbn [map list_sum fold_right length snd]; rewrite ?app_length; cbn [length]; try lia.
  - destruct (fits m); cbn [c_wsub c_wq c_wcur c_wret c_net c_buf c_rsub c_rq c_rcur c_rret c_alive]; rewrite ?frame_length; unfold list_sum; lia.
Qed.

(** ** Every message can be served: used for the examples *)
Lemma moves_app a b c d e : moves a c d -> moves b d e -> moves (a ++ b) c e.
Proof.
  intros A B. revert a A. induction B as [|ms m c0 c1 c2 B IH S]; intros a A; [rewrite app_nil_r; exact A|].
  rewrite app_assoc. econstructor; [apply IH; assumption|exact S].
Qed.
Lemma moves_one m c d : cmove m c d -> moves [m] c d.
Proof. intros. apply (moves_snoc [] m c c d); [constructor|assumption]. Qed.
Lemma write_all ws wq k bs wr nt bf rs rq rc rr :
  moves (repeat MWrite (length bs)) (Chan ws wq (Some (k, bs)) wr nt bf rs rq rc rr true) (Chan ws wq (Some (k, [])) wr (nt ++ bs) bf rs rq rc rr true).
Proof.
  revert nt. induction bs as [|b bs IH]; intros nt; cbn [length repeat]; [rewrite app_nil_r; constructor|].
  apply (moves_app [MWrite] _ _ (Chan ws wq (Some (k, bs)) wr (nt ++ [b]) bf rs rq rc rr true)); [apply moves_one; constructor|].
  specialize (IH (nt ++ [b])). rewrite <- app_assoc in IH. exact IH.
Qed.
Lemma deliver_all ws wq wc wr nt bf rs rq rc rr :
  moves (repeat MDeliver (length nt)) (Chan ws wq wc wr nt bf rs rq rc rr true) (Chan ws wq wc wr [] (bf ++ nt) rs rq rc rr true).
Proof.
  revert bf. induction nt as [|b nt IH]; intros bf; cbn [length repeat]; [rewrite app_nil_r; constructor|].
  apply (moves_app [MDeliver] _ _ (Chan ws wq wc wr nt (bf ++ [b]) rs rq rc rr true)); [apply moves_one; constructor|].
  specialize (IH (bf ++ [b])). rewrite <- app_assoc in IH. exact IH.
Qed.
(** One send and one recv call, served. *)
Definition serve (m : msg) : list move :=
  [MSend m; MTakeW] ++ repeat MWrite (length (frame m)) ++ [MDoneW] ++ repeat MDeliver (length (frame m)) ++ [MRecv; MTakeR; MDoneR].
Lemma serve_ok m ws wr rs rr : fits m = true ->
  moves (serve m) (Chan ws [] None wr [] [] rs [] None rr true) (Chan (S ws) [] None (wr ++ [(ws, true)]) [] [] (S rs) [] None (rr ++ [(rs, Some m)]) true).
Proof.
  intros F. unfold serve.
  eapply moves_app; [eapply (moves_app [MSend m] [MTakeW]); [apply moves_one, mv_send; cbn; unfold capacity; lia|apply moves_one, mv_take]|]. rewrite F.
  eapply moves_app; [apply write_all|]. eapply moves_app; [apply moves_one, mv_done|]. cbn [app]. eapply moves_app; [apply deliver_all|]. cbn [app].
  eapply (moves_app [MRecv] [MTakeR; MDoneR]); [apply moves_one, mv_recv; cbn; unfold capacity; lia|]. eapply (moves_app [MTakeR] [MDoneR]); [apply moves_one, mv_taker|].
  apply moves_one, mv_doner. pose proof (frame_length m) as L.
  destruct (decode_frame m [] [] (frame m) F) as [[_ X]|(rest & E & X)]; [reflexivity|lia|]. symmetry in X. apply app_eq_nil in X. destruct X as [-> _]. exact E.
Qed.
Lemma serve_submitted m : submitted (serve m) = [m].
Proof.
  unfold serve. rewrite !submitted_app. cbn [submitted app]. f_equal.
  assert (H : forall mv n, (forall m', mv <> MSend m') -> submitted (repeat mv n) = []).
  { intros mv n N. induction n as [|n IH]; cbn; [reflexivity|]. destruct mv; try exact IH. destruct (N m0). reflexivity. }
  rewrite !H by discriminate. reflexivity.
Qed.

(** ** Answers to send calls *)
Lemma status_move sent mv c c' : cmove mv c c' ->
  (c_alive c = true -> map fits sent = map snd (c_wret c) ++ map (fun _ => true) (cur_id (c_wcur c)) ++ map fits (map snd (c_wq c))) ->
  c_alive c' = true -> map fits (sent ++ submitted [mv]) = map snd (c_wret c') ++ map (fun _ => true) (cur_id (c_wcur c')) ++ map fits (map snd (c_wq c')).
Proof.
  intros M I A. inversion M; subst mv c c'; cbn [c_wsub c_wq c_wcur c_wret c_net c_buf c_rsub c_rq c_rcur c_rret c_alive] in *; cbn [submitted]; rewrite ?app_nil_r; try discriminate A; try (apply I; assumption).
  - specialize (I A). rewrite !map_app, I, <- !app_assoc. reflexivity.
  - destruct (fits m) eqn:F; cbn [c_wsub c_wq c_wcur c_wret c_net c_buf c_rsub c_rq c_rcur c_rret c_alive] in *; specialize (I A); rewrite I; cbn [cur_id map snd app]; rewrite F; [reflexivity|].
    rewrite map_app, <- app_assoc. reflexivity.
  - specialize (I A). rewrite I, map_app, <- app_assoc. reflexivity.
Qed.
Lemma chan_status ms c : moves ms chan0 c -> c_alive c = true ->
  c_wret c = combine (seq 0 (length (c_wret c))) (firstn (length (c_wret c)) (map fits (submitted ms))).
Proof.
  intros M A. destruct (inv_reach _ _ M) as [W1 _ _ _ _ _].
  assert (I : map fits (submitted ms) = map snd (c_wret c) ++ map (fun _ => true) (cur_id (c_wcur c)) ++ map fits (map snd (c_wq c))).
  { clear W1. revert A. remember chan0 as c0 eqn:E. induction M as [c0|ms m c0 c' c'' M IH S]; subst; [reflexivity|].
    rewrite submitted_app. apply (status_move _ _ _ _ S). apply IH. reflexivity. }
  rewrite I. assert (E : ids (c_wret c) = seq 0 (length (c_wret c))).
  { assert (L : (length (c_wret c) <= length (submitted ms))%nat) by (apply (f_equal (@length nat)) in W1; unfold ids in W1; rewrite !app_length, !map_length, seq_length in W1; lia).
    replace (length (submitted ms)) with (length (c_wret c) + (length (submitted ms) - length (c_wret c)))%nat in W1 by lia. rewrite seq_app in W1.
    apply app_split_len in W1; [apply W1|]. unfold ids. rewrite map_length, seq_length. reflexivity. }
  rewrite <- E. rewrite firstn_app, firstn_all2 by (rewrite map_length; lia). rewrite map_length, Nat.sub_diag. cbn [firstn]. rewrite app_nil_r. unfold ids. clear.
  induction (c_wret c) as [|[x y] l IH]; cbn; [reflexivity|]. congruence.
Qed.
