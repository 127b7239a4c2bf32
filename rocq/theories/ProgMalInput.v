(** Inputs of malicious ABY3 run by two honest parties. *)
From Verif Require Import Base Ring RingProofs Prog Sched Conc Rng Rel Net BitArith BinProofs AddProofs IrisProofs MpcSpec Aby3 ShareSpec Aby3Proofs Aby3Proofs2 SlicedProofs Jmp JmpProofs Session SessionProofs
  Aby3Mal Aby3MalProofs SacrificeProofs PropLemmas PropLemmas2 PropLemmas5 SpecProofs Duo DuoProofs MacSpec MacProofs Client ProgMalSpec ProgMalDuo ProgMalOps ProgMalOps2 ProgMalOps3 ProgMalOps4 ProgMalExec.
From Coq Require Import ZifyBool ZifyNat.

Section D.
  Variables (G : rng) (H : hasher) (i : pid).
  Notation j := (next i).
  Notation ST := (jst G).
  Notation coll := (hash_collision G H).
  Notation synced := (synced2 G).
  Notation clean := (clean G).
  Notation bts K l := (wire (map (pair K) l)).
  Ltac conds := destruct i; reflexivity.
  Lemma cond_id p : (3 <=? pid_num p) = false. Proof. destruct p; reflexivity. Qed.
  Lemma cond_ii : (pid_num i =? pid_num i) = true. Proof. conds. Qed.
  Lemma cond_jj : (pid_num j =? pid_num j) = true. Proof. conds. Qed.
  Lemma cond_ij : (pid_num i =? pid_num j) = false. Proof. conds. Qed.
  Lemma cond_ji : (pid_num j =? pid_num i) = false. Proof. conds. Qed.
  Lemma cond_ik : (pid_num i =? pid_num (prev i)) = false. Proof. conds. Qed.
  Lemma cond_jk : (pid_num j =? pid_num (prev i)) = false. Proof. conds. Qed.
  Lemma cond_ki : (pid_num (prev i) =? pid_num i) = false. Proof. conds. Qed.
  Lemma cond_kj : (pid_num (prev i) =? pid_num j) = false. Proof. conds. Qed.
  Lemma two_j_i : (pid_num j =? (pid_num i + 2) mod 3) = false. Proof. conds. Qed.
  Lemma one_j_i : (pid_num j =? (pid_num i + 1) mod 3) = true. Proof. conds. Qed.
  Lemma two_i_j : (pid_num i =? (pid_num j + 2) mod 3) = true. Proof. conds. Qed.
  Lemma one_i_j : (pid_num i =? (pid_num j + 1) mod 3) = false. Proof. conds. Qed.
  Lemma two_i_k : (pid_num i =? (pid_num (prev i) + 2) mod 3) = false. Proof. conds. Qed.
  Lemma one_i_k : (pid_num i =? (pid_num (prev i) + 1) mod 3) = true. Proof. conds. Qed.
  Lemma two_j_k : (pid_num j =? (pid_num (prev i) + 2) mod 3) = true. Proof. conds. Qed.
  Lemma one_j_k : (pid_num j =? (pid_num (prev i) + 1) mod 3) = false. Proof. conds. Qed.
  Ltac dres := match goal with |- duoq _ (bind (of_res ?r) _) _ _ _ _ => let E := fresh "E" in destruct r eqn:E; cbn [of_res bind]; [|apply duo_fail_l] end.
  Ltac dresr := match goal with |- duoq _ _ (bind (of_res ?r) _) _ _ _ => let E := fresh "E" in destruct r eqn:E; cbn [of_res bind]; [|apply duo_fail_r] end.

  (** i shares x: the value is x if the third party's message is what i+1 expects. *)
  Lemma input_i K x v (s t : ST) (Q : ST -> share -> ST -> share -> Prop) : In K widths -> synced s t -> inr K x ->
    (forall s' a t' b, synced s' t' -> (clean s' t' -> clean s t) -> paired K a b -> (clean s' t' -> joint K a b = x) -> Q s' a t' b) ->
    duoM i (mal_input G i K (Some x) (pid_num i)) (mal_input G j K v (pid_num i)) s t Q.
  Proof.
    intros HK Hs Hx HQ. pose proof (in_widths_pos K HK) as K0. assert (HK0 : 0 <= K) by lia. unfold mal_input. rewrite cond_id.
    dbind. apply gen_rand_duo; [exact HK0|exact Hs|]. intros s1 a t1 b Hs1 Q1 Q1' P. pose proof P as ([A1 A2] & [B1 B2] & E).
    unfold reconstruct_id. rewrite cond_id, cond_ii, cond_ij, cond_ji, two_j_i, one_j_i.
    unfold duoM, bindM, jmp_receive, jmp_buffer, liftM, retM, getM, putM, send_value, receive_value, bindM, duo. cbn [bind fst snd].
    apply duo_recv_prev. intros m Bm. destruct (from_bytes K m) as [c|] eqn:Ec; cbn [of_res bind fst snd]; [|apply duo_fail_l].
    apply (val_range K m c HK Bm) in Ec.
    duostep. duostep. cbn [app]. apply duo_r_recv_prev. rewrite from_to_bytes by (assumption || apply inr_mod, HK0). cbn [of_res bind fst snd].
    apply duo_r_send_next. apply duo_r_recv_next. intros m' _. destruct (from_bytes K m') as [c'|]; cbn [of_res bind fst snd]; [|apply duo_fail_r].
    destruct (negb _); [apply duo_fail_r|]. apply duo_ret. cbn [fst snd].
    assert (CL : clean (JSt G (j_prf G s1) (j_snd G s1) (add_to_bytes K c (j_rcv G s1)) (j_log G s1)) (JSt G (j_prf G t1) (add_to_bytes K (sa b) (j_snd G t1)) (j_rcv G t1) (j_log G t1)) -> clean s t /\ c = sa b).
    { unfold ProgMalDuo.clean. cbn [j_rcv j_snd]. unfold add_to_bytes. intros EE. apply app_inj_len_r in EE; [|rewrite !to_be_length; reflexivity]. destruct EE as [EE E2]. rewrite <- !to_bytes_eq in E2.
      split; [apply (quiet_clean _ _ _ _ _ Q1 Q1'), EE|]. apply (f_equal (from_bytes K)) in E2. rewrite !from_to_bytes in E2 by assumption. congruence. }
    apply HQ; [exact Hs1|intros h; apply CL, h| |].
    - split; [split; [apply inr_mod, HK0|exact A2]|]. split; [split; [exact B1|apply inr_mod, HK0]|]. cbn [sa sb]. rewrite E. reflexivity.
    - intros h. apply CL in h. destruct h as [_ ->]. unfold joint. cbn [sa sb]. unfold radd, rsub, norm. rewrite <- (Z.mod_small x (2 ^ K)) at 2 by exact Hx. clear. modring.
  Qed.
  (** i+1 shares x. *)
  Lemma input_j K x v (s t : ST) (Q : ST -> share -> ST -> share -> Prop) : In K widths -> synced s t -> inr K x ->
    (forall s' a t' b, synced s' t' -> (clean s' t' -> clean s t) -> paired K a b -> joint K a b = x -> Q s' a t' b) ->
    duoM i (mal_input G i K v (pid_num j)) (mal_input G j K (Some x) (pid_num j)) s t Q.
  Proof.
    intros HK Hs Hx HQ. pose proof (in_widths_pos K HK) as K0. assert (HK0 : 0 <= K) by lia. unfold mal_input. rewrite cond_id.
    dbind. apply gen_rand_duo; [exact HK0|exact Hs|]. intros s1 a t1 b Hs1 Q1 Q1' P. pose proof P as ([A1 A2] & [B1 B2] & E).
    unfold reconstruct_id. rewrite cond_id, cond_jj, cond_ij, cond_ji, two_i_j, one_i_j.
    unfold duoM, bindM, jmp_receive, jmp_send, liftM, retM, getM, putM, send_value, receive_value, bindM, duo. cbn [bind fst snd].
    duostep. cbn [app]. apply duo_r_recv_prev. rewrite from_to_bytes by assumption. cbn [of_res bind fst snd].
    apply duo_r_send_next. apply duo_r_send_prev. cbn [app]. apply duo_recv_next. rewrite from_to_bytes by (assumption || apply inr_mod, HK0). cbn [of_res bind fst snd].
    apply duo_send_prev. apply duo_recv_prev. intros m' _. destruct (from_bytes K m') as [c'|]; cbn [of_res bind fst snd]; [|apply duo_fail_l].
    destruct (negb _); [apply duo_fail_l|]. apply duo_ret. cbn [fst snd].
    apply HQ; [exact Hs1| | |].
    - intros h. apply (quiet_clean _ _ _ _ _ Q1 Q1'). exact h.
    - split; [split; assumption|]. split; [split; [apply inr_mod, HK0|exact B2]|]. exact E.
    - unfold joint. cbn [sa sb]. unfold radd, rsub, norm. rewrite E. rewrite <- (Z.mod_small x (2 ^ K)) at 2 by exact Hx. clear. modring.
  Qed.
  (** The third party shares something. *)
  Lemma input_k K v v' (s t : ST) (Q : ST -> share -> ST -> share -> Prop) : In K widths -> synced s t ->
    (forall s' a t' b, synced s' t' -> (clean s' t' -> clean s t) -> paired K a b -> Q s' a t' b) ->
    duoM i (mal_input G i K v (pid_num (prev i))) (mal_input G j K v' (pid_num (prev i))) s t Q.
  Proof.
    intros HK Hs HQ. pose proof (in_widths_pos K HK) as K0. assert (HK0 : 0 <= K) by lia. unfold mal_input. rewrite cond_id.
    dbind. apply gen_rand_duo; [exact HK0|exact Hs|]. intros s1 a t1 b Hs1 Q1 Q1' P. pose proof P as ([A1 A2] & [B1 B2] & E).
    unfold reconstruct_id. rewrite cond_id, cond_ik, cond_jk, cond_ki, cond_kj, two_i_k, one_i_k, two_j_k, one_j_k.
    unfold duoM, bindM, jmp_buffer, jmp_send, liftM, retM, getM, putM, send_value, receive_value, bindM, duo. cbn [bind fst snd].
    apply duo_recv_prev. intros m Bm. destruct (from_bytes K m) as [c|] eqn:Ec; cbn [of_res bind fst snd]; [|apply duo_fail_l]. apply (val_range K m c HK Bm) in Ec.
    apply duo_send_next. cbn [app]. apply duo_r_send_next. apply duo_r_recv_next. intros m' Bm'. destruct (from_bytes K m') as [c'|] eqn:Ec'; cbn [of_res bind fst snd]; [|apply duo_fail_r]. apply (val_range K m' c' HK Bm') in Ec'.
    apply duo_r_send_prev. cbn [app]. apply duo_recv_next. apply duo_r_recv_prev. rewrite !from_to_bytes by assumption. cbn [of_res bind fst snd].
    destruct (Z.eqb_spec c c') as [->|NE]; cbn [negb]; [|apply duo_fail_l]. rewrite Z.eqb_refl. cbn [negb]. apply duo_ret. cbn [fst snd].
    apply HQ; [exact Hs1| |].
    - intros h. apply (quiet_clean _ _ _ _ _ Q1 Q1'). exact h.
    - split; [split; [exact A1|apply inr_mod, HK0]|]. split; [split; assumption|]. exact E.
  Qed.
End D.
