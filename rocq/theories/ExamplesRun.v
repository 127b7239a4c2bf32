(** Runs of the shipped programs. *)
From Verif Require Import Base Ring RingProofs Prog Sched Rng Net Iris IrisSpec IrisProofs MpcSpec Rel ShareSpec SpecProofs OutcomeSpec OutcomeProofs FailProofs Protocol ProtocolProofs
  Aby3 Aby3Proofs Jmp JmpProofs Aby3Mal Aby3MalProofs2 Spdz SpdzProofs5 TripleSpec BudgetProofs Swift3 Swift3Setup Swift3SetupProofs Swift3Proofs Swift3Circ
  Swift3Verify Swift3VerifyProofs Swift3VerifyLax Swift3VerifyMain Swift3Api Swift3ApiProofs Swift3Spec PropLemmas PropLemmas2 PropLemmas6 EngineProofs Examples ExamplesProofs.

(** ** dealing a bit *)
Lemma b2z_inr K b : 0 < K -> inr K (Z.b2z b).
Proof. intros HK. assert (2 ^ 1 <= 2 ^ K) by (apply Z.pow_le_mono_r; lia). unfold inr. destruct b; cbn; lia. Qed.
Lemma aby3_deal G (b : bool) s : arith_shared 16 (fun i => pick3 i (snd (share_value G 16 (Z.b2z b) s))) (Z.b2z b).
Proof.
  pose proof (share_value_ok G 16 (Z.b2z b) s ltac:(lia) (b2z_inr 16 b ltac:(lia))) as H. destruct (share_value G 16 (Z.b2z b) s) as [s' [[x0 x1] x2]].
  eapply arel_ext; [|exact H]. intros []; reflexivity.
Qed.
Lemma spdz_deal G key (b : bool) s : spdz_shared 16 key (fun i => pick3 i (snd (spdz_share_value G 16 (Z.b2z b) key s))) (Z.b2z b).
Proof.
  pose proof (spdz_share_value_ok G 16 (Z.b2z b) key s ltac:(cbn; tauto) (b2z_inr 16 b ltac:(lia))) as H. destruct (spdz_share_value G 16 (Z.b2z b) key s) as [s' [[x0 x1] x2]].
  destruct H as (w & [H1 H2] & E). exists w. split; [|exact E]. split; (eapply arel_ext; [|eassumption]); intros []; reflexivity.
Qed.
Lemma swift3_deal G (b : bool) s : arith3 16 (fun i => pick3 i (snd (share3_value G 16 (Z.b2z b) s))) (Z.b2z b).
Proof.
  unfold share3_value. pose proof (draw_range G 16 s ltac:(lia)) as R1. destruct (draw G 16 s) as [s1 a1]. pose proof (draw_range G 16 s1 ltac:(lia)) as R2. destruct (draw G 16 s1) as [s2 a2].
  pose proof (draw_range G 16 s2 ltac:(lia)) as R3. destruct (draw G 16 s2) as [s3 a3]. cbn [snd] in *.
  set (t := radd 16 _ a3). assert (Ht : inr 16 t) by (apply inr_mod; lia).
  split; [|split].
  - intros [| |]; cbn; (split; assumption).
  - intros [| |]; split; reflexivity.
  - cbn [pick3 fst3 snd3 thd3 fst snd tc ta]. pose proof (b2z_inr 16 b ltac:(lia)) as Hb. rewrite <- (Z.mod_small (Z.b2z b) (2 ^ 16)) at 1 by exact Hb.
    unfold t, radd. clear. modring.
Qed.

Section Runs.
  Variables (G : rng) (m : bool) (q : rstate G) (chunk : nat).
  Hypothesis Hchunk : (0 < chunk)%nat.

  Section Aby3.
    Variables (tbl : list (row (blob * blob * blob))) (l : list iris) (q' : rstate G) (x : iris).
    Hypothesis HT : Forall2 (stores (arith_shared 16) aby3_cols) tbl l.
    Hypothesis HQ : query_iris G tbl m q = Ok (q', x).
    Hypothesis Hx : wf_iris x.
    Hypothesis Hv : Forall (enough_valid x) l.
    Hypothesis Hne : (0 < length l)%nat.

    Lemma aby3_inputs : exists L Q, (forall i, aby3_read_db (pid_num i) tbl = Ok (L i)) /\
      (forall i, query_share G (share_value G 16) (pid_num i) tbl m q = Ok (Q i, ir_mask x)) /\
      (forall i, map snd (L i) = map ir_mask l) /\ RL (RL (arith_shared 16)) (fun i => map fst (L i)) (map (fun b => code_vals (ir_code b)) l) /\
      RL (arith_shared 16) Q (code_vals (ir_code x)).
    Proof using HT HQ Hx.
      destruct (read_rows_ok (arith_shared 16) aby3_cols aby3_read_row aby3_read_ok tbl l HT) as (L & E1 & E2 & E3).
      destruct (query_share_ok G (arith_shared 16) (share_value G 16) (aby3_deal G) tbl m q q' x HQ Hx) as (Q & E4 & E5).
      exists L, Q. split; [|auto]. intros i. unfold aby3_read_db. rewrite party_num. apply E1.
    Qed.
    Lemma aby3_example_ok (runs : list (pid -> prf G * list Z)) (s : pid -> prf G) :
      Forall (fun r => forall i, length (snd (r i)) = 32%nat) runs ->
      wpM (fun i => aby3_example G i m q chunk tbl (map (fun r => r i) runs)) s (fun _ R => forall i, R i = repeat (existsb (matches x) l) (length runs)).
    Proof using HT HQ Hx Hv Hne Hchunk.
      intros HL. destruct aby3_inputs as (L & Q & E1 & E2 & E3 & E4 & E5). unfold aby3_example.
      wbind. apply (wpM_res _ L); [exact E1|]. wbind. apply (wpM_res _ (fun i => (Q i, ir_mask x))); [exact E2|]. cbn [fst snd].
      revert s. induction runs as [|r runs IH]; intros s.
      - cbn [map mapM length repeat]. apply wpM_ret. reflexivity.
      - inversion HL; subst. cbn [map mapM]. wbind. wbind. apply wpM_put. wbind. apply (wpM_res _ (fun _ => tt)); [intros; reflexivity|].
        wbind. eapply wpM_mono; [|apply (setup_ok G (fun i => snd (r i))); assumption]. cbn beta. intros s1 _ [Hs1 _].
        eapply wpM_mono; [|apply (wpM_ext (fun i => iris_in_db (aby3_engine G 16 i) false (Q i) (map fst (L i)) (ir_mask x) (map ir_mask l) chunk)); [intros i; rewrite E3; reflexivity|];
          refine (iris_in_db_ok (aby3_engine G 16) 16 _ _ _ _ _ _ _ _ _ (aby3_mpc_ok G 16 ltac:(cbn; tauto) ltac:(lia)) ltac:(lia) false tt s1 Q x (fun i => map fst (L i)) l chunk Hs1 Hx (stores_wf _ _ _ _ HT) Hv Hne Hchunk E5 E4 I)].
        cbn beta. intros s2 R [_ HR]. wbind. eapply wpM_mono; [|apply IH; assumption]. cbn beta. intros s3 Rs HRs. apply wpM_ret. intros i. rewrite HR, HRs. reflexivity.
    Qed.
  End Aby3.

  Section Mal.
    Variable H : hasher.
    Variables (tbl : list (row (blob * blob * blob))) (l : list iris) (q' : rstate G) (x : iris).
    Hypothesis HT : Forall2 (stores (arith_shared 16) aby3_cols) tbl l.
    Hypothesis HQ : query_iris G tbl m q = Ok (q', x).
    Hypothesis Hx : wf_iris x.
    Hypothesis Hv : Forall (enough_valid x) l.
    Hypothesis Hne : (0 < length l)%nat.
    Lemma mal_example_ok (f : pid -> prf G) (sd1 sd2 rd1 rd2 : pid -> list Z) (s : pid -> jst G) :
      (forall i, length (sd1 i) = 32%nat /\ length (sd2 i) = 32%nat /\ length (rd1 i) = 32%nat /\ length (rd2 i) = 32%nat) ->
      (forall i, Forall (inr 8) (sd1 i) /\ Forall (inr 8) (sd2 i)) ->
      wpM (fun i => mal_example G i m q chunk H tbl (f i) (sd1 i) (sd2 i) (rd1 i) (rd2 i)) s (fun _ R => forall i, R i = existsb (matches x) l).
    Proof using HT HQ Hx Hv Hne Hchunk.
      intros HL HR. destruct (aby3_inputs tbl l q' x HT HQ Hx) as (L & Q & E1 & E2 & E3 & E4 & E5). unfold mal_example.
      wbind. apply (wpM_res _ L); [exact E1|]. wbind. apply (wpM_res _ (fun i => (Q i, ir_mask x))); [exact E2|]. cbn [fst snd].
      wbind. apply wpM_put. wbind. apply (wpM_res _ (fun _ => tt)); [intros; reflexivity|].
      wbind. eapply wpM_mono; [|apply (setup_prf_mal_ok G H sd1 sd2 rd1 rd2); [assumption|assumption|intros; reflexivity]]. cbn beta. intros s1 _ [Hs1 _].
      eapply wpM_mono; [|apply (wpM_ext (fun i => iris_in_db (mal_engine G H i 16) false (Q i) (map fst (L i)) (ir_mask x) (map ir_mask l) chunk)); [intros i; rewrite E3; reflexivity|];
        refine (iris_in_db_ok (fun i => mal_engine G H i 16) 16 _ _ _ _ _ _ _ _ _ (mal_mpc_ok G H 16 ltac:(cbn; tauto) ltac:(cbn; lia) ltac:(lia)) ltac:(lia) false tt s1 Q x (fun i => map fst (L i)) l chunk Hs1 Hx (stores_wf _ _ _ _ HT) Hv Hne Hchunk E5 E4 I)].
      cbn beta. intros s2 R [_ HRR]. exact HRR.
    Qed.
  End Mal.

  Section Swift3.
    Variable H : hasher.
    Variables (tbl : list (row (blob * blob * blob * blob))) (l : list iris) (q' : rstate G) (x : iris).
    Hypothesis HT : Forall2 (stores (arith3 16) swift3_cols) tbl l.
    Hypothesis HQ : query_iris G tbl m q = Ok (q', x).
    Hypothesis Hx : wf_iris x.
    Hypothesis Hv : Forall (enough_valid x) l.
    Hypothesis Hne : (0 < length l)%nat.
    Lemma swift3_inputs : exists L Q, (forall i, swift3_read_db (pid_num i) tbl = Ok (L i)) /\
        (forall i, query_share G (share3_value G 16) (pid_num i) tbl m q = Ok (Q i, ir_mask x)) /\
        (forall i, map snd (L i) = map ir_mask l) /\ RL (RL (arith3 16)) (fun i => map fst (L i)) (map (fun b => code_vals (ir_code b)) l) /\
        RL (arith3 16) Q (code_vals (ir_code x)).
    Proof using HT HQ Hx.
      destruct (read_rows_ok (arith3 16) swift3_cols swift3_read_row swift3_read_ok tbl l HT) as (L & E1 & E2 & E3).
      destruct (query_share_ok G (arith3 16) (share3_value G 16) (swift3_deal G) tbl m q q' x HQ Hx) as (Q & E4 & E5).
      exists L, Q. split; [|auto]. intros i. unfold swift3_read_db. rewrite party_num. apply E1.
    Qed.
    Lemma new_quiet (k1 k2 k3 : pid -> list Z) : wquiet G 16 (fun i => sst_new G (k1 i) (k2 i) (k3 i)).
    Proof using Type.
      split; [intros i; reflexivity|]. split; [intros i; reflexivity|]. split; [exists []; apply RL_nil; reflexivity|]. split; [exists []; apply RL_nil; reflexivity|].
      exists 0%nat, 0%nat, []. split; [auto|]. split; [apply RL_nil; reflexivity|]. split; [apply le_n|]. split; constructor.
    Qed.
    Lemma swift3_example_ok fuel (em ea ed : pid -> Swift3.sst G -> rstate G) (k1 k2 k3 sd1 sd2 sd3 rd1 rd2 rd3 : pid -> list Z) (s : pid -> Swift3.sst G) :
      (forall i, length (sd1 i) = 32%nat /\ length (sd2 i) = 32%nat /\ length (sd3 i) = 32%nat /\
                 length (rd1 i) = 32%nat /\ length (rd2 i) = 32%nat /\ length (rd3 i) = 32%nat) ->
      (forall i, Forall (inr 8) (sd1 i) /\ Forall (inr 8) (sd2 i) /\ Forall (inr 8) (sd3 i)) ->
      right_or_stopped (fun i => swift3_example G i m q chunk H tbl (k1 i) (k2 i) (k3 i) (sd1 i) (sd2 i) (sd3 i) (rd1 i) (rd2 i) (rd3 i) fuel (em i) (ea i) (ed i)) s
        (fun _ => existsb (matches x) l).
    Proof using HT HQ Hx Hv Hne Hchunk.
      intros HL HR.
      pose proof swift3_inputs as E.
      destruct E as (L & Q & E1 & E2 & E3 & E4 & E5).
      apply (le_runs _ (fun i => bindM (resM (swift3_read_db (pid_num i) tbl)) (fun db =>
          bindM (resM (query_share G (share3_value G 16) (pid_num i) tbl m q)) (fun x =>
          bindM (putM (sst_new G (k1 i) (k2 i) (k3 i))) (fun _ => bindM (resM (iris_new 16)) (fun _ =>
          bindM (w_setup_prf G H i (sd1 i) (sd2 i) (sd3 i) (rd1 i) (rd2 i) (rd3 i)) (fun _ =>
          iris_in_db (swift3_engine G H (sw_lax G H 16 fuel i (em i) (ea i) (ed i)) i 16) false (fst x) (map fst db) (snd x) (map snd db) chunk)))))) s _
          (fun _ R => forall i, R i = existsb (matches x) l)).
      - intros i. unfold swift3_example. do 5 (apply leM_bind; [apply leM_refl|intros ?]).
        unfold iris_in_db. destruct (_ || _); [apply leM_refl|]. destruct (Nat.eqb chunk 0); [apply leM_refl|].
        apply leM_bind; [apply leM_refl|]. intros _. apply leM_bind; [apply leM_refl|]. intros bits. apply leM_bind; [apply leM_refl|]. intros res. apply leM_bind; [|intros _; apply leM_refl].
        apply leM_unwrap. apply sw_lax_le.
      - wbind. apply (wpM_res _ L); [exact E1|]. wbind. apply (wpM_res _ (fun i => (Q i, ir_mask x))); [exact E2|]. cbn [fst snd].
        wbind. apply wpM_put. wbind. apply (wpM_res _ (fun _ => tt)); [intros; reflexivity|].
        wbind. eapply wpM_mono; [|apply (w_setup_prf_ok G H 16 sd1 sd2 sd3 rd1 rd2 rd3); [assumption|assumption|apply new_quiet]]. cbn beta. intros s1 _ [Hs1 _].
        eapply wpM_mono; [|apply (wpM_ext (fun i => iris_in_db (swift3_engine G H (sw_lax G H 16 fuel i (em i) (ea i) (ed i)) i 16) false (Q i) (map fst (L i)) (ir_mask x) (map ir_mask l) chunk)); [intros i; rewrite E3; reflexivity|];
          refine (iris_in_db_ok (fun i => swift3_engine G H (sw_lax G H 16 fuel i (em i) (ea i) (ed i)) i 16) 16 _ _ _ _ _ _ _ _ _
            (swift3_mpc_ok G H (fun i => sw_lax G H 16 fuel i (em i) (ea i) (ed i)) 16 ltac:(cbn; tauto) True (fun s0 Hs0 _ => sw_lax_ok G H 16 fuel ltac:(cbn; tauto) s0 em ea ed Hs0)) ltac:(lia) false tt s1 Q x (fun i => map fst (L i)) l chunk Hs1 Hx (stores_wf _ _ _ _ HT) Hv Hne Hchunk E5 E4 I)].
        cbn beta. intros s2 R [_ HRR]. exact HRR.
      - intros s' b Hb. exact Hb.
    Qed.
  End Swift3.

  Section Spdz.
    Variable H : hasher.
    Variables (db : zdb) (key : Z) (l : list iris) (q' : rstate G) (x : iris).
    (** The file after one run of create_sample_data. *)
    Definition zstores : Prop := inr 64 key /\ (exists t, arith_shared 64 (fun i => pick3 i t) key /\
      z_keys db = [(bc_uint 8 key, (bc_uint 8 (sa (fst3 t)), bc_uint 8 (sa (snd3 t)), bc_uint 8 (sa (thd3 t))))]) /\
      Forall2 (stores (spdz_shared 16 key) spdz_cols) (z_rows db) l.
    Hypothesis HT : zstores.
    Hypothesis HQ : query_iris G (z_rows db) m q = Ok (q', x).
    Hypothesis Hx : wf_iris x.
    Hypothesis Hv : Forall (enough_valid x) l.
    Hypothesis Hne : (0 < length l)%nat.

    Lemma spdz_inputs : exists (D : pid -> ashare) L Q, (forall i, spdz_read_db (pid_num i) db = Ok (D i, key, L i)) /\
      (forall i, query_share G (fun x => spdz_share_value G 16 x key) (pid_num i) (z_rows db) m q = Ok (Q i, ir_mask x)) /\
      arith_shared 64 (fun i => am (D i)) key /\
      (forall i, map snd (L i) = map ir_mask l) /\ RL (RL (spdz_shared 16 key)) (fun i => map fst (L i)) (map (fun b => code_vals (ir_code b)) l) /\
      RL (spdz_shared 16 key) Q (code_vals (ir_code x)).
    Proof using HT HQ Hx.
      destruct HT as (Hk & (t & Ht & Ek) & HF).
      destruct (read_rows_ok (spdz_shared 16 key) spdz_cols spdz_read_row (spdz_read_ok key) (z_rows db) l HF) as (L & E1 & E2 & E3).
      destruct (query_share_ok G (spdz_shared 16 key) (fun x => spdz_share_value G 16 x key) (spdz_deal G key) (z_rows db) m q q' x HQ Hx) as (Q & E4 & E5).
      exists (fun i => AShare szero (pick3 i t)), L, Q. split; [|auto 10]. intros i. unfold spdz_read_db. rewrite party_num. cbn [rbind]. rewrite Ek.
      destruct Ht as (R1 & R2 & _). unfold spdz_read_key, own_prev.
      assert (HP : forall j, pick3 j (bc_uint 8 (sa (fst3 t)), bc_uint 8 (sa (snd3 t)), bc_uint 8 (sa (thd3 t))) = bc_uint 8 (sa (pick3 j t))) by (intros []; reflexivity).
      rewrite !HP, !dec_enc_one; [|exact Hk|apply R1|apply R1]. cbn [rbind]. rewrite E1. cbn [rbind]. 
      rewrite <- R2, share_eta. reflexivity.
    Qed.
    Lemma spdz_run_ok p' (r : pid -> prf G * list Z) L Q D s : (forall i, length (snd (r i)) = 32%nat) ->
      arith_shared 64 (fun i => am (D i)) key -> (forall i, map snd (L i) = map ir_mask l) -> RL (RL (spdz_shared 16 key)) (fun i => map fst (L i)) (map (fun b => code_vals (ir_code b)) l) ->
      RL (spdz_shared 16 key) Q (code_vals (ir_code x)) -> leftover 16 (Z.of_nat (length l)) (Z.of_nat chunk) 0 = Some p' ->
      wpM (fun i => bindM (putM (spdz_new G (fst (r i)))) (fun _ => bindM (resM (iris_new 16)) (fun _ =>
        bindM (bindM (spdz_preprocess G i (snd (r i))) (fun _ => set_mac_key G (D i))) (fun _ =>
        iris_in_db (spdz_engine G H i 16) false (Q i) (map fst (L i)) (ir_mask x) (map snd (L i)) chunk)))) s
        (fun _ R => forall i, R i = existsb (matches x) l).
    Proof using HT Hx Hv Hne Hchunk.
      intros HS HD E3 E4 E5 EL. wbind. apply wpM_put. wbind. apply (wpM_res _ (fun _ => tt)); [intros; reflexivity|].
      wbind. eapply wpM_mono; [|apply (start_ok G 16 key (fun i => fst (r i)) (fun i => snd (r i)) D HS HD)]. cbn beta. intros s1 _ Hs1.
      destruct (call_ok G H 16 key false ltac:(cbn; tauto) ltac:(lia) (Req x Q l (fun i => map fst (L i)) chunk) 0%nat p' s1 Hs1) as [HO _].
      - exact (conj Hx (conj (stores_wf _ _ _ _ (proj2 (proj2 HT))) (conj Hv (conj Hne (conj Hchunk (conj (RL_vec _ _ _ E5) (RL_vec2 _ _ _ E4))))))).
      - exact EL.
      - unfold spdz_call in HO. cbn [q_query q_db q_iris q_entries q_chunk] in HO.
        eapply wpM_mono; [|eapply wpM_ext; [|exact HO]]; [cbn beta; intros s2 R [_ HR]; exact HR|]. intros i. rewrite E3. reflexivity.
    Qed.
    Lemma spdz_run_fails (r : pid -> prf G * list Z) L Q D s : (forall i, length (snd (r i)) = 32%nat) ->
      arith_shared 64 (fun i => am (D i)) key -> (forall i, map snd (L i) = map ir_mask l) -> RL (RL (spdz_shared 16 key)) (fun i => map fst (L i)) (map (fun b => code_vals (ir_code b)) l) ->
      RL (spdz_shared 16 key) Q (code_vals (ir_code x)) -> leftover 16 (Z.of_nat (length l)) (Z.of_nat chunk) 0 = None ->
      failsM (fun i => bindM (putM (spdz_new G (fst (r i)))) (fun _ => bindM (resM (iris_new 16)) (fun _ =>
        bindM (bindM (spdz_preprocess G i (snd (r i))) (fun _ => set_mac_key G (D i))) (fun _ =>
        iris_in_db (spdz_engine G H i 16) false (Q i) (map fst (L i)) (ir_mask x) (map snd (L i)) chunk)))) s EPanic.
    Proof using HT Hx Hv Hne Hchunk.
      intros HS HD E3 E4 E5 EL. apply (failsM_bind (fun i => putM _)). apply wpM_put. apply (failsM_bind (fun i => resM _)). apply (wpM_res _ (fun _ => tt)); [intros; reflexivity|].
      apply (failsM_bind (fun i => bindM (spdz_preprocess G i (snd (r i))) (fun _ => set_mac_key G (D i)))).
      eapply wpM_mono; [|apply (start_ok G 16 key (fun i => fst (r i)) (fun i => snd (r i)) D HS HD)]. cbn beta. intros s1 _ Hs1.
      pose proof (call_fails G H 16 key false ltac:(cbn; tauto) ltac:(lia) (Req x Q l (fun i => map fst (L i)) chunk) 0%nat s1 Hs1
        (conj Hx (conj (stores_wf _ _ _ _ (proj2 (proj2 HT))) (conj Hv (conj Hne (conj Hchunk (conj (RL_vec _ _ _ E5) (RL_vec2 _ _ _ E4))))))) EL) as HO.
      eapply failsM_ext; [|exact HO]. intros i. unfold spdz_call. cbn [q_query q_db q_iris q_entries q_chunk]. rewrite E3. reflexivity.
    Qed.
    Lemma spdz_example_ok (runs : list (pid -> prf G * list Z)) (s : pid -> Spdz.sst G) :
      Forall (fun r => forall i, length (snd (r i)) = 32%nat) runs -> leftover 16 (Z.of_nat (length l)) (Z.of_nat chunk) 0 <> None ->
      wpM (fun i => spdz_example G i m q chunk H db (map (fun r => r i) runs)) s (fun _ R => forall i, R i = repeat (existsb (matches x) l) (length runs)).
    Proof using HT HQ Hx Hv Hne Hchunk.
      intros HL EL. destruct (leftover 16 (Z.of_nat (length l)) (Z.of_nat chunk) 0) as [p'|] eqn:EL'; [|congruence]. clear EL.
      destruct spdz_inputs as (D & L & Q & E1 & E2 & E0 & E3 & E4 & E5). unfold spdz_example.
      wbind. apply (wpM_res _ (fun i => (D i, key, L i))); [exact E1|]. cbv beta iota.
      wbind. apply (wpM_res _ (fun i => (Q i, ir_mask x))); [exact E2|]. cbn [fst snd].
      revert s. induction runs as [|r runs IH]; intros s.
      - cbn [map mapM length repeat]. apply wpM_ret. reflexivity.
      - inversion HL; subst. cbn [map mapM]. wbind. eapply wpM_mono; [|apply (spdz_run_ok p' r L Q D); assumption].
        cbn beta. intros s2 R HR. wbind. eapply wpM_mono; [|apply IH; assumption]. cbn beta. intros s3 Rs HRs. apply wpM_ret. intros i. rewrite HR, HRs. reflexivity.
    Qed.
    Lemma spdz_example_fails (runs : list (pid -> prf G * list Z)) (s : pid -> Spdz.sst G) :
      Forall (fun r => forall i, length (snd (r i)) = 32%nat) runs -> runs <> [] -> leftover 16 (Z.of_nat (length l)) (Z.of_nat chunk) 0 = None ->
      failsM (fun i => spdz_example G i m q chunk H db (map (fun r => r i) runs)) s EPanic.
    Proof using HT HQ Hx Hv Hne Hchunk.
      intros HL Hr EL. destruct spdz_inputs as (D & L & Q & E1 & E2 & E0 & E3 & E4 & E5). unfold spdz_example. 
      eapply failsM_bind. apply (wpM_res _ (fun i => (D i, key, L i))); [exact E1|]. cbv beta iota.
      eapply (failsM_bind (fun i => resM _)). apply (wpM_res _ (fun i => (Q i, ir_mask x))); [exact E2|]. cbn [fst snd].
      destruct runs as [|r runs]; [congruence|]. inversion HL; subst. cbn [map mapM]. apply failsM_stop. apply (spdz_run_fails r L Q D); assumption.
    Qed.
  End Spdz.
End Runs.
