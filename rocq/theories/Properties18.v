(** Property C52: the shipped programs, from creating the tables to the answer. *)
From Verif Require Import Base Ring RingProofs Prog Sched Rng Net Iris IrisSpec IrisProofs MpcSpec Rel ShareSpec SpecProofs OutcomeSpec OutcomeProofs FailProofs Protocol ProtocolProofs
  Aby3 Aby3Proofs Jmp Aby3Mal Spdz TripleSpec BudgetProofs Swift3 Swift3Setup Swift3Verify Swift3Api Swift3Spec PropLemmas PropLemmas2 PropLemmas6 EngineProofs
  Examples ExamplesProofs ExamplesRun Properties4.
From Coq Require Import Floats.SpecFloat.

(** ** Sampling.  [nth_draw G K s n] is the n-th output (from 0) of a generator in state s. *)
(** A random iris: uniform code bits; position i of the mask is cleared iff the i-th 64-bit output is below 2^64 / 10 (as a double). *)
Theorem C52_random : forall G s, exists s' x, random_iris G s = Ok (s', x) /\ wf_iris x /\
  forall i, 0 <= i < 12800 -> bit_at (ir_code x) i = Z.testbit (snd (draw G 12800 s)) i /\
    bit_at (ir_mask x) i = negb (nth_draw G 64 (fst (draw G 12800 s)) (Z.to_nat i) <? 1844674407370955264).
Proof.
  intros G s. destruct (random_iris_ok G s) as (s' & x & E & W). exists s', x. split; [exact E|]. split; [exact W|]. intros i Hi.
  exact (random_iris_spec G s s' x E i Hi).
Qed.
Print Assumptions C52_random.
(** A similar one: every bit of code and mask is flipped iff its own output is below 2^64 / 20. *)
Theorem C52_similar : forall G a s, wf_iris a -> exists s' x, similar_iris G a s = Ok (s', x) /\ wf_iris x /\
  forall i, 0 <= i < 12800 ->
    bit_at (ir_code x) i = xorb (bit_at (ir_code a) i) (nth_draw G 64 s (2 * Z.to_nat i) <? 922337203685477632) /\
    bit_at (ir_mask x) i = xorb (bit_at (ir_mask a) i) (nth_draw G 64 s (2 * Z.to_nat i + 1) <? 922337203685477632).
Proof.
  intros G a s Ha. destruct (similar_iris_ok G a s Ha) as (s' & x & E & W). exists s', x. split; [exact E|]. split; [exact W|]. intros i Hi.
  exact (similar_iris_spec G a s s' x Ha E i Hi).
Qed.
Print Assumptions C52_similar.

(** ** Tables *)
Section Created.
  Variable G : rng.
  Context {X C : Type}.
  Variable R : (pid -> X) -> Z -> Prop.
  Variable deal : Z -> rstate G -> rstate G * (X * X * X).
  Variable cols : list (X * X * X) -> C.
  Hypothesis deal_ok : forall (b : bool) s, R (fun i => pick3 i (snd (deal (Z.b2z b) s))) (Z.b2z b).
  Lemma created_rows calls : exists tbl l, created (create G deal cols) calls [] = Ok tbl /\ Forall2 (stores R cols) tbl l /\ length tbl = list_sum (map fst calls) /\ Forall (sampled G) l.
  Proof using deal_ok.
    enough (H : forall tbl0 l0, Forall2 (stores R cols) tbl0 l0 -> Forall (sampled G) l0 -> exists tbl l, fold_left (fun t ns => rbind t (create G deal cols (fst ns) (snd ns))) calls (Ok tbl0) = Ok tbl /\
      Forall2 (stores R cols) tbl l /\ length tbl = (length tbl0 + list_sum (map fst calls))%nat /\ Forall (sampled G) l) by exact (H [] [] (Forall2_nil _) (Forall_nil _)).
    induction calls as [|[n s] calls IH]; intros tbl0 l0 H0 S0; [exists tbl0, l0; cbn; split; [reflexivity|]; split; [exact H0|]; split; [apply plus_n_O|exact S0]|].
    cbn [fold_left rbind fst snd]. destruct (create_ok G R deal cols deal_ok n s tbl0 l0 H0) as (tbl1 & l1 & E & HF & L & S1). rewrite E.
    destruct (IH tbl1 _ HF (proj2 (Forall_app _ _ _) (conj S0 S1))) as (tbl & l & E2 & HF2 & L2 & S2). exists tbl, l. split; [exact E2|]. split; [exact HF2|]. split; [|exact S2]. rewrite L2. cbn [map list_sum fold_right fst].
    rewrite (PolyProofs.Forall2_len _ _ _ HF), app_length, L, (PolyProofs.Forall2_len _ _ _ H0). symmetry. apply Nat.add_assoc.
  Qed.
End Created.

Lemma stored_rows {X C} G (R : (pid -> X) -> Z -> Prop) (cols : list (X * X * X) -> C) tbl l : Forall2 (stores R cols) tbl l -> Forall (sampled G) l ->
  Forall2 (fun x a => row_iris x = Ok a /\ wf_iris a /\ sampled G a) tbl l.
Proof.
  induction 1 as [|x a tbl l Hx HF IH]; intros HS; constructor; inversion HS; subst; [|auto]. split; [apply (row_iris_ok _ _ _ _ Hx)|]. split; [apply Hx|assumption].
Qed.
(** The parties hold shares of these codes, and their masks. *)
Definition holds {X} (R : (pid -> X) -> Z -> Prop) (L : pid -> list (list X * code)) (irises : list iris) : Prop :=
  vec_shared (vec_shared R) (fun i => map fst (L i)) (map (fun a => code_vals (ir_code a)) irises) /\ forall i, map snd (L i) = map ir_mask irises.

(** create_sample_data always succeeds, also on a file that exists already; the clear columns are irises from the sampler
    (C52_random), and what the three parties read from it are shares of these. *)
Theorem C52_create_aby3 : forall G calls, exists tbl irises, created (create_aby3 G) calls [] = Ok tbl /\ length tbl = list_sum (map fst calls) /\
  Forall2 (fun x a => row_iris x = Ok a /\ wf_iris a /\ sampled G a) tbl irises /\
  exists L, (forall i, aby3_read_db (pid_num i) tbl = Ok (L i)) /\ holds (arith_shared 16) L irises.
Proof.
  intros G calls. destruct (created_rows G (arith_shared 16) (share_value G 16) aby3_cols (aby3_deal G) calls) as (tbl & l & E & HF & HL & HS).
  exists tbl, l. split; [exact E|]. split; [exact HL|]. split.
  - exact (stored_rows _ _ _ _ _ HF HS).
  - destruct (read_rows_ok (arith_shared 16) aby3_cols aby3_read_row aby3_read_ok tbl l HF) as (L & E1 & E2 & E3). exists L. split.
    + intros i. unfold aby3_read_db. rewrite party_num. apply E1.
    + split; [apply RL_vec2, E3|exact E2].
Qed.
Print Assumptions C52_create_aby3.
Theorem C52_create_swift3 : forall G calls, exists tbl irises, created (create_swift3 G) calls [] = Ok tbl /\ length tbl = list_sum (map fst calls) /\
  Forall2 (fun x a => row_iris x = Ok a /\ wf_iris a /\ sampled G a) tbl irises /\
  exists L, (forall i, swift3_read_db (pid_num i) tbl = Ok (L i)) /\ holds (arith3 16) L irises.
Proof.
  intros G calls. destruct (created_rows G (arith3 16) (share3_value G 16) swift3_cols (swift3_deal G) calls) as (tbl & l & E & HF & HL & HS).
  exists tbl, l. split; [exact E|]. split; [exact HL|]. split.
  - exact (stored_rows _ _ _ _ _ HF HS).
  - destruct (read_rows_ok (arith3 16) swift3_cols swift3_read_row swift3_read_ok tbl l HF) as (L & E1 & E2 & E3). exists L. split.
    + intros i. unfold swift3_read_db. rewrite party_num. apply E1.
    + split; [apply RL_vec2, E3|exact E2].
Qed.
Print Assumptions C52_create_swift3.

Lemma create_spdz_ok G n s : exists db key l, create_spdz G n s (Zdb [] []) = Ok db /\ zstores db key l /\ length (z_rows db) = n /\ Forall (sampled G) l.
Proof.
  unfold create_spdz. pose proof (draw_range G 64 s ltac:(lia)) as Hk. destruct (draw G 64 s) as [s1 key]. cbn [snd] in Hk.
  destruct (random_irises_ok G n s1) as (s2 & l & E & W & L & HSa). rewrite E. cbn [rbind fst snd].
  pose proof (share_value_ok G 64 key s2 ltac:(lia) Hk) as HS. destruct (share_value G 64 key s2) as [s3 [[t0 t1] t2]].
  destruct (make_rows_ok G (spdz_shared 16 key) (fun x => spdz_share_value G 16 x key) spdz_cols (spdz_deal G key) l W s3) as (s4 & rs & E2 & HF). rewrite E2. cbn [rbind fst snd z_keys z_rows app].
  eexists _, key, l. split; [reflexivity|]. split; [|split; [cbn [z_rows]; rewrite (PolyProofs.Forall2_len _ _ _ HF); exact L|exact HSa]].
  split; [exact Hk|]. split; [|exact HF]. exists (t0, t1, t2). split; [|reflexivity]. eapply arel_ext; [|exact HS]. intros []; reflexivity.
Qed.
(** SPDZ-wise tables also hold the shared MAC key; the parties read the same clear key (the query is shared under it). *)
Theorem C52_create_spdz : forall G n s, exists db irises key, create_spdz G n s (Zdb [] []) = Ok db /\ length (z_rows db) = n /\
  Forall2 (fun x a => row_iris x = Ok a /\ wf_iris a /\ sampled G a) (z_rows db) irises /\
  exists D L, (forall i, spdz_read_db (pid_num i) db = Ok (D i, key, L i)) /\ arith_shared 64 (fun i => am (D i)) key /\ holds (spdz_shared 16 key) L irises.
Proof.
  intros G n s. destruct (create_spdz_ok G n s) as (db & key & l & E & HZ & HL & HS). exists db, l, key. split; [exact E|]. split; [exact HL|]. destruct HZ as (Hk & (t & Ht & Ek) & HF). split.
  - exact (stored_rows _ _ _ _ _ HF HS).
  - destruct (random_iris_ok G s) as (q' & x & Eq & Wx).
    destruct (spdz_inputs G false s db key l q' x (conj Hk (conj (ex_intro _ t (conj Ht Ek)) HF)) Eq Wx) as (D & L & Q & E1 & E2 & E0 & E3 & E4 & E5).
    exists D, L. split; [exact E1|]. split; [exact E0|]. split; [apply RL_vec2, E4|exact E3].
Qed.
Print Assumptions C52_create_spdz.
(** A second run of create_sample_data on the same file makes it unreadable (as does a file without a key). *)
Theorem C52_spdz_twice : forall G calls db i, length calls <> 1%nat -> created (create_spdz G) calls (Zdb [] []) = Ok db ->
  spdz_read_db (pid_num i) db = Err EOther.
Proof.
  intros G calls db i Hl E.
  assert (H : forall db0, created (create_spdz G) calls db0 = Ok db -> Forall (fun k => exists key a b c, inr 64 key /\ inr 64 a /\ inr 64 b /\ inr 64 c /\ k = (bc_uint 8 key, (bc_uint 8 a, bc_uint 8 b, bc_uint 8 c))) (z_keys db0) ->
    length (z_keys db) = (length (z_keys db0) + length calls)%nat /\ Forall (fun k => exists key a b c, inr 64 key /\ inr 64 a /\ inr 64 b /\ inr 64 c /\ k = (bc_uint 8 key, (bc_uint 8 a, bc_uint 8 b, bc_uint 8 c))) (z_keys db)).
  { clear Hl E. unfold created. induction calls as [|[n s] calls IH]; intros db0 E HF.
    - cbn in E. injection E as <-. rewrite Nat.add_0_r. auto.
    - cbn [fold_left rbind fst snd] in E. destruct (create_spdz G n s db0) as [db1|e] eqn:E1.
      + unfold create_spdz in E1. pose proof (draw_range G 64 s ltac:(lia)) as Hk. destruct (draw G 64 s) as [s1 key]. cbn [snd] in Hk.
        destruct (random_irises G n s1) as [[s2 l]|e]; [|discriminate]. cbn [rbind fst snd] in E1.
        pose proof (share_value_ok G 64 key s2 ltac:(lia) Hk) as HS. destruct (share_value G 64 key s2) as [s3 [[t0 t1] t2]]. destruct HS as (HR & _).
        destruct (make_rows _ _ _ _ _) as [sr|e]; [|discriminate]. cbn [rbind] in E1. injection E1 as <-.
        destruct (IH _ E) as [L1 F1].
        * cbn [z_keys]. apply Forall_app. split; [exact HF|]. repeat constructor. exists key, (sa t0), (sa t1), (sa t2). split; [exact Hk|].
          split; [apply (HR P0)|]. split; [apply (HR P1)|]. split; [apply (HR P2)|]. reflexivity.
        * split; [|exact F1]. rewrite L1. cbn [z_keys length]. rewrite app_length. cbn [length]. lia.
      + exfalso. clear - E. induction calls as [|c calls IH]; [discriminate|]. apply IH, E. }
  destruct (H _ E (Forall_nil _)) as [HL HF]. cbn [z_keys length Nat.add] in HL. unfold spdz_read_db. rewrite party_num. cbn [rbind]. unfold spdz_read_key.
  destruct (z_keys db) as [|[k cs] rest]; [reflexivity|]. inversion HF as [|? ? (key & a & b & c & Rk & Ra & Rb & Rc & Ek) _]; subst. injection Ek as -> ->.
  destruct rest; [cbn in HL; congruence|].
  destruct i; unfold own_prev; cbn [pick3 fst3 snd3 thd3 fst snd prev]; rewrite !dec_enc_one by assumption; reflexivity.
Qed.
Print Assumptions C52_spdz_twice.
(** An unknown party number on the command line is refused. *)
Theorem C52_party : forall n t1 t2 t3, n <> 0 -> n <> 1 -> n <> 2 ->
  aby3_read_db n t1 = Err (EId n) /\ swift3_read_db n t2 = Err (EId n) /\ spdz_read_db n t3 = Err (EId n).
Proof.
  intros n t1 t2 t3 H0 H1 H2. unfold aby3_read_db, swift3_read_db, spdz_read_db, party_of.
  rewrite (proj2 (Z.eqb_neq _ _) H0), (proj2 (Z.eqb_neq _ _) H1), (proj2 (Z.eqb_neq _ _) H2). auto.
Qed.
Print Assumptions C52_party.

(** ** The plain programs *)
(** create_sample_data_plain and find_match: the answer is whether some stored iris is close to the query; it panics if one has too few
    valid positions in common with it. *)
Theorem C52_plain : forall G calls m s, exists tbl irises, created (create_plain G) calls [] = Ok tbl /\
  Forall2 (fun x a => row_iris x = Ok a /\ wf_iris a /\ sampled G a) tbl irises /\
  (find_match_main G tbl m s = Err EOther /\ m = true /\ tbl = [] \/
   exists s' x, query_iris G tbl m s = Ok (s', x) /\ wf_iris x /\
     match find_match_main G tbl m s with
     | Ok b => Forall (enough_valid x) irises /\ (b = true <-> Exists (close x) irises)
     | Err e => e = EPanic /\ Exists (fun a => ~ enough_valid x a) irises
     end).
Proof.
  intros G calls m s. destruct (created_rows G (fun (_ : pid -> unit) (_ : Z) => True) (fun _ s => (s, (tt, tt, tt))) (fun _ => tt) (fun _ _ => I) calls) as (tbl & l & E & HF & _ & HS).
  exists tbl, l. split; [exact E|]. split; [exact (stored_rows _ _ _ _ _ HF HS)|].
  unfold find_match_main. destruct (query_iris_ok G _ _ tbl l m s HF) as [(Hm & Ht & Eq)|(s' & x & Eq & Wx)]; rewrite Eq; cbn [rbind snd]; [left; auto|right].
  exists s', x. split; [reflexivity|]. split; [exact Wx|]. destruct (find_match_ok _ _ tbl l x Wx HF) as [(Ef & HE)|(r & Ef & Hv & Hr)]; rewrite Ef; auto.
Qed.
Print Assumptions C52_plain.

(** ** The MPC programs.  [find_match tbl x = Ok b]: the plain search over the same table finds b (C52_plain says what that is). *)
Lemma plain_answer {X C} (R : (pid -> X) -> Z -> Prop) (cols : list (X * X * X) -> C) tbl l x b : Forall2 (stores R cols) tbl l -> wf_iris x ->
  find_match tbl x = Ok b -> Forall (enough_valid x) l /\ b = existsb (matches x) l.
Proof.
  intros HS Hx Hb. destruct (find_match_ok _ _ tbl l x Hx HS) as [(Ef & HE)|(r & Ef & Hv & Hr)]; rewrite Hb in Ef; [discriminate|]. injection Ef as <-. split; [exact Hv|].
  pose proof (matches_spec x l) as HM. apply Bool.eq_true_iff_eq. rewrite Hr, HM. reflexivity.
Qed.
Lemma plain_panic {X C} (R : (pid -> X) -> Z -> Prop) (cols : list (X * X * X) -> C) tbl l x e : Forall2 (stores R cols) tbl l -> wf_iris x ->
  find_match tbl x = Err e -> exists a, In a l /\ wf_iris a /\ count (fun i => bit_at (ir_mask x) i && bit_at (ir_mask a) i) < 8960.
Proof.
  intros HS Hx Hb. destruct (find_match_ok _ _ tbl l x Hx HS) as [(Ef & HE)|(r & Ef & Hv & Hr)]; rewrite Hb in Ef; [|discriminate].
  apply Exists_exists in HE. destruct HE as (a & Ha & HE). exists a. split; [exact Ha|]. pose proof (stores_wf _ _ _ _ HS) as W. rewrite Forall_forall in W. split; [apply W, Ha|].
  unfold enough_valid in HE. change (fun i => bit_at (ir_mask x) i && bit_at (ir_mask a) i) with (both_valid x a). lia.
Qed.
Lemma query_wf {X C} G (R : (pid -> X) -> Z -> Prop) (cols : list (X * X * X) -> C) tbl l m s s' x : Forall2 (stores R cols) tbl l -> query_iris G tbl m s = Ok (s', x) -> wf_iris x.
Proof. intros HS E. destruct (query_iris_ok G _ _ tbl l m s HS) as [(_ & _ & E')|(s2 & x2 & E' & W)]; rewrite E' in E; [discriminate|]. injection E as <- <-. exact W. Qed.
Lemma rows_len {X C} (R : (pid -> X) -> Z -> Prop) (cols : list (X * X * X) -> C) tbl l : Forall2 (stores R cols) tbl l -> tbl <> [] -> (0 < length l)%nat.
Proof. intros HS Hn. rewrite <- (PolyProofs.Forall2_len _ _ _ HS). destruct tbl; [congruence|]. cbn. lia. Qed.
Ltac made HC G R deal cols ok calls l HF :=
  let tbl := fresh "tbl" in let E := fresh "E" in let HL := fresh in
  destruct (created_rows G R deal cols ok calls) as (tbl & l & E & HF & HL); clear HL;
  match type of HC with ?x = Ok ?t => change (x = Ok t) in HC; change (created _ calls [] = Ok tbl) with (x = Ok tbl) in E; rewrite HC in E; injection E as <- end.

(** Every honest run of the ABY3 example (any number of runs, any schedule of messages) ends with the answer of the plain search at all parties. *)
Theorem C52_aby3 : forall G calls tbl m q q' x b chunk runs s, created (create_aby3 G) calls [] = Ok tbl -> tbl <> [] ->
  query_iris G tbl m q = Ok (q', x) -> find_match tbl x = Ok b -> (0 < chunk)%nat -> Forall (fun r => forall i : pid, length (snd (r i : prf G * list Z)) = 32%nat) runs ->
  honest_run (fun i => aby3_example G i m q chunk tbl (map (fun r => r i) runs)) s (fun _ R => forall i, R i = repeat b (length runs)).
Proof.
  intros G calls tbl m q q' x b chunk runs s HC Hne HQ Hb Hc HS.
  made HC G (arith_shared 16) (share_value G 16) aby3_cols (aby3_deal G) calls l HF. pose proof (query_wf G _ _ _ _ _ _ _ _ HF HQ) as Wx. destruct (plain_answer _ _ _ _ _ _ HF Wx Hb) as [Hv ->].
  apply wpM_honest. exact (aby3_example_ok G m q chunk Hc tbl l q' x HF HQ Wx Hv (rows_len _ _ _ _ HF Hne) runs s HS).
Qed.
Print Assumptions C52_aby3.
Theorem C52_aby3_mal : forall G H calls tbl m q q' x b chunk (f : pid -> prf G) sd1 sd2 rd1 rd2 s, created (create_aby3 G) calls [] = Ok tbl -> tbl <> [] ->
  query_iris G tbl m q = Ok (q', x) -> find_match tbl x = Ok b -> (0 < chunk)%nat ->
  (forall i : pid, length (sd1 i) = 32%nat /\ length (sd2 i) = 32%nat /\ length (rd1 i) = 32%nat /\ length (rd2 i) = 32%nat) ->
  (forall i, Forall (inr 8) (sd1 i) /\ Forall (inr 8) (sd2 i)) ->
  honest_run (fun i => mal_example G i m q chunk H tbl (f i) (sd1 i) (sd2 i) (rd1 i) (rd2 i)) s (fun _ R => forall i, R i = b).
Proof.
  intros G H calls tbl m q q' x b chunk f sd1 sd2 rd1 rd2 s HC Hne HQ Hb Hc HL HR.
  made HC G (arith_shared 16) (share_value G 16) aby3_cols (aby3_deal G) calls l HF. pose proof (query_wf G _ _ _ _ _ _ _ _ HF HQ) as Wx. destruct (plain_answer _ _ _ _ _ _ HF Wx Hb) as [Hv ->].
  apply wpM_honest. exact (mal_example_ok G m q chunk Hc H tbl l q' x HF HQ Wx Hv (rows_len _ _ _ _ HF Hne) f sd1 sd2 rd1 rd2 s HL HR).
Qed.
Print Assumptions C52_aby3_mal.
(** Swift3: whoever returns, returns that answer; everybody returns unless a party stops (cf. C47 for when). *)
Theorem C52_swift3 : forall G H calls tbl m q q' x b chunk fuel em ea ed (k1 k2 k3 sd1 sd2 sd3 rd1 rd2 rd3 : pid -> list Z) s, created (create_swift3 G) calls [] = Ok tbl -> tbl <> [] ->
  query_iris G tbl m q = Ok (q', x) -> find_match tbl x = Ok b -> (0 < chunk)%nat ->
  (forall i, length (sd1 i) = 32%nat /\ length (sd2 i) = 32%nat /\ length (sd3 i) = 32%nat /\ length (rd1 i) = 32%nat /\ length (rd2 i) = 32%nat /\ length (rd3 i) = 32%nat) ->
  (forall i, Forall (inr 8) (sd1 i) /\ Forall (inr 8) (sd2 i) /\ Forall (inr 8) (sd3 i)) ->
  right_or_stopped (fun i => swift3_example G i m q chunk H tbl (k1 i) (k2 i) (k3 i) (sd1 i) (sd2 i) (sd3 i) (rd1 i) (rd2 i) (rd3 i) fuel (em i) (ea i) (ed i)) s (fun _ => b).
Proof.
  intros G H calls tbl m q q' x b chunk fuel em ea ed k1 k2 k3 sd1 sd2 sd3 rd1 rd2 rd3 s HC Hne HQ Hb Hc HL HR.
  made HC G (arith3 16) (share3_value G 16) swift3_cols (swift3_deal G) calls l HF. pose proof (query_wf G _ _ _ _ _ _ _ _ HF HQ) as Wx. destruct (plain_answer _ _ _ _ _ _ HF Wx Hb) as [Hv ->].
  exact (swift3_example_ok G m q chunk Hc H tbl l q' x HF HQ Wx Hv (rows_len _ _ _ _ HF Hne) fuel em ea ed k1 k2 k3 sd1 sd2 sd3 rd1 rd2 rd3 s HL HR).
Qed.
Print Assumptions C52_swift3.
(** SPDZ-wise: the answer if the AND triples suffice (word counts of the specification, [leftover] in TripleSpec); all parties panic otherwise. *)
Theorem C52_spdz : forall G H n0 s0 db m q q' x b chunk runs s, create_spdz G n0 s0 (Zdb [] []) = Ok db -> (0 < n0)%nat ->
  query_iris G (z_rows db) m q = Ok (q', x) -> find_match (z_rows db) x = Ok b -> (0 < chunk)%nat -> Forall (fun r => forall i : pid, length (snd (r i : prf G * list Z)) = 32%nat) runs ->
  match leftover 16 (Z.of_nat n0) (Z.of_nat chunk) 0 with
  | Some _ => honest_run (fun i => spdz_example G i m q chunk H db (map (fun r => r i) runs)) s (fun _ R => forall i, R i = repeat b (length runs))
  | None => runs <> [] -> honest_failure (fun i => spdz_example G i m q chunk H db (map (fun r => r i) runs)) s EPanic
  end.
Proof.
  intros G H n0 s0 db m q q' x b chunk runs s HC Hn HQ Hb Hc HS. destruct (create_spdz_ok G n0 s0) as (db' & key & l & E & HZ & HL & _). rewrite HC in E. injection E as <-.
  pose proof (proj2 (proj2 HZ)) as HF. pose proof (query_wf G _ _ _ _ _ _ _ _ HF HQ) as Wx. destruct (plain_answer _ _ _ _ _ _ HF Wx Hb) as [Hv ->].
  assert (HLl : length l = n0) by (rewrite <- HL; symmetry; apply (PolyProofs.Forall2_len _ _ _ HF)). rewrite <- HLl in *.
  destruct (leftover 16 (Z.of_nat (length l)) (Z.of_nat chunk) 0) as [p|] eqn:EL.
  - apply wpM_honest. apply (spdz_example_ok G m q chunk Hc H db key l q' x HZ HQ Wx Hv Hn runs s HS). congruence.
  - intros Hr. apply failsM_honest. exact (spdz_example_fails G m q chunk Hc H db key l q' x HZ HQ Wx Hv Hn runs s HS Hr EL).
Qed.
Print Assumptions C52_spdz.
(** With the default chunk size of the example, 1024, they suffice for every table. *)
Theorem C52_spdz_default : forall G H n0 s0 db m q q' x b runs s, create_spdz G n0 s0 (Zdb [] []) = Ok db -> (0 < n0)%nat ->
  query_iris G (z_rows db) m q = Ok (q', x) -> find_match (z_rows db) x = Ok b -> Forall (fun r => forall i : pid, length (snd (r i : prf G * list Z)) = 32%nat) runs ->
  honest_run (fun i => spdz_example G i m q (Z.to_nat 1024) H db (map (fun r => r i) runs)) s (fun _ R => forall i, R i = repeat b (length runs)).
Proof.
  intros G H n0 s0 db m q q' x b runs s HC Hn HQ Hb HS. pose proof (C52_spdz G H n0 s0 db m q q' x b (Z.to_nat 1024) runs s HC Hn HQ Hb ltac:(lia) HS) as T.
  destruct (leftovers_aligned 16 8 [(Z.of_nat n0, 1024)] ltac:(lia) ltac:(lia)) with (p := 0) as [p E].
  - repeat constructor; cbn [fst snd]; lia.
  - lia.
  - cbn [leftovers] in E. rewrite Z2Nat.id in T by lia. destruct (leftover 16 (Z.of_nat n0) 1024 0); [exact T|discriminate].
Qed.
Print Assumptions C52_spdz_default.

(** Where the plain search panics, no party of the MPC programs obtains an answer, whatever messages it receives. *)
Theorem C52_low_mask : forall G i m q chunk H,
  (forall calls tbl q' x runs s, created (create_aby3 G) calls [] = Ok tbl -> query_iris G tbl m q = Ok (q', x) -> find_match tbl x = Err EPanic -> runs <> [] ->
     no_result (aby3_example G i m q chunk tbl runs s)) /\
  (forall calls tbl q' x f sd1 sd2 rd1 rd2 s, created (create_aby3 G) calls [] = Ok tbl -> query_iris G tbl m q = Ok (q', x) -> find_match tbl x = Err EPanic ->
     no_result (mal_example G i m q chunk H tbl f sd1 sd2 rd1 rd2 s)) /\
  (forall calls tbl q' x k1 k2 k3 sd1 sd2 sd3 rd1 rd2 rd3 fuel em ea ed s, created (create_swift3 G) calls [] = Ok tbl -> query_iris G tbl m q = Ok (q', x) -> find_match tbl x = Err EPanic ->
     no_result (swift3_example G i m q chunk H tbl k1 k2 k3 sd1 sd2 sd3 rd1 rd2 rd3 fuel em ea ed s)) /\
  (forall n0 s0 db q' x runs s, create_spdz G n0 s0 (Zdb [] []) = Ok db -> query_iris G (z_rows db) m q = Ok (q', x) -> find_match (z_rows db) x = Err EPanic -> runs <> [] ->
     no_result (spdz_example G i m q chunk H db runs s)).
Proof.
  intros G i m q chunk H.
  assert (RES : forall S A B (v : A) (f : A -> M S B), no_resultM (f v) -> no_resultM (bindM (resM (Ok v)) f)) by (intros S A B v f Hf s; apply Hf).
  split; [|split; [|split]].
  - intros calls tbl q' x runs s HC HQ Hb Hr. made HC G (arith_shared 16) (share_value G 16) aby3_cols (aby3_deal G) calls l HF. pose proof (query_wf G _ _ _ _ _ _ _ _ HF HQ) as Wx.
    destruct (plain_panic _ _ _ _ _ _ HF Wx Hb) as (a & Ha & Wa & Hlow). destruct (aby3_inputs G m q tbl l q' x HF HQ Wx) as (L & Q & E1 & E2 & E3 & _).
    revert s. change (no_resultM (aby3_example G i m q chunk tbl runs)). unfold aby3_example. rewrite E1. apply RES. rewrite E2. apply RES. cbn [fst snd].
    destruct runs as [|r runs]; [congruence|]. cbn [mapM]. apply no_resultM_bind_l. apply no_resultM_bind_r. intros _. apply no_resultM_bind_r. intros _. apply no_resultM_bind_r. intros _.
    rewrite E3. intros s. apply (iris_in_db_low_mask _ _ _ _ _ _ (ir_mask a)); [apply Wx|apply Wa|apply in_map, Ha|exact Hlow].
  - intros calls tbl q' x f sd1 sd2 rd1 rd2 s HC HQ Hb. made HC G (arith_shared 16) (share_value G 16) aby3_cols (aby3_deal G) calls l HF. pose proof (query_wf G _ _ _ _ _ _ _ _ HF HQ) as Wx.
    destruct (plain_panic _ _ _ _ _ _ HF Wx Hb) as (a & Ha & Wa & Hlow). destruct (aby3_inputs G m q tbl l q' x HF HQ Wx) as (L & Q & E1 & E2 & E3 & _).
    revert s. change (no_resultM (mal_example G i m q chunk H tbl f sd1 sd2 rd1 rd2)). unfold mal_example. rewrite E1. apply RES. rewrite E2. apply RES. cbn [fst snd].
    do 3 (apply no_resultM_bind_r; intros _).
    rewrite E3. intros s. apply (iris_in_db_low_mask _ _ _ _ _ _ (ir_mask a)); [apply Wx|apply Wa|apply in_map, Ha|exact Hlow].
  - intros calls tbl q' x k1 k2 k3 sd1 sd2 sd3 rd1 rd2 rd3 fuel em ea ed s HC HQ Hb. made HC G (arith3 16) (share3_value G 16) swift3_cols (swift3_deal G) calls l HF. pose proof (query_wf G _ _ _ _ _ _ _ _ HF HQ) as Wx.
    destruct (plain_panic _ _ _ _ _ _ HF Wx Hb) as (a & Ha & Wa & Hlow). destruct (swift3_inputs G m q tbl l q' x HF HQ Wx) as (L & Q & E1 & E2 & E3 & _).
    revert s. change (no_resultM (swift3_example G i m q chunk H tbl k1 k2 k3 sd1 sd2 sd3 rd1 rd2 rd3 fuel em ea ed)). unfold swift3_example. rewrite E1. apply RES. rewrite E2. apply RES. cbn [fst snd].
    do 3 (apply no_resultM_bind_r; intros _).
    rewrite E3. intros s. apply (iris_in_db_low_mask _ _ _ _ _ _ (ir_mask a)); [apply Wx|apply Wa|apply in_map, Ha|exact Hlow].
  - intros n0 s0 db q' x runs s HC HQ Hb Hr. destruct (create_spdz_ok G n0 s0) as (db' & key & l & E & HZ & HL & _). rewrite HC in E. injection E as <-. pose proof (proj2 (proj2 HZ)) as HF.
    pose proof (query_wf G _ _ _ _ _ _ _ _ HF HQ) as Wx.
    destruct (plain_panic _ _ _ _ _ _ HF Wx Hb) as (a & Ha & Wa & Hlow). destruct (spdz_inputs G m q db key l q' x HZ HQ Wx) as (D & L & Q & E1 & E2 & _ & E3 & _).
    revert s. change (no_resultM (spdz_example G i m q chunk H db runs)). unfold spdz_example. rewrite E1. apply RES. cbv beta iota. rewrite E2. apply RES. cbn [fst snd].
    destruct runs as [|r runs]; [congruence|]. cbn [mapM]. apply no_resultM_bind_l. do 3 (apply no_resultM_bind_r; intros _).
    rewrite E3. intros s. apply (iris_in_db_low_mask _ _ _ _ _ _ (ir_mask a)); [apply Wx|apply Wa|apply in_map, Ha|exact Hlow].
Qed.
Print Assumptions C52_low_mask.

(** An empty table: plain search answers "no match", the MPC programs do not answer (InvalidSize). *)
Theorem C52_empty : forall G i m q chunk H,
  (m = true -> find_match_main G (@nil (row unit)) m q = Err EOther) /\ (m = false -> find_match_main G (@nil (row unit)) m q = Ok false) /\
  (forall runs s, runs <> [] -> no_result (aby3_example G i m q chunk [] runs s)) /\
  (forall f sd1 sd2 rd1 rd2 s, no_result (mal_example G i m q chunk H [] f sd1 sd2 rd1 rd2 s)) /\
  (forall k1 k2 k3 sd1 sd2 sd3 rd1 rd2 rd3 fuel em ea ed s, no_result (swift3_example G i m q chunk H [] k1 k2 k3 sd1 sd2 sd3 rd1 rd2 rd3 fuel em ea ed s)) /\
  (forall keys runs s, runs <> [] -> no_result (spdz_example G i m q chunk H (Zdb keys []) runs s)).
Proof.
  intros G i m q chunk H.
  assert (RES : forall S A B (r : res A) (f : A -> M S B), (forall v, r = Ok v -> no_resultM (f v)) -> no_resultM (bindM (resM r) f)).
  { intros S A B [v|e] f Hf s; [apply (Hf v eq_refl)|constructor]. }
  assert (BAD : forall S A B (e : mpc S A B) signed iris mask s, no_result (iris_in_db e signed iris [] mask [] chunk s)).
  { intros. rewrite iris_in_db_bad_size; [constructor|right; reflexivity]. }
  split; [intros ->; reflexivity|]. split.
  { intros ->. unfold find_match_main. cbn [query_iris]. destruct (random_iris_ok G q) as (s' & x & E & _). rewrite E. reflexivity. }
  split; [|split; [|split]].
  - intros runs s Hr. revert s. change (no_resultM (aby3_example G i m q chunk [] runs)). apply RES. intros db E. unfold aby3_read_db in E. rewrite party_num in E. cbn in E. injection E as <-.
    apply RES. intros x _. destruct runs as [|r runs]; [congruence|]. cbn [mapM]. apply no_resultM_bind_l. do 3 (apply no_resultM_bind_r; intros _). intros s. apply BAD.
  - intros f sd1 sd2 rd1 rd2 s. revert s. change (no_resultM (mal_example G i m q chunk H [] f sd1 sd2 rd1 rd2)). apply RES. intros db E. unfold aby3_read_db in E. rewrite party_num in E. cbn in E. injection E as <-.
    apply RES. intros x _. do 3 (apply no_resultM_bind_r; intros _). intros s. apply BAD.
  - intros k1 k2 k3 sd1 sd2 sd3 rd1 rd2 rd3 fuel em ea ed s. revert s. change (no_resultM (swift3_example G i m q chunk H [] k1 k2 k3 sd1 sd2 sd3 rd1 rd2 rd3 fuel em ea ed)).
    apply RES. intros db E. unfold swift3_read_db in E. rewrite party_num in E. cbn in E. injection E as <-.
    apply RES. intros x _. do 3 (apply no_resultM_bind_r; intros _). intros s. apply BAD.
  - intros keys runs s Hr. revert s. change (no_resultM (spdz_example G i m q chunk H (Zdb keys []) runs)). apply RES. intros [[ks key] l] E. unfold spdz_read_db in E. rewrite party_num in E. cbn [rbind z_keys z_rows] in E.
    destruct (spdz_read_key i keys) as [kk|e]; [|discriminate]. cbn in E. injection E as _ <-.
    apply RES. intros x _. destruct runs as [|r runs]; [congruence|]. cbn [mapM]. apply no_resultM_bind_l. do 3 (apply no_resultM_bind_r; intros _). intros s. apply BAD.
Qed.
Print Assumptions C52_empty.

(** The hypotheses are met: with a generator whose outputs are all ones, the table holds two equal codes with full masks, and the query is such a code;
    with one whose outputs are all 1, all masks are empty. *)
Definition max_rng : rng := {| rstate := unit; rseed := fun _ => tt; rdraw := fun _ K => (tt, 2 ^ K - 1) |}.
Lemma max_draw K s n : 0 <= K -> nth_draw max_rng K s n = 2 ^ K - 1.
Proof.
  intros HK. unfold nth_draw, draw. cbn [rdraw max_rng snd]. unfold norm. apply Z.mod_small. pose proof (pow2_pos K HK). lia.
Qed.
Lemma one_draw s n : nth_draw one_rng 64 s n = 1.
Proof. unfold nth_draw, draw. cbn [rdraw one_rng snd]. reflexivity. Qed.
Lemma full_close x : wf_iris x -> (forall i, 0 <= i < 12800 -> bit_at (ir_mask x) i = true) -> is_close x x = Ok true.
Proof.
  intros Wx HM. apply is_close_spec; [exact Wx|exact Wx|].
  assert (E : count (both_valid x x) = 12800) by (apply count_all; intros i Hi; unfold both_valid; rewrite HM by exact Hi; reflexivity).
  unfold enough_valid, close. rewrite E. split; [lia|]. rewrite count_none; [reflexivity|]. intros i Hi. unfold differ. rewrite xorb_nilpotent. reflexivity.
Qed.
Lemma same_rows {C} G (tbl : list (row C)) l x : (forall a, sampled G a -> a = x) -> Forall2 (fun x a => row_iris x = Ok a /\ wf_iris a /\ sampled G a) tbl l ->
  forall b, is_close x x = Ok b -> find_match tbl x = Ok (match tbl with [] => false | _ => b end).
Proof.
  intros HS HF b Hb. unfold find_match.
  assert (E : mapM_res (fun y => rbind (row_iris y) (fun a => is_close a x)) tbl = Ok (map (fun _ => b) tbl)).
  { induction HF as [|y a tbl l (Ea & Wa & Sa) _ IH]; [reflexivity|]. cbn [mapM_res map]. rewrite Ea, (HS a Sa). cbn [rbind]. rewrite Hb, IH. reflexivity. }
  rewrite E. cbn [rbind]. f_equal. destruct tbl as [|y tbl]; [reflexivity|]. cbn [map existsb]. destruct b; [reflexivity|]. clear. induction tbl as [|z tbl IH]; [reflexivity|exact IH].
Qed.
Lemma max_sampled : exists x, random_iris max_rng tt = Ok (tt, x) /\ is_close x x = Ok true /\ forall a, sampled max_rng a -> a = x.
Proof.
  destruct (C52_random max_rng tt) as ([] & x & E & Wx & HB). exists x. split; [exact E|]. split.
  - apply full_close; [exact Wx|]. intros i Hi. destruct (HB i Hi) as [_ ->]. rewrite max_draw by lia. reflexivity.
  - intros a ([] & [] & Ea). congruence.
Qed.
Example C52_example : exists tbl zdb x, created (create_aby3 max_rng) [(1%nat, tt); (2%nat, tt)] [] = Ok tbl /\ length tbl = 3%nat /\
  query_iris max_rng tbl false tt = Ok (tt, x) /\ find_match tbl x = Ok true /\
  create_spdz max_rng 2 tt (Zdb [] []) = Ok zdb /\ query_iris max_rng (z_rows zdb) false tt = Ok (tt, x) /\ find_match (z_rows zdb) x = Ok true.
Proof.
  destruct max_sampled as (x & E & Hx & HU). destruct (C52_create_aby3 max_rng [(1%nat, tt); (2%nat, tt)]) as (tbl & l & E1 & L1 & F1 & _).
  destruct (C52_create_spdz max_rng 2 tt) as (zdb & l2 & key & E2 & L2 & F2 & _). exists tbl, zdb, x. split; [exact E1|]. split; [exact L1|]. split; [exact E|].
  split; [|split; [exact E2|split; [exact E|]]].
  - rewrite (same_rows _ _ _ _ HU F1 true Hx). destruct tbl; [discriminate L1|reflexivity].
  - rewrite (same_rows _ _ _ _ HU F2 true Hx). destruct (z_rows zdb); [discriminate L2|reflexivity].
Qed.
Example C52_example_swift3 : exists tbl x, created (create_swift3 max_rng) [(2%nat, tt)] [] = Ok tbl /\ length tbl = 2%nat /\
  query_iris max_rng tbl false tt = Ok (tt, x) /\ find_match tbl x = Ok true.
Proof.
  destruct max_sampled as (x & E & Hx & HU). destruct (C52_create_swift3 max_rng [(2%nat, tt)]) as (tbl & l & E1 & L1 & F1 & _).
  exists tbl, x. split; [exact E1|]. split; [exact L1|]. split; [exact E|]. rewrite (same_rows _ _ _ _ HU F1 true Hx). destruct tbl; [discriminate L1|reflexivity].
Qed.
Example C52_example_low_mask : exists tbl x, created (create_aby3 one_rng) [(1%nat, tt)] [] = Ok tbl /\ query_iris one_rng tbl false tt = Ok (tt, x) /\ find_match tbl x = Err EPanic.
Proof.
  destruct (C52_random one_rng tt) as ([] & x & E & Wx & HB). destruct (C52_create_aby3 one_rng [(1%nat, tt)]) as (tbl & l & E1 & L1 & F1 & _). exists tbl, x. split; [exact E1|]. split; [exact E|].
  inversion F1 as [|y a t l' (Ea & Wa & (s & s' & Sa)) F2]; subst; [discriminate L1|]. destruct s. rewrite E in Sa. injection Sa as _ <-.
  assert (HP : is_close x x = Err EPanic).
  { apply is_close_spec; [exact Wx|exact Wx|]. unfold enough_valid. rewrite count_none; [lia|]. intros i Hi. unfold both_valid. destruct (HB i Hi) as [_ ->]. rewrite one_draw. reflexivity. }
  unfold find_match. cbn [mapM_res]. rewrite Ea. cbn [rbind]. rewrite HP. reflexivity.
Qed.
