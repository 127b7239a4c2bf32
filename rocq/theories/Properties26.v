(** Property C60: the iris-code protocol on the maliciously secure ABY3 engine, one party being malicious. *)
From Verif Require Import Base Ring RingProofs Prog Sched Conc Rng Rel Net BinTrait BitArith BinProofs AddProofs Iris IrisSpec IrisProofs Protocol MpcSpec Plain Aby3 ShareSpec Aby3Proofs Aby3Proofs2 EngineProofs ProtocolProofs Jmp JmpProofs Session SessionProofs Aby3Mal Aby3MalProofs Aby3MalProofs2
  SacrificeProofs PropLemmas PropLemmas2 SpecProofs Duo DuoProofs PropLemmas5 MacSpec MacProofs Client ClientProofs Emits TripleMalMet Properties4 Properties22
  ProgMalSpec ProgMalDuo ProgMalOps ProgMalOps2 ProgMalOps3 ProgMalOps4 ProgMalExec ProgMalMet ProgMalSpec2 ProgMalInput ProgMalExec2 Properties23
  ProgMalBinSpec ProgMalBin ProgMalBin2 ProgMalBin3 ProgMalBin4 ProgMalBin5 ProgMalBin6 IrisMalSpec IrisMal IrisMal2 IrisMal3.
From Coq Require Import ZifyBool ZifyNat.

(** C60.  i and i+1 are honest; the query and the database are shared correctly; the third party sends whatever
    bytes it likes.  If i and i+1 finish, both answer the plain question (is some entry of the database close to
    the query?), or the hash collides, or the challenge of some sacrifice (of bit triples, of inner products)
    missed a wrong product. *)
Theorem C60_iris : forall G H i K signed X a DB bs chunk (s t s' t' : jst G) x y ti tj, In K widths -> 14 < K -> 40 <= verif_width K - K ->
  wf_iris a -> Forall wf_iris bs -> Forall (enough_valid a) bs -> (0 < length bs)%nat -> (0 < chunk)%nat ->
  vec_shared (arith_shared K) X (code_vals (ir_code a)) ->
  vec_shared (vec_shared (arith_shared K)) DB (map (fun b => code_vals (ir_code b)) bs) ->
  next_prf G (j_prf G t) = my_prf G (j_prf G s) ->
  let run p := iris_in_db (mal_engine G H p K) signed (X p) (DB p) (ir_mask a) (map ir_mask bs) chunk in
  duo_acts i (run i) (run (next i)) s t s' t' x y ti tj ->
  hash_collision G H s' t' \/ lucky_bits G H i (run i s) (run (next i) t) ti tj \/ lucky_dots G H K i (run i s) (run (next i) t) ti tj \/
  ((x = true <-> Exists (close a) bs) /\ (y = true <-> Exists (close a) bs)).
Proof.
  intros G H i K signed X a DB bs chunk s t s' t' x y ti tj HW HK HU Ha Hbs Hv Hl Hc HX HDB Hs run HD.
  assert (HK16 : 16 <= K) by (apply width_cases in HW; lia).
  pose proof (iris_X G H i K signed HW HK16 HU X a DB bs chunk s t Ha Hbs Hv Hl Hc (vec_RL _ _ _ HX) (vec2_RL _ _ _ HDB) Hs) as D.
  apply duoB_T in D. pose proof (duoB_acts i _ _ _ _ _ _ _ _ _ _ _ D HD) as R. cbn [fst snd] in R.
  destruct (R (hash_collision G H s' t' \/ lucky_bits G H i (run i s) (run (next i) t) ti tj \/ lucky_dots G H K i (run i s) (run (next i) t) ti tj)) as [_ O]; [tauto..|].
  destruct O as [O|[-> ->]]; [tauto|]. do 3 right. split; apply matches_spec.
Qed.
Print Assumptions C60_iris.

Theorem C60_met : forall G H i K signed X a DB bs chunk (s : pid -> jst G), In K widths -> 14 < K -> 40 <= verif_width K - K -> (forall x, bytes (hfun H x)) -> mal_ready s ->
  wf_iris a -> Forall wf_iris bs -> Forall (enough_valid a) bs -> (0 < length bs)%nat -> (0 < chunk)%nat ->
  vec_shared (arith_shared K) X (code_vals (ir_code a)) ->
  vec_shared (vec_shared (arith_shared K)) DB (map (fun b => code_vals (ir_code b)) bs) ->
  next_prf G (j_prf G (s (next i))) = my_prf G (j_prf G (s i)) /\
  let run p := iris_in_db (mal_engine G H p K) signed (X p) (DB p) (ir_mask a) (map ir_mask bs) chunk in
  exists s' t' x y ti tj, duo_acts i (run i) (run (next i)) (s i) (s (next i)) s' t' x y ti tj.
Proof.
  intros G H i K signed X a DB bs chunk s HW HK HU HH Hs Ha Hbs Hv Hl Hc HX HDB.
  assert (HK16 : 16 <= K) by (apply width_cases in HW; lia).
  split; [destruct Hs as [Hs _]; rewrite Hs; destruct i; reflexivity|]. cbv zeta.
  destruct (iris_in_db_ok (fun i => mal_engine G H i K) K _ _ _ _ _ _ _ _ _ (mal_mpc_ok G H K HW HU ltac:(lia)) HK16 signed tt s X a DB bs chunk Hs Ha Hbs Hv Hl Hc (vec_RL _ _ _ HX) (vec2_RL _ _ _ HDB) I) as (R & HE & _).
  pose proof (honest_duo i (fun q => iris_in_db (mal_engine G H q K) signed (X q) (DB q) (ir_mask a) (map ir_mask bs) chunk) s R HE (iris_emits G H K signed HH (prev i) _ _ _ _ _)) as HD.
  destruct (duo_run_acts _ _ _ _ _ _ _ _ _ HD) as (ti & tj & HA). do 6 eexists. exact HA.
Qed.
Print Assumptions C60_met.
