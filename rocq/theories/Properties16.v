(** Properties C50, C51: what one party of the semi-honest ABY3 engine learns. *)
From Verif Require Import Base Ring RingProofs BitArith Prog Sched Rel Rng Net BinTrait Iris IrisSpec IrisProofs Protocol MpcSpec ProtocolProofs Aby3 ShareSpec Aby3Proofs EngineProofs SpecProofs
  Client ClientProofs Apis ApiProofs PropLemmas PropLemmas2 PropLemmas3 ViewSpec Private PrivateOps PrivateAby3 PrivateCirc PrivateSliced PrivateClient PrivateFinal PrivateIris.

(** ** C50: any sequence of calls of the public interface *)
(** Two calls that may differ only in the value another party inputs. *)
Definition hides (i : pid) (c c' : cmd) : Prop :=
  c = c' \/ exists p x x', p <> i /\ c = CInput p x /\ c' = CInput p x'.
(** Two programs that differ only in the other parties' inputs and whose opened values are the same look
    the same to party i. *)
Theorem C50_any_program : forall i K cs cs' r r', In K widths -> 3 <= K -> Forall2 (hides i) cs cs' ->
  eval K cs mem0 = Some r -> eval K cs' mem0 = Some r' -> aout r = aout r' -> bout r = bout r' ->
  same_to i (fun j => exec (aby3_api tape K j) j cs mem0) (fun j => exec (aby3_api tape K j) j cs' mem0).
Proof.
  intros i K cs cs' r r' HW HK H He He' HA HB. apply (exec_same i K HW HK (hides i) cs cs' r r'); auto.
  intros c c' [->|(p & x & x' & Hp & -> & ->)]; [reflexivity|]. cbn [own]. destruct (pid_eqb_spec i p); [congruence|reflexivity].
Qed.
Print Assumptions C50_any_program.

(** The interactive calls on any shares whatever (for instance shares dealt by a client, or even
    inconsistent ones): party i's view depends on its own shares only. *)
Definition shares_in (K : Z) (l : list share) : Prop := Forall (fun s => inr K (sa s) /\ inr K (sb s)) l.
Theorem C50_mul : forall i K (x x' y y' : pid -> share), In K widths -> x i = x' i -> y i = y' i ->
  same_to i (fun j => Aby3.mul tape j K (x j) (y j)) (fun j => Aby3.mul tape j K (x' j) (y' j)).
Proof.
  intros i K x x' y y' HW Ex Ey. apply (priv_same i _ _ _ (pp_mul i K HW) (fun j => (x j, y j)) (fun j => (x' j, y' j))); [intros j; exact I|intros j; exact I|rewrite Ex, Ey; reflexivity].
Qed.
Print Assumptions C50_mul.
Theorem C50_input : forall i K p v v', In K widths -> inr K v -> inr K v' -> p <> i ->
  same_to i (fun j => input tape j K (if pid_eqb j p then Some v else None) (pid_num p))
            (fun j => input tape j K (if pid_eqb j p then Some v' else None) (pid_num p)).
Proof.
  intros i K p v v' HW Hv Hv' Hp.
  pose proof (pp_input i K HW p) as H.
  assert (G : priv i (fun X : pid -> Z => forall j, inr K (X j)) (fun j x => input tape j K (if pid_eqb j p then Some x else None) (pid_num p)) (fun _ _ => True)) by (eapply (priv_conseq i _ _ _ _ _ H); auto).
  assert (Z0 : inr K 0) by (unfold inr; pose proof (pow2_pos K); apply width_pos in HW; lia).
  pose (X := fun w (j : pid) => if pid_eqb j p then w else 0).
  assert (S : same_to i (fun j => input tape j K (if pid_eqb j p then Some (X v j) else None) (pid_num p)) (fun j => input tape j K (if pid_eqb j p then Some (X v' j) else None) (pid_num p))).
  { apply (priv_same i _ _ _ G (X v) (X v')); unfold X.
    - intros j. destruct (pid_eqb j p); assumption.
    - intros j. destruct (pid_eqb j p); assumption.
    - destruct (pid_eqb_spec i p); [congruence|reflexivity]. }
  eapply same_to_peq; [..|exact S]; intros j s; cbn beta; unfold X; (destruct (pid_eqb j p); apply peq_refl).
Qed.
Print Assumptions C50_input.
Theorem C50_dot : forall i K n (x x' y y' : pid -> list share), In K widths ->
  (forall j, length (x j) = n /\ length (y j) = n /\ length (x' j) = n /\ length (y' j) = n) -> x i = x' i -> y i = y' i ->
  same_to i (fun j => Aby3.dot tape j K (x j) (y j)) (fun j => Aby3.dot tape j K (x' j) (y' j)).
Proof.
  intros i K n x x' y y' HW L Ex Ey. apply (priv_same i _ _ _ (pp_dot i K HW n) (fun j => (x j, y j)) (fun j => (x' j, y' j))); [intros j; split; apply L|intros j; split; apply L|rewrite Ex, Ey; reflexivity].
Qed.
Print Assumptions C50_dot.
Theorem C50_msb_many : forall i K n (x x' : pid -> list share), In K widths -> 3 <= K -> (0 < n)%nat ->
  (forall j, length (x j) = n /\ length (x' j) = n) -> x i = x' i ->
  same_to i (fun j => get_msb_many tape j K (x j)) (fun j => get_msb_many tape j K (x' j)).
Proof.
  intros i K n x x' HW HK Hn L Ex. apply (priv_same i _ _ _ (pp_msb_many_len i K n HW HK Hn) x x'); [intros j; apply L|intros j; apply L|exact Ex].
Qed.
Print Assumptions C50_msb_many.
Theorem C50_reduce_or : forall i n chunk (x x' : pid -> list share), (0 < n)%nat -> (0 < chunk)%nat ->
  (forall j, length (x j) = n /\ length (x' j) = n /\ shares_in 1 (x j) /\ shares_in 1 (x' j)) -> x i = x' i ->
  same_to i (fun j => aby3_reduce_binary_or tape j (x j) chunk) (fun j => aby3_reduce_binary_or tape j (x' j) chunk).
Proof.
  intros i n chunk x x' Hn Hc L Ex. apply (priv_same i _ _ _ (pp_reduce_or i n chunk Hc Hn) x x'); [intros j; split; apply L|intros j; split; apply L|exact Ex].
Qed.
Print Assumptions C50_reduce_or.

(** What [same_to] says about distributions: for whatever party i knows, any set of choices of the n
    hidden bits under which it sees v in the first execution is matched by a set of the same size for the
    second one. *)
Theorem C50_distribution : forall A i (P P' : pid -> M (prf tape) A), same_to i P P' -> exists n, forall mine theirs v r ws,
  NoDup ws -> (forall w, In w ws -> length w = n /\ forall h, sees i P (deal i mine theirs (w ++ h)) v r) ->
  exists ws', NoDup ws' /\ length ws' = length ws /\ forall w, In w ws' -> length w = n /\ forall h, sees i P' (deal i mine theirs (w ++ h)) v r.
Proof.
  intros A i P P' (n & H). exists n. intros a b v r ws Hnd Hws. destruct (H a b) as [H1 H2]. clear H.
  cut (exists ws', NoDup ws' /\ length ws' = length ws /\ forall w', In w' ws' -> (length w' = n /\ forall h, sees i P' (deal i a b (w' ++ h)) v r) /\
         exists w, In w ws /\ (exists v r, (forall h, sees i P (deal i a b (w ++ h)) v r) /\ forall h, sees i P' (deal i a b (w' ++ h)) v r)).
  { intros (ws' & G1 & G2 & G3). exists ws'. split; [exact G1|]. split; [exact G2|]. intros w Hw. apply (G3 w Hw). }
  induction ws as [|w ws IH].
  { exists []. split; [constructor|]. split; [reflexivity|]. intros ? []. }
  inversion Hnd as [|? ? Hni Hnd']; subst.
  destruct IH as (ws' & G1 & G2 & G3); [exact Hnd'|intros; apply Hws; right; assumption|].
  destruct (Hws w (or_introl eq_refl)) as [Lw Sw]. destruct (H1 w Lw) as (v0 & r0 & S0 & w' & (L' & S') & U').
  destruct (sees_det i _ _ _ _ _ _ (S0 []) (Sw [])) as [-> ->].
  exists (w' :: ws'). split; [|split; [cbn; lia|]].
  - constructor; [|exact G1]. intros Hin. destruct (G3 w' Hin) as (_ & w2 & Hw2 & v2 & r2 & S2 & S2').
    destruct (sees_det i _ _ _ _ _ _ (S2' []) (S' [])) as [-> ->].
    assert (w2 = w).
    { destruct (H2 w' L') as (v3 & r3 & S3 & w3 & _ & U3). destruct (sees_det i _ _ _ _ _ _ (S3 []) (S' [])) as [-> ->].
      transitivity w3; [symmetry; apply U3; split; [apply Hws; right; exact Hw2|exact S2]|apply U3; split; assumption]. }
    subst w2. contradiction.
  - intros u [<-|Hu].
    + split; [split; assumption|]. exists w. split; [left; reflexivity|]. exists v, r. split; assumption.
    + destruct (G3 u Hu) as (Gu & w2 & Hw2 & Gr). split; [exact Gu|]. exists w2. split; [right; exact Hw2|exact Gr].
Qed.
Print Assumptions C50_distribution.

(** The notion is not trivial: opening two different values does not look the same, and neither does a
    resharing without the mask. *)
Example C50_discriminates :
  let x := fun v j => dealt 16 v 7 v j in
  x 5 P0 = x 9 P0 /\
  ~ same_to P0 (fun j => open tape j 16 (x 5 j)) (fun j => open tape j 16 (x 9 j)) /\
  ~ same_to P0 (fun j => reshare tape j 16 (sb (x 5 j))) (fun j => reshare tape j 16 (sb (x 9 j))).
Proof.
  split; [reflexivity|]. split.
  - intros (n & H). destruct (H [] []) as [H1 _]. destruct (H1 (repeat false n) (repeat_length _ _)) as (v & r & S1 & w' & (_ & S2) & _).
    specialize (S1 []). specialize (S2 []).
    assert (G : forall u w, inr 16 u -> sees P0 (fun j => open tape j 16 (dealt 16 u 7 u j)) (deal P0 [] [] w) v r -> r = u).
    { intros u w Hu (R & HR & _ & Hr). apply always_evals_evals, evals_spied in HR.
      destruct (open_ok tape 16 (dealt 16 u 7 u) u (deal P0 [] [] w)) as (R' & HR' & _ & HQ); [cbn; tauto|apply dealt_shared; [lia|exact Hu|unfold inr; lia|exact Hu]|].
      pose proof (evals_unique _ _ _ HR HR') as U. rewrite <- Hr, <- (HQ P0). cbn beta. rewrite <- U. reflexivity. }
    pose proof (G 5 _ ltac:(unfold inr; lia) S1). pose proof (G 9 _ ltac:(unfold inr; lia) S2). lia.
  - intros (n & H). destruct (H [] []) as [H1 _]. destruct (H1 (repeat false n) (repeat_length _ _)) as (v & r & S1 & w' & (_ & S2) & _).
    specialize (S1 []). specialize (S2 []).
    assert (G : forall u w, inr 16 u -> sees P0 (fun j => reshare tape j 16 (sb (dealt 16 u 7 u j))) (deal P0 [] [] w) v r -> sb r = u).
    { intros u w Hu (R & HR & _ & Hr). apply always_evals_evals, evals_spied in HR.
      assert (W : wpM (fun j => reshare tape j 16 (sb (dealt 16 u 7 u j))) (deal P0 [] [] w) (fun _ X => sb (X P0) = u)).
      { unfold reshare.
        apply (wpM_bind (fun j => liftM (send_and_receive_value j 16 (sb (dealt 16 u 7 u j)))) (fun j b => retM (Share (sb (dealt 16 u 7 u j)) b))).
        apply wpM_lift. apply (wp_sar_value 16 (fun j => sb (dealt 16 u 7 u j))); [cbn; tauto| |apply wpM_ret; reflexivity].
        intros j. destruct (dealt_shared 16 u 7 u) as (D1 & D2 & _); [lia|exact Hu|unfold inr; lia|exact Hu|]. rewrite D2. apply D1. }
      destruct W as (R' & HR' & HQ). pose proof (evals_unique _ _ _ HR HR') as U. rewrite <- Hr, <- HQ. cbn beta. rewrite <- U. reflexivity. }
    pose proof (G 5 _ ltac:(unfold inr; lia) S1). pose proof (G 9 _ ltac:(unfold inr; lia) S2). lia.
Qed.

(** Two runs of a program with inputs by two parties, multiplications, a comparison and openings; the
    inputs differ, the opened values agree: to party P0 they look the same. *)
Definition ex_cs (x y : Z) : list cmd :=
  [CInput P1 x; CInput P2 y; CInput P0 7; CMul 0 1; CMul 3 2; CMsb 0; CMsbMany [1%nat; 2%nat]; COr 0 1; CReduceOr [0%nat; 1%nat; 2%nat] 1; COpen 4; COpenBit 4].
Example C50_example : exists r r', Forall2 (hides P0) (ex_cs 3 20) (ex_cs 5 12) /\
  eval 16 (ex_cs 3 20) mem0 = Some r /\ eval 16 (ex_cs 5 12) mem0 = Some r' /\ aout r = [420] /\ aout r' = [420] /\ bout r = [false] /\ bout r' = [false] /\
  same_to P0 (fun j => exec (aby3_api tape 16 j) j (ex_cs 3 20) mem0) (fun j => exec (aby3_api tape 16 j) j (ex_cs 5 12) mem0).
Proof.
  assert (H : Forall2 (hides P0) (ex_cs 3 20) (ex_cs 5 12)).
  { unfold ex_cs. constructor; [right; exists P1, 3, 5; repeat split; congruence|]. constructor; [right; exists P2, 20, 12; repeat split; congruence|].
    repeat (constructor; [left; reflexivity|]). constructor. }
  eexists _, _. split; [exact H|]. split; [reflexivity|]. split; [reflexivity|]. do 4 (split; [reflexivity|]).
  eapply (C50_any_program P0 16 _ _ _ _ ltac:(cbn; tauto) ltac:(lia) H); reflexivity.
Qed.

(** ** C51: the database query *)
(** Two queries with the same public masks and the same answer, of which party i holds the same shares,
    look the same to party i: beyond the answer it learns nothing about the query code, the database
    codes, the distances or which entry matched. *)
Theorem C51_query : forall i K signed chunk X DB a bs X' DB' a' bs', In K widths -> 14 < K -> (0 < chunk)%nat -> (0 < length bs)%nat ->
  wf_iris a -> Forall wf_iris bs -> Forall (enough_valid a) bs -> wf_iris a' -> Forall wf_iris bs' ->
  vec_shared (arith_shared K) X (code_vals (ir_code a)) ->
  vec_shared (vec_shared (arith_shared K)) DB (map (fun b => code_vals (ir_code b)) bs) ->
  vec_shared (arith_shared K) X' (code_vals (ir_code a')) ->
  vec_shared (vec_shared (arith_shared K)) DB' (map (fun b => code_vals (ir_code b)) bs') ->
  ir_mask a = ir_mask a' -> map ir_mask bs = map ir_mask bs' ->
  (Exists (close a) bs <-> Exists (close a') bs') ->
  X i = X' i -> DB i = DB' i ->
  same_to i (fun j => iris_in_db (aby3_engine tape K j) signed (X j) (DB j) (ir_mask a) (map ir_mask bs) chunk)
            (fun j => iris_in_db (aby3_engine tape K j) signed (X' j) (DB' j) (ir_mask a') (map ir_mask bs') chunk).
Proof.
  intros i K signed chunk X DB a bs X' DB' a' bs' HW HK Hc Hl Ha Hbs Hv Ha' Hbs' HX HD HX' HD' Hma Hmb Hans EX ED.
  assert (HK16 : 16 <= K) by (apply width_cases in HW; lia).
  apply (iris_same i K HW HK16 signed chunk X DB a bs X' DB' a' bs'); try assumption; try (apply vec_RL; assumption); try (apply vec2_RL; assumption).
  apply Bool.eq_true_iff_eq. rewrite !matches_spec. exact Hans.
Qed.
Print Assumptions C51_query.

(** Queries meeting every hypothesis: the matching entry is the second one in one database and the first
    one in the other, and the query codes are opposite; party P0 holds the same shares. *)
Definition ex_deal (c : code) (j : pid) : list share := map (fun x => dealt 16 x 7 x j) (code_vals c).
Lemma ex_deal_shared c : vec_shared (arith_shared 16) (ex_deal c) (code_vals c).
Proof.
  apply RL_vec. unfold ex_deal. pose proof (code_vals_range 16 c ltac:(lia)) as H. induction H as [|x xs Hx _ IH]; [apply RL_nil'|].
  cbn [map]. apply (RL_cons' _ (fun i => dealt 16 x 7 x i)); [|exact IH]. apply dealt_shared; [lia|exact Hx|unfold inr; lia|exact Hx].
Qed.
Lemma ex_deal_P0 c c' : ex_deal c P0 = ex_deal c' P0.
Proof.
  assert (G : forall c, ex_deal c P0 = repeat (Share 7 65529) IRIS_CODE_SIZE).
  { intros c0. unfold ex_deal. pose proof (code_vals_length c0) as L. rewrite <- L. generalize (code_vals c0). clear. intros l.
    induction l as [|x l IH]; [reflexivity|]. cbn [map repeat length]. rewrite IH. f_equal. unfold dealt, rsub. f_equal.
    replace 65529 with ((-7) mod 2 ^ 16) by reflexivity. rewrite Zminus_mod_idemp_l. f_equal. lia. }
  rewrite !G. reflexivity.
Qed.
Lemma ex_pair c d : vec_shared (vec_shared (arith_shared 16)) (fun j => [ex_deal c j; ex_deal d j]) [code_vals c; code_vals d].
Proof.
  split; [reflexivity|]. intros [|[|[|n]]] x H; cbn in H; try discriminate; injection H as <-; eexists; (split; [reflexivity|]); apply ex_deal_shared.
Qed.
Example C51_example : forall signed,
  close ir0 ir0 /\ close ir1 ir1 /\ ~ close ir0 ir1 /\
  same_to P0
    (fun j => iris_in_db (aby3_engine tape 16 j) signed (ex_deal (ir_code ir0) j) [ex_deal (ir_code ir1) j; ex_deal (ir_code ir0) j] (ir_mask ir0) (map ir_mask [ir1; ir0]) 1)
    (fun j => iris_in_db (aby3_engine tape 16 j) signed (ex_deal (ir_code ir1) j) [ex_deal (ir_code ir1) j; ex_deal (ir_code ir1) j] (ir_mask ir1) (map ir_mask [ir1; ir1]) 1).
Proof.
  intros signed. destruct ir_wf as [W0 W1]. destruct ir_close as [C0 N0].
  assert (C1 : close ir1 ir1).
  { assert (I1 : In ir1 [ir0; ir1]) by (right; left; reflexivity). unfold close. rewrite (ir_valid ir1 ir1 I1 I1). rewrite count_none; [reflexivity|]. intros i Hi. unfold differ. rewrite xorb_nilpotent. reflexivity. }
  split; [exact C0|]. split; [exact C1|]. split; [exact N0|].
  apply (C51_query P0 16 signed 1 (ex_deal (ir_code ir0)) (fun j => [ex_deal (ir_code ir1) j; ex_deal (ir_code ir0) j]) ir0 [ir1; ir0]
           (ex_deal (ir_code ir1)) (fun j => [ex_deal (ir_code ir1) j; ex_deal (ir_code ir1) j]) ir1 [ir1; ir1]).
  - right; right; left; reflexivity.
  - reflexivity.
  - exact (le_n 1).
  - exact (le_S _ _ (le_n 1)).
  - exact W0.
  - exact (Forall_cons _ W1 (Forall_cons _ W0 (Forall_nil _))).
  - apply Forall_cons; [|apply Forall_cons; [|apply Forall_nil]]; apply ir_enough; [left|right; left|left|left]; reflexivity.
  - exact W1.
  - exact (Forall_cons _ W1 (Forall_cons _ W1 (Forall_nil _))).
  - apply ex_deal_shared.
  - apply ex_pair.
  - apply ex_deal_shared.
  - apply ex_pair.
  - reflexivity.
  - reflexivity.
  - split; intros _; [apply Exists_cons_hd; exact C1|apply Exists_cons_tl, Exists_cons_hd; exact C0].
  - apply ex_deal_P0.
  - rewrite (ex_deal_P0 (ir_code ir0) (ir_code ir1)). reflexivity.
Qed.
