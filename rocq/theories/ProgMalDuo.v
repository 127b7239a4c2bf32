(** Two honest parties against an arbitrary third one: postconditions that see the local runs, shares held
    by two parties, sacrifices that start from values which may still be unverified. *)
From Verif Require Import Base Ring RingProofs Prog Sched Conc Rng Rel Net BitArith BinProofs AddProofs MpcSpec Aby3 ShareSpec Aby3Proofs Jmp JmpProofs Session SessionProofs
  Aby3Mal Aby3MalProofs SacrificeProofs PropLemmas PropLemmas2 SpecProofs Duo DuoProofs MacSpec MacProofs Client ProgMalSpec.
From Coq Require Import ZifyBool ZifyNat.

(** ** Programs up to the presentation of continuations *)
Lemma peq_bind {A B} (p p' : prog A) (f f' : A -> prog B) : peq p p' -> (forall a, peq (f a) (f' a)) -> peq (bind p f) (bind p' f').
Proof. intros E F. induction E; cbn; [apply F|constructor..]; auto. Qed.
Lemma peq_assoc {A B C} (p : prog A) (f : A -> prog B) (g : B -> prog C) : peq (bind (bind p f) g) (bind p (fun a => bind (f a) g)).
Proof. induction p; cbn; [apply peq_refl|constructor..]; auto. Qed.
Lemma peq_trans {A} (p q r : prog A) : peq p q -> peq q r -> peq p r.
Proof. intros E. revert r. induction E; intros r F; inversion F; subst; constructor; auto. Qed.
Lemma peq_sym {A} (p q : prog A) : peq p q -> peq q p.
Proof. induction 1; constructor; auto. Qed.
Lemma lrun_bind_intro {A B} (p : prog A) (f : A -> prog B) t1 t2 a r : lrun p t1 (Ret a) -> lrun (f a) t2 r -> lrun (bind p f) (t1 ++ t2) r.
Proof.
  intros L L2. remember (Ret a) as q. revert Heqq. induction L; intros ->; cbn; [exact L2|constructor; auto..].
Qed.

Section T.
  Variable i : pid.
  Notation j := (next i).
  Definition duoT {A B} (p : prog A) (q : prog B) (Q : list act -> A -> list act -> B -> Prop) : Prop :=
    forall ti a tj b xi yi xj yj, lrun p ti (Ret a) -> lrun q tj (Ret b) ->
      Forall bytes (rcvd_from (prev i) ti) -> Forall bytes (rcvd_from (next j) tj) ->
      rcvd_from j ti ++ xi = sent_to i tj ++ yi ->
      rcvd_from i tj ++ xj = sent_to j ti ++ yj ->
      xi = yi /\ xj = yj /\ Q ti a tj b.
  Lemma duoT_duo {A B} (p : prog A) (q : prog B) (Q : A -> B -> Prop) : duo i p q Q ->
    duoT p q (fun ti a tj b => lrun p ti (Ret a) /\ lrun q tj (Ret b) /\ Q a b).
  Proof. intros D ti a tj b xi yi xj yj L1 L2 B1 B2 E1 E2. destruct (D _ _ _ _ _ _ _ _ L1 L2 B1 B2 E1 E2) as (? & ? & ?). auto. Qed.
  Lemma duoT_mono {A B} (p : prog A) (q : prog B) (Q Q' : list act -> A -> list act -> B -> Prop) :
    (forall ti a tj b, Q ti a tj b -> Q' ti a tj b) -> duoT p q Q -> duoT p q Q'.
  Proof. intros F D ti a tj b xi yi xj yj L1 L2 B1 B2 E1 E2. destruct (D _ _ _ _ _ _ _ _ L1 L2 B1 B2 E1 E2) as (? & ? & ?). auto. Qed.
  Lemma duoT_runs {A B} (p : prog A) (q : prog B) (Q : list act -> A -> list act -> B -> Prop) :
    duoT p q (fun ti a tj b => lrun p ti (Ret a) -> lrun q tj (Ret b) -> Q ti a tj b) -> duoT p q Q.
  Proof. intros D ti a tj b xi yi xj yj L1 L2 B1 B2 E1 E2. destruct (D _ _ _ _ _ _ _ _ L1 L2 B1 B2 E1 E2) as (? & ? & ?). auto. Qed.
  Lemma duoT_bind {A B C D} (p : prog A) (q : prog B) (f : A -> prog C) (g : B -> prog D) Q :
    duoT p q (fun t1 a u1 b => duoT (f a) (g b) (fun t2 c u2 d => Q (t1 ++ t2) c (u1 ++ u2) d)) -> duoT (bind p f) (bind q g) Q.
  Proof.
    intros H ti c tj d xi yi xj yj L1 L2 B1 B2 E1 E2.
    apply lrun_bind in L1. destruct L1 as (t1 & a & t2 & L1 & L1' & ->). apply lrun_bind in L2. destruct L2 as (u1 & b & u2 & L2 & L2' & ->).
    rewrite rcvd_app in B1, B2. apply Forall_app in B1, B2. destruct B1 as [B1 B1'], B2 as [B2 B2'].
    rewrite rcvd_app, sent_app, <- !app_assoc in E1. rewrite rcvd_app, sent_app, <- !app_assoc in E2.
    destruct (H _ _ _ _ _ _ _ _ L1 L2 B1 B2 E1 E2) as (E1' & E2' & HQ). exact (HQ _ _ _ _ _ _ _ _ L1' L2' B1' B2' E1' E2').
  Qed.
  Lemma duoT_ret {A B} (a : A) (b : B) (Q : list act -> A -> list act -> B -> Prop) : Q [] a [] b -> duoT (Ret a) (Ret b) Q.
  Proof.
    intros HQ ti a' tj b' xi yi xj yj L1 L2 B1 B2 E1 E2. apply lrun_ret in L1, L2. destruct L1 as [-> ->], L2 as [-> ->]. cbn in E1, E2. auto.
  Qed.
  Lemma duoT_fail_l {A B} e (q : prog B) (Q : list act -> A -> list act -> B -> Prop) : duoT (Fail e) q Q.
  Proof. intros ti a tj b xi yi xj yj L1. inversion L1. Qed.
  Lemma duoT_fail_r {A B} e (p : prog A) (Q : list act -> A -> list act -> B -> Prop) : duoT p (Fail e) Q.
  Proof. intros ti a tj b xi yi xj yj _ L1. inversion L1. Qed.
  Lemma duoT_peq {A B} (p p' : prog A) (q q' : prog B) Q : peq p p' -> peq q q' -> duoT p' q' Q -> duoT p q Q.
  Proof. intros E E' D ti a tj b xi yi xj yj L1 L2. eapply D; eapply peq_lrun; eassumption. Qed.
End T.

(** ** Shares held by i and i+1 *)
Definition ranged (K : Z) (x : share) : Prop := inr K (sa x) /\ inr K (sb x).
Definition paired (K : Z) (x y : share) : Prop := ranged K x /\ ranged K y /\ sb y = sa x.

Section D.
  Variables (G : rng) (H : hasher) (i : pid).
  Notation j := (next i).
  Notation ST := (jst G).
  Notation coll := (hash_collision G H).
  Notation synced := (synced2 G).
  Notation bts K l := (wire (map (pair K) l)).
  (** i has received nothing from the third party that differs from what i+1 expects *)
  Definition clean (s t : ST) : Prop := j_rcv G s = j_snd G t.

  Definition fam (x y : share) : pid -> share := by_pid i x y (Share (sb x) (sa y)).
  Lemma fam_i x y : fam x y i = x. Proof. unfold fam, by_pid. destruct i; reflexivity. Qed.
  Lemma fam_j x y : fam x y j = y. Proof. unfold fam, by_pid. destruct i; reflexivity. Qed.
  Lemma paired_fam K x y : paired K x y -> arith_shared K (fam x y) (joint K x y).
  Proof.
    intros ([A1 A2] & [B1 B2] & E). unfold arith_shared, fam, by_pid, joint. split; [intros p; destruct i, p; cbn; assumption|].
    split; [intros p; destruct i, p; cbn; congruence|]. destruct i; cbn; f_equal; ring.
  Qed.
  Lemma fam_paired K X x : arith_shared K X x -> paired K (X i) (X j) /\ joint K (X i) (X j) = x.
  Proof.
    intros HX. split; [|apply (arith_ij i _ _ _ HX)]. destruct HX as (X1 & X2 & _). split; [|split].
    - split; [apply X1|rewrite X2; apply X1].
    - split; [apply X1|rewrite X2; apply X1].
    - rewrite X2. destruct i; reflexivity.
  Qed.
  Definition rows_fam (xs ys : list share) : pid -> list share := by_pid i xs ys (map2 (fun x y => Share (sb x) (sa y)) xs ys).
  Lemma rows_fam_i x y : rows_fam x y i = x. Proof. unfold rows_fam, by_pid. destruct i; reflexivity. Qed.
  Lemma rows_fam_j x y : rows_fam x y j = y. Proof. unfold rows_fam, by_pid. destruct i; reflexivity. Qed.
  Lemma rows_fam_RL K xs ys : Forall2 (paired K) xs ys -> RL (arith_shared K) (rows_fam xs ys) (map2 (joint K) xs ys).
  Proof.
    induction 1 as [|x y xs ys P F IH].
    - apply RL_nil. intros p. unfold rows_fam, by_pid. destruct i, p; reflexivity.
    - cbn [map2]. eapply RL_cons; [|apply (paired_fam K x y P)|exact IH].
      intros p. unfold rows_fam, fam, by_pid. destruct i, p; reflexivity.
  Qed.
  Lemma RL_rows K X xs : RL (arith_shared K) X xs -> Forall2 (paired K) (X i) (X j) /\ map2 (joint K) (X i) (X j) = xs.
  Proof.
    induction 1 as [X HX|X Y X' y ys HX HY HR [IH1 IH2]]; rewrite !HX; [split; [constructor|reflexivity]|].
    destruct (fam_paired K Y y HY) as [P E]. split; [constructor; assumption|]. cbn [map2]. rewrite E, IH2. reflexivity.
  Qed.
  Definition tbl_fam (xs ys : list (list share)) : pid -> list (list share) :=
    by_pid i xs ys (map2 (map2 (fun x y => Share (sb x) (sa y))) xs ys).
  Lemma tbl_fam_i x y : tbl_fam x y i = x. Proof. unfold tbl_fam, by_pid. destruct i; reflexivity. Qed.
  Lemma tbl_fam_j x y : tbl_fam x y j = y. Proof. unfold tbl_fam, by_pid. destruct i; reflexivity. Qed.
  Lemma tbl_fam_RL K xs ys : Forall2 (Forall2 (paired K)) xs ys -> RL (RL (arith_shared K)) (tbl_fam xs ys) (map2 (map2 (joint K)) xs ys).
  Proof.
    induction 1 as [|x y xs ys P F IH].
    - apply RL_nil. intros p. unfold tbl_fam, by_pid. destruct i, p; reflexivity.
    - cbn [map2]. eapply RL_cons; [|apply (rows_fam_RL K x y P)|exact IH].
      intros p. unfold tbl_fam, rows_fam, by_pid. destruct i, p; reflexivity.
  Qed.

  (** ** The ghost log only grows *)
  Definition growsM {A} (p : M ST A) : Prop := forall s tr s' a, lrun (p s) tr (Ret (s', a)) -> exists l, j_log G s' = j_log G s ++ l.
  Lemma coll_grows s t s' t' l l' : coll s t -> j_log G s' = j_log G s ++ l -> j_log G t' = j_log G t ++ l' -> coll s' t'.
  Proof. intros (m & m' & I1 & I2 & C) E E'. exists m, m'. rewrite E, E'. split; [apply in_or_app; auto|]. split; [apply in_or_app; auto|exact C]. Qed.
  Lemma growsM_bind {A B} (p : M ST A) (k : A -> M ST B) : growsM p -> (forall a, growsM (k a)) -> growsM (bindM p k).
  Proof.
    intros Hp Hk s tr s' b L. apply lrun_bind in L. destruct L as (t1 & [s1 a] & t2 & L1 & L2 & _).
    destruct (Hp _ _ _ _ L1) as [l E]. destruct (Hk _ _ _ _ _ L2) as [l' E']. cbn [fst] in E'. exists (l ++ l'). rewrite E', E, app_assoc. reflexivity.
  Qed.
  Lemma growsM_ret {A} (a : A) : growsM (retM a).
  Proof. intros s tr s' b L. apply lrun_ret in L. destruct L as [_ E]. injection E as -> _. exists []. symmetry. apply app_nil_r. Qed.
  Lemma growsM_fail {A} e : growsM (A := A) (failM e).
  Proof. intros s tr s' b L. inversion L. Qed.
  Lemma growsM_get : growsM getM.
  Proof. intros s tr s' b L. apply lrun_ret in L. destruct L as [_ E]. injection E as -> _. exists []. symmetry. apply app_nil_r. Qed.
  Lemma growsM_lift {A} (p : prog A) : growsM (liftM p).
  Proof.
    intros s tr s' b L. apply lrun_bind in L. destruct L as (t1 & a & t2 & _ & L2 & _). apply lrun_ret in L2. destruct L2 as [_ E]. injection E as -> _.
    exists []. symmetry. apply app_nil_r.
  Qed.
  Lemma growsM_upd {B} (f : ST -> ST) (k : M ST B) : (forall s, exists l, j_log G (f s) = j_log G s ++ l) -> growsM k -> growsM (bindM getM (fun s => bindM (putM (f s)) (fun _ => k))).
  Proof.
    intros Hf Hk s tr s' b L. cbn in L. destruct (Hk _ _ _ _ L) as [l E]. destruct (Hf s) as [l' E']. exists (l' ++ l). rewrite E, E', app_assoc. reflexivity.
  Qed.
  Lemma growsM_upd' (f : ST -> ST) : (forall s, exists l, j_log G (f s) = j_log G s ++ l) -> growsM (bindM getM (fun s => putM (f s))).
  Proof. intros Hf s tr s' b L. cbn in L. apply lrun_ret in L. destruct L as [_ E]. injection E as <- _. apply Hf. Qed.
  Lemma growsM_prf {A} (p : M (prf G) A) : growsM (on_prf G p).
  Proof.
    intros s tr s' b L. unfold on_prf, zoom in L. apply lrun_bind in L. destruct L as (t1 & [f a] & t2 & _ & L2 & _). apply lrun_ret in L2. destruct L2 as [_ E]. injection E as <- _.
    exists []. cbn. symmetry. apply app_nil_r.
  Qed.
  Lemma growsM_mapM {A B} (f : A -> M ST B) l : (forall a, growsM (f a)) -> growsM (mapM f l).
  Proof. intros Hf. induction l as [|a l IH]; cbn; [apply growsM_ret|]. apply growsM_bind; [apply Hf|]. intros b. apply growsM_bind; [exact IH|]. intros bs. apply growsM_ret. Qed.
  Lemma growsM_res {A} (r : res A) : growsM (resM r).
  Proof. apply growsM_lift. Qed.
  Lemma growsM_need {A} (r : option A) : growsM (need r).
  Proof. destruct r; [apply growsM_ret|apply growsM_fail]. Qed.
  Lemma same_log (f : ST -> ST) : (forall s, j_log G (f s) = j_log G s) -> forall s, exists l, j_log G (f s) = j_log G s ++ l.
  Proof. intros E s. exists []. rewrite E, app_nil_r. reflexivity. Qed.
  Lemma jsrm_grows p K x y : growsM (jmp_send_receive_many G p K x y).
  Proof.
    unfold jmp_send_receive_many, jmp_buffer_many, jmp_send_many, jmp_receive_many.
    apply growsM_bind; [apply growsM_upd', same_log; reflexivity|intros _]. apply growsM_bind; [apply growsM_lift|intros _].
    apply growsM_bind; [apply growsM_lift|intros vs]. apply growsM_upd; [apply same_log; reflexivity|apply growsM_ret].
  Qed.
  Lemma jsr_grows p K x y : growsM (jmp_send_receive G p K x y).
  Proof.
    unfold jmp_send_receive, jmp_buffer, jmp_send, jmp_receive.
    apply growsM_bind; [apply growsM_upd', same_log; reflexivity|intros _]. apply growsM_bind; [apply growsM_lift|intros _].
    apply growsM_bind; [apply growsM_lift|intros vs]. apply growsM_upd; [apply same_log; reflexivity|apply growsM_ret].
  Qed.
  Lemma jmp_verify_grows p : growsM (jmp_verify G H p).
  Proof.
    unfold jmp_verify. intros s tr s' b L. cbn in L. inversion L as [|? ? ? tr1 ? L1|]; subst. inversion L1 as [| |? ? m tr2 ? L2]; subst.
    destruct (bytes_eqb _ _) in L2; [|inversion L2]. apply lrun_ret in L2. destruct L2 as [_ E2]. injection E2 as <- _.
    exists [j_snd G s; j_rcv G s]. reflexivity.
  Qed.
  Lemma zero_verify_grows p U ws : growsM (zero_verify G H p U ws).
  Proof.
    unfold zero_verify. apply growsM_upd; [intros s; eexists; reflexivity|].
    repeat (apply growsM_bind; [first [apply growsM_lift|apply growsM_res]|intros ?]). destruct (_ || _); [apply growsM_fail|apply growsM_ret].
  Qed.
  Lemma coin_grows p : growsM (coin G p).
  Proof. unfold coin. apply growsM_bind; [apply growsM_prf|intros ab]. apply growsM_bind; [apply jsrm_grows|intros]. apply growsM_ret. Qed.
  Lemma reconstruct_many_grows p K xs : growsM (reconstruct_many G p K xs).
  Proof. unfold reconstruct_many. apply growsM_bind; [apply jsrm_grows|intros]. apply growsM_ret. Qed.
  Lemma aby_mul_many_grows p U a b : growsM (aby_mul_many G p U a b).
  Proof. unfold aby_mul_many. apply growsM_bind; [apply growsM_prf|intros l]. apply growsM_bind; [apply growsM_lift|intros]. apply growsM_ret. Qed.
  Lemma aby_dot_many_grows p U a b : growsM (aby_dot_many G p U a b).
  Proof.
    unfold aby_dot_many. destruct (negb _); [apply growsM_fail|].
    apply growsM_bind; [apply growsM_prf|intros l]. apply growsM_bind; [apply growsM_lift|intros]. apply growsM_ret.
  Qed.
  Lemma mul_grows p K a b : growsM (mal_mul G H p K a b).
  Proof.
    unfold mal_mul, get_mul_triple, mul_triple_check. apply growsM_bind.
    - destruct (negb _); [apply growsM_fail|]. do 3 (apply growsM_bind; [apply growsM_prf|intros ?]).
      apply growsM_bind; [apply aby_mul_many_grows|intros]. apply growsM_bind; [apply coin_grows|intros].
      apply growsM_bind; [apply growsM_bind; [apply jsr_grows|intros; apply growsM_ret]|intros]. apply growsM_bind; [apply jmp_verify_grows|intros].
      do 2 (apply growsM_bind; [apply growsM_res|intros ?]). apply growsM_bind; [apply zero_verify_grows|intros; apply growsM_ret].
    - intros [[x y] z]. apply growsM_bind; [apply reconstruct_many_grows|intros]. do 2 (apply growsM_bind; [apply growsM_res|intros ?]). apply growsM_ret.
  Qed.
  Lemma gen_rand_many_grows U n : growsM (gen_rand_many G U n).
  Proof. apply growsM_prf. Qed.
  Lemma dot_grows p K a b : growsM (mal_dot G H p K a b).
  Proof.
    unfold mal_dot, dot_sacrifice, dot_sacrifice_check. destruct (negb _); [apply growsM_fail|]. destruct (negb _); [apply growsM_fail|].
    apply growsM_bind; [apply growsM_prf|intros ?]. apply growsM_bind; [apply aby_dot_many_grows|intros]. apply growsM_bind; [apply coin_grows|intros].
    apply growsM_bind; [apply reconstruct_many_grows|intros]. apply growsM_bind; [apply jmp_verify_grows|intros].
    do 2 (apply growsM_bind; [apply growsM_res|intros ?]). apply growsM_bind; [apply zero_verify_grows|intros; apply growsM_ret].
  Qed.
  Lemma dot_many_grows p K a b : growsM (mal_dot_many G H p K a b).
  Proof.
    unfold mal_dot_many, dot_sacrifice_many, dot_sacrifice_check_many. destruct (negb _); [apply growsM_fail|]. destruct (negb _); [apply growsM_fail|].
    apply growsM_bind; [apply growsM_mapM; intros; apply growsM_prf|intros ?]. apply growsM_bind; [apply aby_dot_many_grows|intros]. apply growsM_bind; [apply coin_grows|intros].
    apply growsM_bind; [apply reconstruct_many_grows|intros]. apply growsM_bind; [apply jmp_verify_grows|intros].
    apply growsM_bind; [apply zero_verify_grows|intros; apply growsM_ret].
  Qed.
  Lemma open_grows p K x : growsM (mal_open G H p K x).
  Proof.
    unfold mal_open. apply growsM_bind; [apply jmp_verify_grows|intros]. apply growsM_bind; [apply jsr_grows|intros].
    apply growsM_bind; [apply jmp_verify_grows|intros]. apply growsM_ret.
  Qed.
  Lemma open_many_grows p K x : growsM (mal_open_many G H p K x).
  Proof.
    unfold mal_open_many. apply growsM_bind; [apply jmp_verify_grows|intros]. apply growsM_bind; [apply jsrm_grows|intros].
    apply growsM_bind; [apply jmp_verify_grows|intros]. apply growsM_ret.
  Qed.
  Lemma cmd_grows p K c m : arithmetic c = true -> growsM (exec_cmd (mal_api G H p K) p c m).
  Proof.
    intros Ha. destruct c; try discriminate Ha; cbn [exec_cmd a_mpc a_mul a_dot a_dot_many a_open a_open_many mal_api];
      repeat (apply growsM_bind; [apply growsM_need|intros ?]); try (apply growsM_bind; [apply growsM_get|intros ?]); try apply growsM_ret;
      (apply growsM_bind; [first [apply mul_grows|apply dot_grows|apply dot_many_grows|apply open_grows|apply open_many_grows]|intros; apply growsM_ret]).
  Qed.
  Lemma exec_grows p K cs m : forallb arithmetic cs = true -> growsM (exec (mal_api G H p K) p cs m).
  Proof.
    revert m. induction cs as [|c cs IH]; intros m Ha; cbn [exec]; [apply growsM_ret|]. cbn in Ha. apply andb_prop in Ha. destruct Ha as [Ha Hb].
    apply growsM_bind; [apply cmd_grows, Ha|]. intros m'. apply IH, Hb.
  Qed.
End D.
