(** The AND-triple check against a malicious party: two honest parties that accept. *)
From Coq Require Import Permutation.
From Verif Require Import Base Ring RingProofs Prog Sched Conc Rng Rel Net BinTrait BitArith BinProofs AddProofs IrisProofs MpcSpec Aby3 ShareSpec Aby3Proofs Aby3Proofs2 SlicedProofs Jmp JmpProofs
  Session SessionProofs Aby3Mal Aby3MalProofs SacrificeProofs SpecProofs Duo DuoProofs Spdz TripleSpec TripleProofs TripleProofs2 SpdzProofs SpdzProofs2 MacSpec TripleMalSpec FyCount TripleMal.
From Coq Require Import ZifyBool ZifyNat.

Lemma duoM_fail_l {S A} i e (q : M S A) s t Q : duoM i (failM e) q s t Q.
Proof. apply duo_fail_l. Qed.
Lemma duoM_fail_r {S A} i e (p : M S A) s t Q : duoM i p (failM e) s t Q.
Proof. apply duo_fail_r. Qed.
Lemma duoM_zoom {S T A} i (get : T -> S) (set : T -> S -> T) (p q : M S A) s t (Q : T -> A -> T -> A -> Prop) :
  duoM i p q (get s) (get t) (fun s' a t' b => Q (set s s') a (set t t') b) -> duoM i (zoom get set p) (zoom get set q) s t Q.
Proof.
  intros D. unfold duoM, zoom. apply duo_bind. eapply duo_mono; [|exact D]. intros [s' a] [t' b] HQ. apply duo_ret. exact HQ.
Qed.

Section D.
  Variables (G : rng) (H : hasher) (i : pid).
  Notation j := (next i).
  Notation ST := (sst G).
  Notation coll s t := (hash_collision G H (s_j G s) (s_j G t)).
  Notation bts l := (wire (map (pair 128) l)).

  Lemma duoM_on_j {A} (p q : M (jst G) A) (s t : ST) Q :
    duoM i p q (s_j G s) (s_j G t) (fun s' a t' b => Q (SSt G s' (s_mac G s) (s_vq G s) (s_prec G s) (s_tb G s)) a (SSt G t' (s_mac G t) (s_vq G t) (s_prec G t) (s_tb G t)) b) ->
    duoM i (on_j G p) (on_j G q) s t Q.
  Proof. intros D. unfold on_j. apply duoM_zoom. exact D. Qed.

  (** *** The zero check for binary sharings *)
  Lemma bin_zero_verify_duo wi wj (s t : jst G) (Q : jst G -> unit -> jst G -> unit -> Prop) :
    (let s' := j_hashed G [flat_map (bin_zero_bytes i) wi] s in let t' := j_hashed G [flat_map (bin_zero_bytes j) wj] t in
     flat_map (bin_zero_bytes i) wi = flat_map (bin_zero_bytes j) wj \/ hash_collision G H s' t' -> Q s' tt t' tt) ->
    duoM i (bin_zero_verify G H i wi) (bin_zero_verify G H j wj) s t Q.
  Proof.
    intros HQ. unfold bin_zero_verify. set (mi := flat_map (bin_zero_bytes i) wi) in *. set (mj := flat_map (bin_zero_bytes j) wj) in *. clearbody mi mj.
    cbv zeta in HQ. dbind. apply duoM_get. dbind. apply duoM_put.
    assert (HQ' : hfun H mi = hfun H mj -> Q (j_hashed G [mi] s) tt (j_hashed G [mj] t) tt).
    { intros E. apply HQ. apply hash_eq; [exact E|apply in_or_app; right; left; reflexivity..]. }
    clear HQ. rename HQ' into HQ.
    set (s' := j_hashed G [mi] s) in *. set (t' := j_hashed G [mj] t) in *. clearbody s' t'.
    set (hi := hfun H mi) in *. set (hj := hfun H mj) in *. clearbody hi hj.
    destruct i; unfold duoM, bindM, liftM; cbn; unfold duo; repeat (duostep; cbn [app bind fst snd]);
      repeat match goal with |- duoq _ ((if ?b then _ else _) _) _ _ _ _ => destruct b eqn:?; [apply duo_fail_l|] end;
      repeat match goal with |- duoq _ _ ((if ?b then _ else _) _) _ _ _ => destruct b eqn:?; [apply duo_fail_r|] end;
      apply duo_ret; apply HQ;
      repeat match goal with E : negb _ || negb _ = false |- _ => apply orb_false_elim in E; destruct E end;
      repeat match goal with E : negb _ = false |- _ => apply negb_false_iff in E; apply bytes_eqb_spec in E end; congruence.
  Qed.
  Lemma bin_zero_len p w : length (bin_zero_bytes p w) = 48%nat.
  Proof. destruct p; cbn [bin_zero_bytes]; rewrite !app_length, !hash_bytes_length; reflexivity. Qed.
  Lemma bin_rows_zero W ws : RL (bin_shared 128) W ws -> flat_map (bin_zero_bytes i) (W i) = flat_map (bin_zero_bytes j) (W j) -> Forall (fun w => w = 0) ws.
  Proof.
    induction 1 as [X HX|X Y X0 y ys HX HY HR IH]; intros E; [constructor|].
    rewrite !HX in E. cbn [flat_map] in E. apply app_inj_len in E; [|rewrite !bin_zero_len; reflexivity]. destruct E as [E1 E2].
    constructor; [|apply IH, E2]. clear IH E2 HR HX X X0 ys. destruct HY as (A1 & A2 & A3).
    assert (HI : forall a b, inr 128 a -> inr 128 b -> hash_bytes 128 a = hash_bytes 128 b -> a = b) by (intros a b; apply hash_bytes_inj; exact in128).
    assert (HX : forall a b, inr 128 a -> inr 128 b -> inr 128 (rxor a b)) by (intros; apply inr_lxor; auto; lia).
    assert (EQ : rxor (sa (Y i)) (sb (Y i)) = sa (Y j)).
    { destruct i; cbn [bin_zero_bytes next] in *; rewrite !A2 in *; cbn [prev] in *;
        repeat (apply app_inj_len in E1; [|rewrite !hash_bytes_length; reflexivity]; let A := fresh in destruct E1 as [A E1]);
        repeat match goal with X : hash_bytes 128 _ = hash_bytes 128 _ |- _ => apply HI in X; auto end. }
    rewrite A2 in EQ. unfold rxor in EQ. rewrite A3.
    transitivity (Z.lxor (Z.lxor (sa (Y i)) (sa (Y (prev i)))) (sa (Y j))); [clear; destruct i; cbn [prev next]; bitsolve|rewrite EQ; apply Z.lxor_nilpotent].
  Qed.

  (** *** Verifying triples against triples: whatever the two parties hold *)
  Definition to_open (a b x y : list share) : list share := map2 (fun a x => sh_xor x a) a x ++ map2 (fun b y => sh_xor y b) b y.
  Definition check_words (p : pid) (a b c z : list share) (pq : list Z) : list share :=
    map2 (fun cab zpq => and_triple_check p (fst (snd cab)) (snd (snd cab)) (fst cab) (fst zpq) (fst (snd zpq)) (snd (snd zpq)))
      (combine c (combine a b)) (combine z (combine (firstn (length a) pq) (skipn (length a) pq))).
  Definition opened (O : list share) (w : list Z) : list Z := map2 (fun s c => rxor (rxor c (sa s)) (sb s)) O w.
  Lemma verify_triples_duo ai bi ci xi yi zi aj bj cj xj yj zj (s t : ST) (Q : ST -> unit -> ST -> unit -> Prop) :
    let Oi := to_open ai bi xi yi in let Oj := to_open aj bj xj yj in
    Forall (inr 128) (map sb Oi) -> Forall (inr 128) (map sa Oj) -> length Oi = length Oj ->
    (forall s' t', j_prf G (s_j G s') = j_prf G (s_j G s) -> j_prf G (s_j G t') = j_prf G (s_j G t) ->
       coll s' t' \/ j_rcv G (s_j G s) = j_snd G (s_j G t) /\
         flat_map (bin_zero_bytes i) (check_words i ai bi ci zi (opened Oi (map sa Oj))) = flat_map (bin_zero_bytes j) (check_words j aj bj cj zj (opened Oj (map sb Oi))) ->
       Q s' tt t' tt) ->
    duoM i (verify_triples G H i ai bi ci xi yi zi) (verify_triples G H j aj bj cj xj yj zj) s t Q.
  Proof.
    intros Oi Oj Fi Fj HL HQ. unfold verify_triples. cbv zeta. fold (to_open ai bi xi yi). fold (to_open aj bj xj yj). fold Oi Oj.
    dbind. unfold jmp_open_bin_many. dbind. apply duoM_on_j. unfold reconstruct_binary_many. dbind.
    apply jsrm_duo; [exact in128|exact Fi|rewrite !map_length; exact HL|]. intros c Fc Lc. apply duoM_ret.
    dbind. apply duoM_on_j. cbn [s_j]. apply jmp_verify_duo. cbn [j_rcv j_snd j_prf]. intros HV. apply duoM_ret.
    apply duoM_on_j. cbn [s_j]. apply bin_zero_verify_duo. cbv zeta. intros HZ.
    apply HQ; [reflexivity|reflexivity|]. cbn [s_j].
    destruct HV as [HV|HV]; [|left; apply coll_hashed; exact HV].
    destruct HZ as [HZ|HZ]; [right|left; exact HZ].
    apply app_inj_len_r in HV; [|apply bts_len; rewrite Lc, !map_length; exact HL]. destruct HV as [HV E].
    apply bts_inj in E; [|cbn; tauto|rewrite Lc, !map_length; exact HL|exact Fc|exact Fj]. subst c. split; [exact HV|exact HZ].
  Qed.
  (** Consistent sharings: the errors agree. *)
  Lemma check_errors A B C X Y W a b c x y z : RL (bin_shared 128) A a -> RL (bin_shared 128) B b -> RL (bin_shared 128) C c ->
    RL (bin_shared 128) X x -> RL (bin_shared 128) Y y -> RL (bin_shared 128) W z ->
    length b = length a -> length c = length a -> length x = length a -> length y = length a -> length z = length a ->
    let O := fun p => to_open (A p) (B p) (X p) (Y p) in
    flat_map (bin_zero_bytes i) (check_words i (A i) (B i) (C i) (W i) (opened (O i) (map sa (O j)))) =
    flat_map (bin_zero_bytes j) (check_words j (A j) (B j) (C j) (W j) (opened (O j) (map sb (O i)))) ->
    errors a b c = errors x y z.
  Proof.
    intros HA HB HC HX HY HWc Lb Lc Lx Ly Lz O E.
    assert (HP : RL (bin_shared 128) O (map2 (fun a x => Z.lxor x a) a x ++ map2 (fun b y => Z.lxor y b) b y)).
    { apply RL_app.
      - apply (RL_map2 (bin_shared 128) (bin_shared 128) (bin_shared 128) (fun _ a x => sh_xor x a) (fun a x => Z.lxor x a)); auto.
        intros; apply sh_xor_ok; auto; lia.
      - apply (RL_map2 (bin_shared 128) (bin_shared 128) (bin_shared 128) (fun _ b y => sh_xor y b) (fun b y => Z.lxor y b)); auto.
        intros; apply sh_xor_ok; auto; lia. }
    destruct (brel_cols _ _ _ HP) as (O1 & O2 & O3).
    pose proof (open_cols_b 128 _ _ HP i) as Vi. pose proof (open_cols_b 128 _ _ HP j) as Vj.
    replace (prev j) with i in Vj by (destruct i; reflexivity). rewrite (O2 (prev i)) in Vi. replace (prev (prev i)) with j in Vi by (destruct i; reflexivity).
    unfold opened in E. rewrite Vi, Vj in E. clear Vi Vj.
    set (p := map2 (fun a x => Z.lxor x a) a x) in *. set (q := map2 (fun b y => Z.lxor y b) b y) in *.
    assert (Lp : length p = length a) by (unfold p; rewrite map2_length_min; lia). assert (Lq : length q = length a) by (unfold q; rewrite map2_length_min; lia).
    assert (BF : forall X0 l, RL (bin_shared 128) X0 l -> Forall (inr 128) l) by (intros X0 l Hl; apply (brel_Forall 128 X0); apply RL_brel; [exact in128|exact Hl]).
    assert (Fpq : Forall (inr 128) (p ++ q)) by (eapply BF; exact HP). apply Forall_app in Fpq. destruct Fpq as [Fp Fq].
    assert (HPub : forall l, Forall (inr 128) l -> RL (fun V v => public V v /\ inr 128 v) (fun _ => l) l).
    { clear. intros l Fp. induction Fp as [|x0 l0 Hx0 Fl IHl]; [apply RL_nil'|]. apply (RL_cons' _ (fun _ => x0)); [split; [intros i; reflexivity|assumption]|assumption]. }
    pose proof (RL_combine _ _ _ _ _ _ HC (RL_combine _ _ _ _ _ _ HA HB)) as HL.
    pose proof (RL_combine _ _ _ _ _ _ HWc (RL_combine _ _ _ _ _ _ (HPub p Fp) (HPub q Fq))) as HR.
    assert (HW : RL (bin_shared 128) (fun r => check_words r (A r) (B r) (C r) (W r) (p ++ q))
      (map2 (fun cab zpq => Z.lxor (Z.lxor (Z.lxor (Z.lxor (fst zpq) (fst cab)) (Z.land (fst (snd cab)) (snd (snd zpq)))) (Z.land (snd (snd cab)) (fst (snd zpq)))) (Z.land (fst (snd zpq)) (snd (snd zpq))))
           (combine c (combine a b)) (combine z (combine p q)))).
    { eapply RL_ext; [|eapply (RL_map2 _ _ (bin_shared 128) (fun i cab zpq => and_triple_check i (fst (snd cab)) (snd (snd cab)) (fst cab) (fst zpq) (fst (snd zpq)) (snd (snd zpq)))) with (2 := HL) (3 := HR)].
      - intros r. unfold check_words. rewrite (RL_length _ _ _ HA), <- Lp, firstn_length_app, skipn_length_app. reflexivity.
      - intros V v V' v' (V1 & V2 & V3) (V1' & (V2' & V2r) & (V3' & V3r)). unfold and_triple_check.
        eapply brel_ext; [|apply (sh_xor_const_ok 128 ltac:(lia) (fun i => sh_xor (sh_xor (sh_xor (fst (V' i)) (fst (V i))) (sh_andc (fst (snd (V i))) (snd (snd v')))) (sh_andc (snd (snd (V i))) (fst (snd v'))))
         _ (Z.land (fst (snd v')) (snd (snd v'))))].
        + intros r. cbn beta. rewrite V2', V3'. reflexivity.
        + apply inr_land; auto; lia.
        + apply sh_xor_ok; [lia| |]. { apply sh_xor_ok; [lia| |]. { apply sh_xor_ok; [lia|assumption|assumption]. } apply sh_andc_ok; [lia|assumption|assumption]. }
          apply sh_andc_ok; [lia|assumption|assumption]. }
    apply (bin_rows_zero _ _ HW) in E. unfold p, q in E. clear - E Lb Lc Lx Ly Lz.
    revert b c x y z E Lb Lc Lx Ly Lz. induction a as [|a0 a IH]; intros [|b0 b] [|c0 c] [|x0 x] [|y0 y] [|z0 z] E Lb Lc Lx Ly Lz; try discriminate; [reflexivity|].
    cbn [map2 combine fst snd] in E. inversion E as [|? ? E0 E']; subst. cbn [errors]. rewrite (IH b c x y z E') by (cbn in *; lia). f_equal.
    apply word_errors_xor. etransitivity; [|exact E0]. clear. apply Z.bits_inj'. intros k Hk. repeat (rewrite Z.lxor_spec || rewrite Z.land_spec).
    destruct (Z.testbit a0 k), (Z.testbit b0 k), (Z.testbit x0 k), (Z.testbit y0 k), (Z.testbit z0 k), (Z.testbit c0 k); reflexivity.
  Qed.
End D.
