(** The batched MAC check of the SPDZ-wise engine against a malicious party. *)
From Verif Require Import Base Ring RingProofs Prog Sched Conc Rng Rel Net BinTrait BitArith BinProofs AddProofs MpcSpec Protocol Aby3 ShareSpec Aby3Proofs Jmp JmpProofs Session SessionProofs
  Aby3Mal Aby3MalProofs SacrificeProofs PropLemmas PropLemmas2 SpecProofs Duo DuoProofs PropLemmas5 Client Spdz MacSpec.
From Coq Require Import ZifyBool ZifyNat.

(** ** Postconditions that see the third party's messages to i *)
Section DuoR.
  Variable i : pid.
  Notation j := (next i).
  Definition duoR {A B} (p : prog A) (q : prog B) (qij qji : list msg) (Q : list msg -> A -> B -> Prop) : Prop :=
    forall ti a tj b xi yi xj yj, lrun p ti (Ret a) -> lrun q tj (Ret b) ->
      Forall bytes (rcvd_from (prev i) ti) -> Forall bytes (rcvd_from (next j) tj) ->
      rcvd_from j ti ++ xi = qji ++ sent_to i tj ++ yi ->
      rcvd_from i tj ++ xj = qij ++ sent_to j ti ++ yj ->
      xi = yi /\ xj = yj /\ Q (rcvd_from (prev i) ti) a b.
  Lemma duoR_duo {A B} (p : prog A) (q : prog B) qij qji (Q : A -> B -> Prop) : duoq i p q qij qji Q -> duoR p q qij qji (fun _ => Q).
  Proof. intros H ti a tj b xi yi xj yj L1 L2 B1 B2 E1 E2. exact (H _ _ _ _ _ _ _ _ L1 L2 B1 B2 E1 E2). Qed.
  Lemma duoR_mono {A B} (p : prog A) (q : prog B) qij qji (Q Q' : list msg -> A -> B -> Prop) : (forall l a b, Q l a b -> Q' l a b) -> duoR p q qij qji Q -> duoR p q qij qji Q'.
  Proof. intros HQ H ti a tj b xi yi xj yj L1 L2 B1 B2 E1 E2. destruct (H _ _ _ _ _ _ _ _ L1 L2 B1 B2 E1 E2) as (? & ? & ?). auto. Qed.
  Lemma duoR_send_next {A B} m (k : prog A) (q : prog B) qij qji Q : duoR k q (qij ++ [m]) qji Q -> duoR (Send j m k) q qij qji Q.
  Proof.
    intros H ti a tj b xi yi xj yj L1 L2 B1 B2 E1 E2. inversion L1; subst. cbn [sent_to rcvd_from] in *.
    rewrite (proj1 (proj2 (eqb_next_prev i))) in E2. refine (H _ _ _ _ _ _ _ _ _ L2 B1 B2 E1 _); [eassumption|]. rewrite E2, <- app_assoc. reflexivity.
  Qed.
  Lemma duoR_recv_prev {A B} (k : msg -> prog A) (q : prog B) qij qji Q :
    (forall m, bytes m -> duoR (k m) q qij qji (fun l => Q (m :: l))) -> duoR (Recv (prev i) k) q qij qji Q.
  Proof.
    intros H ti a tj b xi yi xj yj L1 L2 B1 B2 E1 E2. inversion L1; subst. cbn [sent_to rcvd_from] in *.
    rewrite (proj1 (eqb_next_prev i)) in E1. replace (pid_eqb (prev i) (prev i)) with true in B1 |- * by (destruct i; reflexivity).
    inversion B1; subst. eapply H; eassumption.
  Qed.
  Lemma duoR_r_send_next {A B} m (p : prog A) (k : prog B) qij qji Q : duoR p k qij qji Q -> duoR p (Send (next j) m k) qij qji Q.
  Proof.
    intros H ti a tj b xi yi xj yj L1 L2 B1 B2 E1 E2. inversion L2; subst. cbn [sent_to rcvd_from] in *.
    replace (pid_eqb (next j) i) with false in E1 by (destruct i; reflexivity). eapply H; eassumption.
  Qed.
  Lemma duoR_r_recv_prev {A B} m (p : prog A) (k : msg -> prog B) qij qji Q : duoR p (k m) qij qji Q -> duoR p (Recv (prev j) k) (m :: qij) qji Q.
  Proof.
    intros H ti a tj b xi yi xj yj L1 L2 B1 B2 E1 E2. inversion L2; subst. cbn [sent_to rcvd_from] in *.
    replace (pid_eqb (prev j) i) with true in E2 by (destruct i; reflexivity). replace (pid_eqb (prev j) (next j)) with false in B2 by (destruct i; reflexivity).
    injection E2 as -> E2. eapply H; eassumption.
  Qed.
  Lemma duoR_fail_l {A B} e (q : prog B) qij qji (Q : list msg -> A -> B -> Prop) : duoR (Fail e) q qij qji Q.
  Proof. intros ti a tj b xi yi xj yj L1. inversion L1. Qed.

  Lemma duoR_bind {A B C D} (p : prog A) (q : prog B) (f : A -> prog C) (g : B -> prog D) qij qji (Q : list msg -> C -> D -> Prop) :
    duoR p q qij qji (fun l a b => duoR (f a) (g b) [] [] (fun l' => Q (l ++ l'))) -> duoR (bind p f) (bind q g) qij qji Q.
  Proof.
    intros H ti c tj d xi yi xj yj L1 L2 B1 B2 E1 E2.
    apply lrun_bind in L1. destruct L1 as (t1 & a & t2 & L1 & L1' & ->). apply lrun_bind in L2. destruct L2 as (u1 & b & u2 & L2 & L2' & ->).
    rewrite rcvd_app in B1, B2. apply Forall_app in B1, B2. destruct B1 as [B1 B1'], B2 as [B2 B2'].
    rewrite rcvd_app, sent_app, <- !app_assoc in E1. rewrite rcvd_app, sent_app, <- !app_assoc in E2.
    destruct (H _ _ _ _ _ _ _ _ L1 L2 B1 B2 E1 E2) as (E1' & E2' & HQ). rewrite rcvd_app. exact (HQ _ _ _ _ _ _ _ _ L1' L2' B1' B2' E1' E2').
  Qed.

  Lemma duo_trace_sound {S A} (p q : M S A) s t s' t' x y l (Q : list msg -> S * A -> S * A -> Prop) :
    duoR (p s) (q t) [] [] Q -> duo_trace i p q s t s' t' x y l -> Q l (s', x) (t', y).
  Proof.
    intros D (P & tr & c & E1 & E2 & HB & L & E & R1 & R2 & ->).
    pose proof (L i) as L1. pose proof (L j) as L2. rewrite R1, E1 in L1. rewrite R2, E2 in L2.
    refine (proj2 (proj2 (D (tr i) (s', x) (tr j) (t', y) (qget (qs c) j i) [] (qget (qs c) i j) [] L1 L2 _ _ _ _))); try (rewrite app_nil_r; apply E).
    - specialize (HB _ _ i (L (prev i))). rewrite <- E in HB. apply Forall_app in HB. apply HB.
    - specialize (HB _ _ j (L (prev i))). rewrite <- E in HB. apply Forall_app in HB. replace (next j) with (prev i) by (destruct i; reflexivity). apply HB.
  Qed.
  Lemma duo_run_trace {S A} (p q : M S A) s t s' t' x y : duo_run i p q s t s' t' x y -> exists l, duo_trace i p q s t s' t' x y l.
  Proof.
    intros (P & sched & c & E1 & E2 & HB & Hst & R1 & R2). destruct (project P sched c Hst) as (tr & L & E).
    eexists. exists P, tr, c. repeat (split; [assumption|]). reflexivity.
  Qed.
End DuoR.

(** Programs that differ only in the presentation of their continuations. *)
Inductive peq {A} : prog A -> prog A -> Prop :=
| peq_ret a : peq (Ret a) (Ret a)
| peq_fail e : peq (Fail e) (Fail e)
| peq_send to m k k' : peq k k' -> peq (Send to m k) (Send to m k')
| peq_recv from k k' : (forall m, peq (k m) (k' m)) -> peq (Recv from k) (Recv from k').
Lemma peq_refl {A} (p : prog A) : peq p p.
Proof. induction p; constructor; auto. Qed.
Lemma peq_lrun {A} (p q : prog A) tr a : peq p q -> lrun p tr (Ret a) -> lrun q tr (Ret a).
Proof.
  intros E. revert tr. induction E; intros tr L; inversion L; subst; constructor; auto.
Qed.
Lemma duoR_peq {A B} i (p p' : prog A) (q q' : prog B) qij qji Q : peq p p' -> peq q q' -> duoR i p' q' qij qji Q -> duoR i p q qij qji Q.
Proof. intros E E' D ti a tj b xi yi xj yj L1 L2. eapply D; eapply peq_lrun; eassumption. Qed.

(** ** Lists of draws *)
Section Draws.
  Variables (G : rng) (K : Z).
  Lemma rnd_length n r : length (rnd G K n r) = n.
  Proof. revert r. induction n; intros r; cbn; [reflexivity|]. rewrite IHn. reflexivity. Qed.
  Lemma rnd_range n r : 0 <= K -> Forall (inr K) (rnd G K n r).
  Proof. intros HK. revert r. induction n; intros r; cbn; constructor; [apply draw_range, HK|apply IHn]. Qed.
  Lemma rnd_app m n r : rnd G K (m + n) r = rnd G K m r ++ rnd G K n (after G K m r).
  Proof. revert r. induction m; intros r; cbn; [reflexivity|]. rewrite IHm. reflexivity. Qed.
  Lemma rnd_firstn m n r : firstn m (rnd G K (m + n) r) = rnd G K m r.
  Proof. rewrite rnd_app. rewrite <- (rnd_length m r) at 1. rewrite firstn_app, Nat.sub_diag, firstn_all. cbn. apply app_nil_r. Qed.
  Lemma rnd_nth m n q r : (q < n)%nat -> nth (m + q) (rnd G K (m + n) r) 0 = nth q (rnd G K n (after G K m r)) 0.
  Proof. intros Hq. rewrite rnd_app, app_nth2; rewrite rnd_length; [|lia]. f_equal. lia. Qed.
  Lemma gen_rand_list {A} (l : list A) (f : prf G) :
    mapM (fun _ => gen_rand G K) l f =
    Ret (Prf G (after G K (length l) (my_prf G f)) (after G K (length l) (next_prf G f)),
         map2 Share (rnd G K (length l) (my_prf G f)) (rnd G K (length l) (next_prf G f))).
  Proof.
    revert f. induction l as [|a l IH]; intros f; cbn [mapM length rnd after map2]; [destruct f; reflexivity|].
    unfold bindM at 1. unfold gen_rand at 1, bindM at 1, gen_rands.
    destruct (draw G K (my_prf G f)) as [m x] eqn:E1, (draw G K (next_prf G f)) as [m' x'] eqn:E2. cbn [bind fst snd retM].
    unfold bindM. rewrite IH. cbn [bind fst snd my_prf next_prf]. reflexivity.
  Qed.
  Lemma gen_zero_eq (f : prf G) :
    gen_zero_share G K f = Ret (Prf G (after G K 1 (my_prf G f)) (after G K 1 (next_prf G f)),
      (nth 0 (rnd G K 1 (my_prf G f)) 0 - nth 0 (rnd G K 1 (next_prf G f)) 0) mod 2 ^ K).
  Proof.
    unfold gen_zero_share, bindM, gen_rands. cbn [rnd after nth]. destruct (draw G K (my_prf G f)), (draw G K (next_prf G f)). reflexivity.
  Qed.
End Draws.

Section Main.
  Variables (G : rng) (H : hasher) (U : Z).
  Hypothesis HU : In U widths.
  Notation sst := (sst G).
  Notation upd s f vq := (SSt G (JSt G f (j_snd G (s_j G s)) (j_rcv G (s_j G s)) (j_log G (s_j G s))) (s_mac G s) vq (s_prec G s) (s_tb G s)).

  Lemma fold_parts (x y : list share) z : z mod 2 ^ U = z ->
    fold_left (fun c xy => radd U c (local_mul U (fst xy) (snd xy))) (combine x y) z = (parts x y + z) mod 2 ^ U.
  Proof using Type.
    revert y z. induction x as [|a x IH]; intros [|b y] z Hz; cbn [combine fold_left]; try (unfold parts; cbn; symmetry; exact Hz).
    rewrite IH by (unfold radd; apply Zmod_mod). unfold parts. cbn [map2 fold_right]. unfold local_mul, part, fst, snd. modring.
  Qed.

  (** The program of one party, after its local computations. *)
  Definition check_end (p : pid) (s : sst) (f3 : prf G) (w1 v1 w2 v2 : Z) : prog (sst * unit) :=
    on_j G (zero_verify G H p U [sh_sub U (Share w2 v2) (Share w1 v1)]) (upd s f3 []).
  Definition check_tail (p : pid) (s : sst) (z2 : Z) (f3 : prf G) (w0 w1 v0 v1 : Z) : prog (sst * unit) :=
    let w2 := (part (Share w0 v0) (s_mac G s) + z2) mod 2 ^ U in
    Send (next p) (to_bytes U w2) (Recv (prev p) (fun m =>
      match from_bytes U m with
      | Err e => Fail e
      | Ok v2 => check_end p s f3 w1 v1 w2 v2
      end)).
  Lemma on_aby_ret {A} (p : M (prf G) A) (s : sst) f a : p (j_prf G (s_j G s)) = Ret (f, a) -> on_aby G p s = Ret (upd s f (s_vq G s), a).
  Proof using Type. intros E. unfold on_aby, on_j, on_prf, zoom. rewrite E. reflexivity. Qed.
  Lemma peq_bind {A B} (p q : prog A) (f g : A -> prog B) : peq p q -> (forall a, peq (f a) (g a)) -> peq (bind p f) (bind q g).
  Proof using Type. intros E Hf. induction E; cbn; try constructor; auto. Qed.
  Lemma dot_words X Y C m1 m2 : length X = length C -> length Y = length C ->
    mapM2 (fun x y => bindM (gen_zero_share G U) (fun r => if negb (Nat.eqb (length x) (length y)) then failM EInvalidSize
             else retM (fold_left (fun c xy => radd U c (local_mul U (fst xy) (snd xy))) (combine x y) r))) [X; Y] [C; C] (Prf G m1 m2) =
    Ret (Prf G (after G U 2 m1) (after G U 2 m2),
         [(parts X C + (nth 0 (rnd G U 2 m1) 0 - nth 0 (rnd G U 2 m2) 0)) mod 2 ^ U; (parts Y C + (nth 1 (rnd G U 2 m1) 0 - nth 1 (rnd G U 2 m2) 0)) mod 2 ^ U]).
  Proof using Type.
    intros L1 L2. cbn [mapM2]. unfold bindM, retM. rewrite gen_zero_eq. cbn [bind fst snd my_prf next_prf]. rewrite L1, Nat.eqb_refl. cbn [negb bind fst snd].
    rewrite gen_zero_eq. cbn [bind fst snd my_prf next_prf]. rewrite L2, Nat.eqb_refl. cbn [negb bind fst snd].
    rewrite !fold_parts by apply Zmod_mod. cbn [after rnd nth].
    apply (f_equal (fun l => Ret (Prf G (fst (draw G U (fst (draw G U m1)))) (fst (draw G U (fst (draw G U m2)))), l))). apply (f_equal2 (fun a b => [a; b])); modring.
  Qed.
  Lemma iter_len m n vs : ring_iter_from_bytes U m n = Ok vs -> length vs = n.
  Proof using Type.
    unfold ring_iter_from_bytes. destruct (Nat.eqb _ _); [|discriminate]. revert m vs. induction n as [|n IH]; intros m vs E; cbn in E; [injection E as <-; reflexivity|].
    destruct (take_from_bytes U m) as [[v m']|]; [|discriminate]. destruct (iter_drain U n m') as [l|] eqn:E1; [|discriminate]. injection E as <-. cbn. f_equal. eapply IH; eassumption.
  Qed.
  Lemma iter_range m n vs : ring_iter_from_bytes U m n = Ok vs -> bytes m -> Forall (inr U) vs.
  Proof using HU.
    unfold ring_iter_from_bytes. destruct (Nat.eqb _ _); [|discriminate]. revert m vs. induction n as [|n IH]; intros m vs E B; cbn in E; [injection E as <-; constructor|].
    destruct (take_from_bytes U m) as [[v m']|] eqn:E0; [|discriminate]. destruct (iter_drain U n m') as [l|] eqn:E1; [|discriminate]. injection E as <-.
    destruct (take_range _ _ _ _ HU B E0) as [Hv B']. constructor; [exact Hv|]. eapply IH; eassumption.
  Qed.
  Lemma verify_macs_eq p (s : sst) m1 m2 : s_vq G s <> [] -> j_prf G (s_j G s) = Prf G m1 m2 ->
    let n := length (s_vq G s) in
    let d := rnd G U (n + 3) m1 in let d' := rnd G U (n + 3) m2 in
    let C := map2 Share (firstn n d) (firstn n d') in
    let w0 := (parts (map av (s_vq G s)) C + (nth (n + 0) d 0 - nth (n + 0) d' 0)) mod 2 ^ U in
    let w1 := (parts (map am (s_vq G s)) C + (nth (n + 1) d 0 - nth (n + 1) d' 0)) mod 2 ^ U in
    peq (verify_macs G H p U s)
    (Send (next p) (ring_slice_to_bytes U [w0; w1]) (Recv (prev p) (fun m =>
      match ring_iter_from_bytes U m 2 with
      | Ok [v0; v1] => check_tail p s (nth (n + 2) d 0 - nth (n + 2) d' 0) (Prf G (after G U (n + 3) m1) (after G U (n + 3) m2)) w0 w1 v0 v1
      | Ok _ => Fail EPanic
      | Err e => Fail e
      end))).
  Proof using HU.
    intros Hn Hf n d d' C w0 w1.
    unfold verify_macs, bindM at 1, getM. cbn [bind fst snd].
    destruct (Nat.eqb_spec (length (s_vq G s)) 0) as [E|_]; [destruct (s_vq G s); [congruence|discriminate]|].
    unfold bindM at 1. erewrite on_aby_ret by (rewrite gen_rand_list; reflexivity).
    cbn [bind fst snd]. unfold bindM at 1. cbn [bind fst snd]. unfold bindM at 1, putM. cbn [bind fst snd s_vq s_j s_mac s_prec s_tb j_snd j_rcv j_log j_prf].
    rewrite Hf. cbn [my_prf next_prf]. fold n.
    assert (EC : map2 Share (rnd G U n m1) (rnd G U n m2) = C) by (unfold C, d, d'; rewrite !rnd_firstn; reflexivity). rewrite EC.
    assert (HP : 2 ^ U <> 0) by (apply in_widths_pos in HU; apply Z.pow_nonzero; lia).
    unfold bindM at 1, on_aby, on_j, on_prf, zoom. cbn [bind fst snd s_vq s_j s_mac s_prec s_tb j_snd j_rcv j_log j_prf].
    assert (LC : length C = n) by (unfold C, d, d'; rewrite !rnd_firstn, map2_length_eq; rewrite !rnd_length; reflexivity).
    unfold dot_many at 1. cbn [length Nat.eqb negb]. unfold bindM at 1. rewrite dot_words by (rewrite map_length, LC; reflexivity).
    cbn [bind fst snd].
    assert (EN : forall q r, (q < 3)%nat -> nth q (rnd G U 3 (after G U n r)) 0 = nth (n + q) (rnd G U (n + 3) r) 0) by (intros; rewrite rnd_nth by lia; reflexivity).
    pose proof (EN 0%nat m1 ltac:(lia)) as E01. pose proof (EN 0%nat m2 ltac:(lia)) as E02. pose proof (EN 1%nat m1 ltac:(lia)) as E11. pose proof (EN 1%nat m2 ltac:(lia)) as E12.
    pose proof (EN 2%nat m1 ltac:(lia)) as E21. pose proof (EN 2%nat m2 ltac:(lia)) as E22.
    change (nth 0 (rnd G U 2 ?r) 0) with (nth 0 (rnd G U 3 r) 0). change (nth 1 (rnd G U 2 ?r) 0) with (nth 1 (rnd G U 3 r) 0).
    rewrite E01, E02, E11, E12. fold d d' w0 w1.
    unfold reshare_many, bindM at 1, liftM at 1, send_slice_and_receive_iter, send_and_receive. cbn [bind fst snd].
    apply peq_send, peq_recv. intros m. change (length [w0; w1]) with 2%nat.
    destruct (ring_iter_from_bytes U m 2) as [[|v0 [|v1 [|]]]|e] eqn:EM; cbn [of_res bind fst snd]; try apply peq_fail.
    all: try (exfalso; apply iter_len in EM; discriminate).
    unfold retM at 1. cbn [bind fst snd map2 index nth_error]. unfold bindM at 1, resM at 1, liftM, of_res at 1. cbn [bind fst snd].
    unfold bindM at 1. unfold mul, bindM at 1. rewrite gen_zero_eq. cbn [bind fst snd my_prf next_prf j_prf].
    unfold reshare, bindM at 1, liftM at 1, send_and_receive_value, send_and_receive. cbn [bind fst snd].
    unfold check_tail.
    assert (E2 : radd U (local_mul U (Share w0 v0) (s_mac G s)) ((nth 0 (rnd G U 1 (after G U 2 (after G U n m1))) 0 - nth 0 (rnd G U 1 (after G U 2 (after G U n m2))) 0) mod 2 ^ U)
      = (part (Share w0 v0) (s_mac G s) + (nth (n + 2) d 0 - nth (n + 2) d' 0)) mod 2 ^ U).
    { fold d in E21. fold d' in E22. rewrite <- E21, <- E22. cbn [rnd nth after]. unfold local_mul, part. modring. }
    cbn [s_j j_prf my_prf next_prf]. rewrite E2. apply peq_send, peq_recv. intros m'. destruct (from_bytes U m') as [v2|e]; cbn [of_res bind fst snd]; [|apply peq_fail].
    unfold retM, bindM, resM, liftM. cbn [bind fst snd index nth_error of_res]. unfold check_end.
    assert (EA : forall q r, after G U 1 (after G U 2 (after G U q r)) = after G U (q + 3) r) by (clear; induction q; intros r; [reflexivity|apply IHq]).
    rewrite !EA. cbn [s_vq s_j s_mac s_prec s_tb j_snd j_rcv j_log j_prf]. apply peq_refl.
  Qed.

  (** Sums of the three parties' words. *)
  Lemma parts_sum d n V vs m : (forall p, Forall (inr U) (d p)) -> (forall p, length (d p) = (n + 3)%nat) -> length vs = n -> RL (arith_shared U) V vs ->
    asum U (fun p => sum_word U n d m (V p) p) (dotp vs (coef n d) mod 2 ^ U).
  Proof using HU.
    intros Hd Ld Ln HV. assert (HU0 : 0 <= U) by (apply in_widths_pos in HU; lia). split; [intros p; apply inr_mod, HU0|].
    unfold sum_word, zero_part. cbn [prev].
    transitivity ((parts (V P0) (coef_share n d P0) + parts (V P1) (coef_share n d P1) + parts (V P2) (coef_share n d P2)) mod 2 ^ U); [|modring].
    unfold coef, coef_share, sum3. cbn [prev].
    set (a := firstn n (d P0)). set (b := firstn n (d P1)). set (c := firstn n (d P2)).
    assert (La : length a = length vs) by (unfold a; rewrite firstn_length_le; rewrite ?Ld; lia).
    assert (Lb : length b = length vs) by (unfold b; rewrite firstn_length_le; rewrite ?Ld; lia).
    assert (Lc : length c = length vs) by (unfold c; rewrite firstn_length_le; rewrite ?Ld; lia).
    clearbody a b c. clear Hd Ld Ln. revert a b c La Lb Lc. induction HV as [X HX|X Y X' y ys HX (Y1 & Y2 & Y3) HV IH]; intros [|x0 a] [|x1 b] [|x2 c] La Lb Lc; try discriminate.
    - rewrite !HX. reflexivity.
    - rewrite !HX. cbn [map2]. unfold dotp, parts in *. cbn [map2 fold_right].
      specialize (IH a b c ltac:(injection La; auto) ltac:(injection Lb; auto) ltac:(injection Lc; auto)).
      rewrite Zplus_mod, IH, <- Zplus_mod. unfold part. cbn [sa sb]. rewrite !Y2. cbn [prev]. subst y. modring.
  Qed.

  Section Run.
    Variables (i : pid) (V M : pid -> list share) (key : pid -> share) (vs ms : list Z) (r : Z) (s t : sst).
    Notation j := (next i). Notation k := (prev i).
    Hypotheses (HV : RL (arith_shared U) V vs) (HM : RL (arith_shared U) M ms) (HK : arith_shared U key r)
      (Lv : vs <> []) (Lm : length ms = length vs)
      (Vi : map av (s_vq G s) = V i) (Vj : map av (s_vq G t) = V j) (Mi : map am (s_vq G s) = M i) (Mj : map am (s_vq G t) = M j)
      (Ki : s_mac G s = key i) (Kj : s_mac G t = key j)
      (Hs : next_prf G (j_prf G (s_j G t)) = my_prf G (j_prf G (s_j G s))).
    Let n := length vs.
    Definition mac_draws (p : pid) : list Z :=
      by_pid i (rnd G U (length vs + 3) (my_prf G (j_prf G (s_j G s)))) (rnd G U (length vs + 3) (my_prf G (j_prf G (s_j G t)))) (rnd G U (length vs + 3) (next_prf G (j_prf G (s_j G s)))) p.
    Notation d := mac_draws.
    Definition third_error0 (W0 : Z) := W0 - sum_word U n d 0 (V k) k.
    Definition third_error1 (W1 : Z) := W1 - sum_word U n d 1 (M k) k.
    Definition third_error2 (W0 W2 : Z) := W2 - product_word U n d (Share W0 (sum_word U n d 0 (V j) j)) (key k) k.
    Lemma mac_check_duo : duoR i (verify_macs G H i U s) (verify_macs G H j U t) [] [] (fun l x y =>
      exists m1 m2 rest W0 W1 W2, l = m1 :: m2 :: rest /\ ring_iter_from_bytes U m1 2 = Ok [W0; W1] /\ from_bytes U m2 = Ok W2 /\
        (hash_collision G H (s_j G (fst x)) (s_j G (fst y)) \/
         ((dotp vs (coef n d) + third_error0 W0) * r + third_error2 W0 W2 - (dotp ms (coef n d) + third_error1 W1)) mod 2 ^ U = 0)).
    Proof using All.
      assert (HU0 : 0 <= U) by (apply in_widths_pos in HU; lia).
      assert (Ls : length (s_vq G s) = n) by (rewrite <- (map_length av), Vi; apply (RL_length _ _ _ HV)).
      assert (Lt : length (s_vq G t) = n) by (rewrite <- (map_length av), Vj; apply (RL_length _ _ _ HV)).
      assert (Ns : s_vq G s <> []) by (intros E; rewrite E in Ls; cbn in Ls; unfold n in Ls; destruct vs; [congruence|discriminate]).
      assert (Nt : s_vq G t <> []) by (intros E; rewrite E in Lt; cbn in Lt; unfold n in Lt; destruct vs; [congruence|discriminate]).
      pose proof (verify_macs_eq i s (my_prf G (j_prf G (s_j G s))) (next_prf G (j_prf G (s_j G s))) Ns ltac:(destruct (j_prf G (s_j G s)); reflexivity)) as Ei.
      pose proof (verify_macs_eq j t (my_prf G (j_prf G (s_j G t))) (next_prf G (j_prf G (s_j G t))) Nt ltac:(destruct (j_prf G (s_j G t)); reflexivity)) as Ej.
      cbv zeta in Ei, Ej. rewrite Ls, Vi, Mi in Ei. rewrite Lt, Vj, Mj, Hs in Ej.
      assert (Di : rnd G U (n + 3) (my_prf G (j_prf G (s_j G s))) = d i) by (unfold d, by_pid; destruct i; reflexivity).
      assert (Dj : rnd G U (n + 3) (my_prf G (j_prf G (s_j G t))) = d j) by (unfold d, by_pid; destruct i; reflexivity).
      assert (Dk : rnd G U (n + 3) (next_prf G (j_prf G (s_j G s))) = d k) by (unfold d, by_pid; destruct i; reflexivity).
      rewrite Di, Dk in Ei. rewrite Di, Dj in Ej.
      apply (duoR_peq _ _ _ _ _ _ _ _ Ei Ej). clear Ei Ej.
      assert (Pj : d i = d (prev j)) by (destruct i; reflexivity).
      assert (Fi : forall m X, (parts X (map2 Share (firstn n (d i)) (firstn n (d k))) + (nth (n + m) (d i) 0 - nth (n + m) (d k) 0)) mod 2 ^ U = sum_word U n d m X i) by reflexivity.
      assert (Fj : forall m X, (parts X (map2 Share (firstn n (d j)) (firstn n (d i))) + (nth (n + m) (d j) 0 - nth (n + m) (d i) 0)) mod 2 ^ U = sum_word U n d m X j)
        by (intros m X; rewrite Pj; reflexivity).
      rewrite !Fi, !Fj.
      assert (Rw : forall m X p, inr U (sum_word U n d m X p)) by (intros; apply inr_mod, HU0).
      apply duoR_send_next. apply duoR_r_send_next. apply duoR_recv_prev. intros m1 B1. cbn [app]. apply duoR_r_recv_prev.
      pose proof (iter_roundtrip U [sum_word U n d 0 (V i) i; sum_word U n d 1 (M i) i] HU ltac:(repeat constructor; apply Rw)) as RT. cbn [length] in RT. rewrite RT. clear RT.
      destruct (ring_iter_from_bytes U m1 2) as [[|W0 [|W1 [|]]]|e] eqn:EM; try apply duoR_fail_l. 
      assert (RW : inr U W0 /\ inr U W1) by (pose proof (iter_range _ _ _ EM B1) as F; inversion F as [|? ? ? F']; inversion F'; auto).
      unfold check_tail. apply duoR_send_next. apply duoR_r_send_next. apply duoR_recv_prev. intros m2 B2. cbn [app]. apply duoR_r_recv_prev.
      rewrite Ki, Kj.
      set (w2i := (part (Share (sum_word U n d 0 (V i) i) W0) (key i) + (nth (n + 2) (d i) 0 - nth (n + 2) (d k) 0)) mod 2 ^ U).
      set (w2j := (part (Share (sum_word U n d 0 (V j) j) (sum_word U n d 0 (V i) i)) (key j) + (nth (n + 2) (d j) 0 - nth (n + 2) (d i) 0)) mod 2 ^ U).
      rewrite from_to_bytes by (try exact HU; apply inr_mod, HU0).
      destruct (from_bytes U m2) as [W2|e] eqn:E2; [|apply duoR_fail_l]. pose proof (val_range _ _ _ HU B2 E2) as R2.
      unfold check_end, on_j, zoom. apply duoR_mono with (Q := fun _ x y => hash_collision G H (s_j G (fst x)) (s_j G (fst y)) \/
         ((dotp vs (coef n d) + third_error0 W0) * r + third_error2 W0 W2 - (dotp ms (coef n d) + third_error1 W1)) mod 2 ^ U = 0).
      { intros l x y HQ. exists m1, m2, l, W0, W1, W2. auto. }
      apply duoR_duo. apply duo_bind.
      match goal with |- duo _ (zero_verify _ _ _ _ ?a ?s1) (zero_verify _ _ _ _ ?b ?s2) _ => pose proof (zero_verify_duo G H i U a b s1 s2) as ZV end.
      unfold duoM in ZV. eapply duo_mono; [|apply (ZV (fun s' _ t' _ => zero_transcript U i [sh_sub U (Share w2i W2) (Share (sum_word U n d 1 (M i) i) W1)] =
          zero_transcript U j [sh_sub U (Share w2j w2i) (Share (sum_word U n d 1 (M j) j) (sum_word U n d 1 (M i) i))] \/ hash_collision G H s' t'))].
      2: { cbv zeta. exact (fun x => x). }
      clear ZV. intros [s1 u1] [t1 u2]. cbn [fst snd]. intros HZ. apply duo_ret. cbn [fst snd s_j]. destruct HZ as [HZ|HZ]; [right|left; exact HZ].
      pose (c1 := by_pid i (sum_word U n d 1 (M i) i) (sum_word U n d 1 (M j) j) W1). pose (c2 := by_pid i w2i w2j W2).
      assert (A : forall c : pid -> Z, (forall p, inr U (c p)) -> arith_shared U (fun p => Share (c p) (c (prev p))) ((c i + c j + c k) mod 2 ^ U)).
      { intros c Hc. split; [exact Hc|]. split; [reflexivity|]. cbn. destruct i; cbn; f_equal; ring. }
      assert (R1 : forall p, inr U (c1 p)) by (intros p; unfold c1, by_pid; destruct (pid_eqb p i); [apply Rw|]; destruct (pid_eqb p j); [apply Rw|apply RW]).
      assert (R3 : forall p, inr U (c2 p)) by (intros p; unfold c2, by_pid; destruct (pid_eqb p i); [apply inr_mod, HU0|]; destruct (pid_eqb p j); [apply inr_mod, HU0|apply R2]).
      pose proof (sh_sub_ok U HU0 _ _ _ _ (A c2 R3) (A c1 R1)) as HS. cbn beta in HS.
      pose proof (zero_rows i U (fun p => [sh_sub U (Share (c2 p) (c2 (prev p))) (Share (c1 p) (c1 (prev p)))]) _ HU (RL_cons' _ _ _ _ _ HS (RL_nil' _))) as Z0.
      assert (Ec : forall (c : pid -> Z) a b e, c = by_pid i a b e -> c i = a /\ c j = b /\ c k = e /\ c (prev j) = a) by (intros c a b e ->; unfold by_pid; destruct i; cbn; auto).
      destruct (Ec c1 _ _ _ eq_refl) as (c1i & c1j & c1k & c1p). destruct (Ec c2 _ _ _ eq_refl) as (c2i & c2j & c2k & c2p).
      specialize (Z0 ltac:(cbn beta; rewrite c1i, c1j, c1k, c1p, c2i, c2j, c2k, c2p; exact HZ)).
      pose proof (Forall_inv Z0) as Z1. clear Z0 HZ HS A R1 R3. rewrite c1i, c1j, c1k, c2i, c2j, c2k in Z1. clear c1 c2 Ec c1i c1j c1k c1p c2i c2j c2k c2p.
      assert (RD : forall p, Forall (inr U) (d p) /\ length (d p) = (n + 3)%nat).
      { intros p. unfold d, by_pid. destruct (pid_eqb p i); [|destruct (pid_eqb p j)]; (split; [apply rnd_range, HU0|apply rnd_length]). }
      pose proof (parts_sum d n V vs 0 (fun p => proj1 (RD p)) (fun p => proj2 (RD p)) eq_refl HV) as [_ S0].
      pose proof (parts_sum d n M ms 1 (fun p => proj1 (RD p)) (fun p => proj2 (RD p)) Lm HM) as [_ S1].
      assert (T : forall w : pid -> Z, (w P0 + w P1 + w P2) = w i + w j + w k) by (intros w; destruct i; cbn; ring).
      rewrite (T (fun p => sum_word U n d 0 (V p) p)) in S0. rewrite (T (fun p => sum_word U n d 1 (M p) p)) in S1.
      destruct HK as (_ & K2 & K3). rewrite (T (fun p => sa (key p))) in K3.
      unfold third_error0, third_error1, third_error2, product_word, zero_part.
      replace (prev k) with j by (destruct i; reflexivity).
      set (D0 := dotp vs (coef n d)) in *. set (D1 := dotp ms (coef n d)) in *. set (m := 2 ^ U) in *.
      set (w0i := sum_word U n d 0 (V i) i) in *. set (w0j := sum_word U n d 0 (V j) j) in *. set (w0k := sum_word U n d 0 (V k) k) in *.
      set (w1i := sum_word U n d 1 (M i) i) in *. set (w1j := sum_word U n d 1 (M j) j) in *. set (w1k := sum_word U n d 1 (M k) k) in *.
      refine (eq_trans _ Z1). clear Z1. unfold w2i, w2j, part. cbn [sa sb]. rewrite !K2. replace (prev j) with i by (destruct i; reflexivity). replace (prev k) with j by (destruct i; reflexivity).
      transitivity (((D0 mod m + (W0 - w0k)) * r + (W2 - ((W0 * sa (key k) + W0 * sa (key j) + w0j * sa (key k) + (nth (n + 2) (d k) 0 - nth (n + 2) (d j) 0)) mod m)) - (D1 mod m + (W1 - w1k))) mod m); [modring|].
      rewrite S0, S1, K3. modring.
    Qed.
  End Run.
End Main.
