(** The AND-triple check against a malicious party: generation and the final check. *)
From Coq Require Import Permutation.
From Verif Require Import Base Ring RingProofs Prog Sched Conc Rng Rel Net BinTrait BitArith BinProofs AddProofs IrisProofs MpcSpec Aby3 ShareSpec Aby3Proofs Aby3Proofs2 SlicedProofs Jmp JmpProofs
  Session SessionProofs Aby3Mal Aby3MalProofs SacrificeProofs SpecProofs Duo DuoProofs PropLemmas5 Spdz TripleSpec TripleProofs TripleProofs2 SpdzProofs SpdzProofs2 MacSpec MacProofs
  TripleMalSpec FyCount TripleMal TripleMalDuo.
From Coq Require Import ZifyBool ZifyNat.

Section D.
  Variables (G : rng) (H : hasher) (i : pid).
  Notation j := (next i).
  Notation ST := (sst G).
  Notation coll s t := (hash_collision G H (s_j G s) (s_j G t)).
  Notation sync s t := (synced2 G (s_j G s) (s_j G t)).

  Lemma permute_duo ai bi ci aj bj cj (s t : ST) (Q : ST -> list share * list share * list share -> ST -> list share * list share * list share -> Prop) : sync s t ->
    length bi = length ai -> length ci = length ai -> length bj = length aj -> length cj = length aj ->
    (forall c di dj dk s' t', Forall (inr 8) c -> length c = 32%nat -> Forall (inr 8) dj -> length dj = 32%nat ->
       duo_seed G (s_j G s) (s_j G t) = xor3 di dj dk -> sync s' t' ->
       j_rcv G (s_j G s') = j_rcv G (s_j G s) ++ wire (map (pair 8) c) -> j_snd G (s_j G t') = j_snd G (s_j G t) ++ wire (map (pair 8) dj) ->
       Q s' (shuffle G (rseed G (xor3 di c dk)) ai bi ci) t' (shuffle G (rseed G (xor3 di dj dk)) aj bj cj)) ->
    duoM i (permute G i ai bi ci) (permute G j aj bj cj) s t Q.
  Proof.
    intros Hs L1 L2 L3 L4 HQ. unfold permute. rewrite L1, L2, L3, L4, !Nat.eqb_refl. cbn [negb orb].
    dbind. apply duoM_on_j. apply coin_duo; [exact Hs|]. intros c di dj dk s1 t1 Fc Lc Edj Edk Edi Hs1 R1 S1. apply duoM_ret.
    apply HQ; auto; [subst; apply draw_bytes_range|subst; apply draw_length|unfold duo_seed; subst; reflexivity].
  Qed.
  (** Queued bytes agree: the two parties have the same coin. *)
  Lemma coin_eq r t0 c dj : Forall (inr 8) c -> length c = 32%nat -> Forall (inr 8) dj -> length dj = 32%nat ->
    r ++ wire (map (pair 8) c) = t0 ++ wire (map (pair 8) dj) -> c = dj.
  Proof.
    intros F1 L1 F2 L2 E. apply app_inj_len_r in E; [|apply bts_len; congruence]. destruct E as [_ E].
    apply bts_inj in E; auto; [right; left; reflexivity|congruence].
  Qed.
  Lemma to_open_ranges A B X Y a b x y : RL (bin_shared 128) A a -> RL (bin_shared 128) B b -> RL (bin_shared 128) X x -> RL (bin_shared 128) Y y ->
    length b = length a -> length x = length a -> length y = length a ->
    forall p, Forall (inr 128) (map sa (to_open (A p) (B p) (X p) (Y p))) /\ Forall (inr 128) (map sb (to_open (A p) (B p) (X p) (Y p))) /\ length (to_open (A p) (B p) (X p) (Y p)) = (length a + length a)%nat.
  Proof.
    intros HA HB HX HY Lb Lx Ly p.
    assert (HP : RL (bin_shared 128) (fun p => to_open (A p) (B p) (X p) (Y p)) (map2 (fun a x => Z.lxor x a) a x ++ map2 (fun b y => Z.lxor y b) b y)).
    { apply RL_app.
      - apply (RL_map2 (bin_shared 128) (bin_shared 128) (bin_shared 128) (fun _ a x => sh_xor x a) (fun a x => Z.lxor x a)); auto.
        intros; apply sh_xor_ok; auto; lia.
      - apply (RL_map2 (bin_shared 128) (bin_shared 128) (bin_shared 128) (fun _ b y => sh_xor y b) (fun b y => Z.lxor y b)); auto.
        intros; apply sh_xor_ok; auto; lia. }
    destruct (brel_cols _ _ _ HP) as (O1 & O2 & O3). split; [apply O1|]. split; [rewrite O2; apply O1|]. rewrite O3, app_length, !map2_length_min. lia.
  Qed.

  (** *** The final check of the queue *)
  Lemma verify_queue_duo A B C X Y W a b c x y z (s t : ST) : sync s t ->
    RL (bin_shared 128) A a -> RL (bin_shared 128) B b -> RL (bin_shared 128) C c ->
    RL (bin_shared 128) X x -> RL (bin_shared 128) Y y -> RL (bin_shared 128) W z ->
    length b = length a -> length c = length a -> length y = length x -> length z = length x -> a <> [] ->
    t_a (s_tb G s) = A i -> t_b (s_tb G s) = B i -> t_c (s_tb G s) = C i -> t_a (s_prec G s) = X i -> t_b (s_prec G s) = Y i -> t_c (s_prec G s) = W i ->
    t_a (s_tb G t) = A j -> t_b (s_tb G t) = B j -> t_c (s_tb G t) = C j -> t_a (s_prec G t) = X j -> t_b (s_prec G t) = Y j -> t_c (s_prec G t) = W j ->
    let m := Nat.max (length a) min_batch in
    duoM i (verify_triple_queue G H i) (verify_triple_queue G H j) s t (fun s' _ t' _ => coll s' t' \/
      errors a b c = firstn (128 * length a) (fisher_yates (picks G (rseed G (duo_seed G (s_j G s) (s_j G t))) (128 * m)) (errors (firstn m x) (firstn m y) (firstn m z)))).
  Proof.
    intros Hs HA HB HC HX HY HW Lb Lc Ly Lz Hne A1 B1 C1 X1 Y1 W1 A2 B2 C2 X2 Y2 W2 m. unfold verify_triple_queue. dbind. apply duoM_get.
    assert (T1 : t_len (s_tb G s) = length a) by (unfold t_len; rewrite A1; apply (RL_length _ _ _ HA)).
    assert (T2 : t_len (s_tb G t) = length a) by (unfold t_len; rewrite A2; apply (RL_length _ _ _ HA)).
    assert (T3 : t_len (s_prec G s) = length x) by (unfold t_len; rewrite X1; apply (RL_length _ _ _ HX)).
    assert (T4 : t_len (s_prec G t) = length x) by (unfold t_len; rewrite X2; apply (RL_length _ _ _ HX)).
    cbv zeta. rewrite T1, T2. destruct (Nat.eqb_spec (length a) 0) as [E|_]; [destruct a; [congruence|discriminate]|].
    unfold t_get_all, t_get. rewrite A1, A2, B1, B2, C1, C2, X1, X2, Y1, Y2, W1, W2, T3, T4. fold m.
    dbind. apply duoM_put. destruct (Nat.ltb_spec (length x) m) as [Hm|Hm]; [apply duoM_bind, duoM_res; discriminate|].
    dbind. apply duoM_res. intros ? ? E E'. injection E as <-. injection E' as <-. dbind. apply duoM_put.
    pose proof (RL_firstn _ _ _ m HX) as HX'. pose proof (RL_firstn _ _ _ m HY) as HY'. pose proof (RL_firstn _ _ _ m HW) as HW'.
    assert (Lx' : length (firstn m x) = m) by (rewrite firstn_length; lia). assert (Ly' : length (firstn m y) = length (firstn m x)) by (rewrite !firstn_length; lia).
    assert (Lz' : length (firstn m z) = length (firstn m x)) by (rewrite !firstn_length; lia).
    dbind. apply permute_duo; cbn [s_j]; try (rewrite !firstn_length, ?(RL_length _ _ _ HX), ?(RL_length _ _ _ HY), ?(RL_length _ _ _ HW); lia); [exact Hs|].
    intros e di dj dk s1 t1 Fe Le Fd Ld Eseed Hs1 R1 S1.
    set (Fi := fun p => shuffle G (rseed G (xor3 di e dk)) (firstn m (X p)) (firstn m (Y p)) (firstn m (W p))).
    set (Fj := fun p => shuffle G (rseed G (xor3 di dj dk)) (firstn m (X p)) (firstn m (Y p)) (firstn m (W p))).
    destruct (shuffle_errors G (rseed G (xor3 di e dk)) _ _ _ _ _ _ HX' HY' HW' Ly' Lz') as (xi & yi & zi & HXi & HYi & HWi & L1 & L2 & L3 & _).
    destruct (shuffle_errors G (rseed G (xor3 di dj dk)) _ _ _ _ _ _ HX' HY' HW' Ly' Lz') as (xj & yj & zj & HXj & HYj & HWj & M1 & M2 & M3 & EE).
    change (RL (bin_shared 128) (fun p => col1 (Fi p)) xi) in HXi. change (RL (bin_shared 128) (fun p => col2 (Fi p)) yi) in HYi. change (RL (bin_shared 128) (fun p => col3 (Fi p)) zi) in HWi.
    change (RL (bin_shared 128) (fun p => col1 (Fj p)) xj) in HXj. change (RL (bin_shared 128) (fun p => col2 (Fj p)) yj) in HYj. change (RL (bin_shared 128) (fun p => col3 (Fj p)) zj) in HWj.
    change (shuffle G (rseed G (xor3 di e dk)) (firstn m (X i)) (firstn m (Y i)) (firstn m (W i))) with (Fi i).
    change (shuffle G (rseed G (xor3 di dj dk)) (firstn m (X j)) (firstn m (Y j)) (firstn m (W j))) with (Fj j).
    rewrite Lx' in *.
    rewrite (surjective_pairing (Fi i)), (surjective_pairing (fst (Fi i))), (surjective_pairing (Fj j)), (surjective_pairing (fst (Fj j))).
    fold (col1 (Fi i)) (col2 (Fi i)) (col3 (Fi i)) (col1 (Fj j)) (col2 (Fj j)) (col3 (Fj j)).
    assert (Hlm : (length a <= m)%nat) by apply Nat.le_max_l.
    pose proof (RL_firstn _ _ _ (length a) HXi) as HXi'. pose proof (RL_firstn _ _ _ (length a) HYi) as HYi'.
    pose proof (RL_firstn _ _ _ (length a) HXj) as HXj'. pose proof (RL_firstn _ _ _ (length a) HYj) as HYj'. pose proof (RL_firstn _ _ _ (length a) HWj) as HWj'.
    destruct (to_open_ranges _ _ _ _ _ _ _ _ HA HB HXi' HYi' Lb ltac:(rewrite firstn_length; lia) ltac:(rewrite firstn_length; lia) i) as (_ & I1 & I2).
    destruct (to_open_ranges _ _ _ _ _ _ _ _ HA HB HXj' HYj' Lb ltac:(rewrite firstn_length; lia) ltac:(rewrite firstn_length; lia) j) as (J1 & _ & J2).
    apply verify_triples_duo; [exact I1|exact J1|congruence|]. intros s2 t2 _ _ [HC2|[E1 E2]]; [left; exact HC2|right].
    rewrite R1, S1 in E1. apply coin_eq in E1; auto. subst e. change Fi with Fj in E2.
    rewrite (check_errors i A B C _ _ _ a b c _ _ _ HA HB HC HXj' HYj' HWj') ; [|assumption..|rewrite firstn_length; lia|rewrite firstn_length; lia|rewrite firstn_length; lia|exact E2].
    rewrite errors_firstn, EE, Eseed. reflexivity.
  Qed.

  (** *** Opening without protection: i + 1 at least gets what i sends *)
  Lemma open_bin_duo Oi Oj (s t : ST) (Q : ST -> list Z -> ST -> list Z -> Prop) : Forall (inr 128) (map sb Oi) -> length Oi = length Oj ->
    (forall v, Q s v t (opened Oj (map sb Oi))) ->
    duoM i (open_bin_many G i 128 Oi) (open_bin_many G j 128 Oj) s t Q.
  Proof.
    intros Fi HL HQ. unfold open_bin_many. dbind. apply duoM_on_j. apply duoM_lift. unfold send_slice_and_receive_iter, send_and_receive. cbn [bind].
    unfold duo. duostep. duostep. cbn [bind app]. apply duo_r_recv_prev. rewrite (map_length sb Oj), <- HL, <- (map_length sb Oi), iter_roundtrip by (exact in128 || exact Fi).
    cbn [of_res bind]. duostep. match goal with |- duoq _ (of_res ?r) _ _ _ _ => destruct r as [c|] eqn:E; cbn [of_res]; [|apply duo_fail_l] end.
    apply duo_ret. apply duoM_ret. destruct s, t. apply HQ.
  Qed.
  (** The part of generate_triples after the multiplication. *)
  Definition tcheck (p : pid) (n : nat) (a b c : list share) : M ST triples :=
    bindM (permute G p (skipn n a) (skipn n b) (skipn n c)) (fun abc =>
    let '(xs, ys, zs) := abc in
    bindM (resM (pop xs)) (fun x => bindM (resM (pop ys)) (fun y => bindM (resM (pop zs)) (fun z =>
    bindM (open_bin_many G p 128 [snd x; snd y; snd z]) (fun opened =>
    bindM (resM (index opened 0)) (fun o0 => bindM (resM (index opened 1)) (fun o1 => bindM (resM (index opened 2)) (fun o2 =>
    if negb (rand_ o0 o1 =? o2) then failM EVerify
    else bindM (verify_triples G H p (firstn n a) (firstn n b) (firstn n c) (fst x) (fst y) (fst z)) (fun _ =>
      retM (triples_new (firstn n a) (firstn n b) (firstn n c))))))))))).
  Lemma generate_split p num : generate_triples G H p num =
    let n := Nat.max num min_batch in
    bindM (on_aby G (mapM (fun _ => gen_rand G 128) (repeat tt (2 * n + 1)))) (fun a =>
    bindM (on_aby G (mapM (fun _ => gen_rand G 128) (repeat tt (2 * n + 1)))) (fun b =>
    bindM (on_aby G (and_many G p 128 a b)) (fun c => tcheck p n a b c))).
  Proof. reflexivity. Qed.

  Lemma pop_snoc {T} (l : list T) u : pop (l ++ [u]) = Ok (l, u).
  Proof. unfold pop. rewrite rev_app_distr. cbn [rev app]. rewrite rev_involutive. reflexivity. Qed.
  Lemma bin_range X x : bin_shared 128 X x -> inr 128 x.
  Proof. intros (A1 & _ & ->). repeat apply inr_lxor; auto; lia. Qed.
  Lemma tcheck_duo n A B C a b c (s t : ST) : sync s t ->
    RL (bin_shared 128) A a -> RL (bin_shared 128) B b -> RL (bin_shared 128) C c ->
    length a = (2 * n + 1)%nat -> length b = (2 * n + 1)%nat -> length c = (2 * n + 1)%nat ->
    duoM i (tcheck i n (A i) (B i) (C i)) (tcheck j n (A j) (B j) (C j)) s t (fun s' x t' y =>
      x = triples_new (firstn n (A i)) (firstn n (B i)) (firstn n (C i)) /\ y = triples_new (firstn n (A j)) (firstn n (B j)) (firstn n (C j)) /\
      (coll s' t' \/ errors (firstn n a) (firstn n b) (firstn n c) ++ repeat false 128 =
         fisher_yates (picks G (rseed G (duo_seed G (s_j G s) (s_j G t))) (128 * (n + 1))) (errors (skipn n a) (skipn n b) (skipn n c)))).
  Proof.
    intros Hs HA HB HC La Lb Lc. unfold tcheck.
    pose proof (RL_skipn _ _ _ n HA) as HX'. pose proof (RL_skipn _ _ _ n HB) as HY'. pose proof (RL_skipn _ _ _ n HC) as HW'.
    pose proof (RL_firstn _ _ _ n HA) as HA'. pose proof (RL_firstn _ _ _ n HB) as HB'. pose proof (RL_firstn _ _ _ n HC) as HC'.
    assert (Lx' : length (skipn n a) = (n + 1)%nat) by (rewrite skipn_length; lia). assert (Ly' : length (skipn n b) = length (skipn n a)) by (rewrite !skipn_length; lia).
    assert (Lz' : length (skipn n c) = length (skipn n a)) by (rewrite !skipn_length; lia).
    assert (La' : length (firstn n a) = n) by (rewrite firstn_length; lia).
    dbind. apply permute_duo; cbn [s_j]; try (rewrite !skipn_length, ?(RL_length _ _ _ HA), ?(RL_length _ _ _ HB), ?(RL_length _ _ _ HC); lia); [exact Hs|].
    intros e di dj dk s1 t1 Fe Le Fd Ld Eseed Hs1 R1 S1.
    set (Fi := fun p => shuffle G (rseed G (xor3 di e dk)) (skipn n (A p)) (skipn n (B p)) (skipn n (C p))).
    set (Fj := fun p => shuffle G (rseed G (xor3 di dj dk)) (skipn n (A p)) (skipn n (B p)) (skipn n (C p))).
    destruct (shuffle_errors G (rseed G (xor3 di e dk)) _ _ _ _ _ _ HX' HY' HW' Ly' Lz') as (xi & yi & zi & HXi & HYi & HWi & L1 & L2 & L3 & _).
    destruct (shuffle_errors G (rseed G (xor3 di dj dk)) _ _ _ _ _ _ HX' HY' HW' Ly' Lz') as (xj & yj & zj & HXj & HYj & HWj & M1 & M2 & M3 & EE).
    change (RL (bin_shared 128) (fun p => col1 (Fi p)) xi) in HXi. change (RL (bin_shared 128) (fun p => col2 (Fi p)) yi) in HYi. change (RL (bin_shared 128) (fun p => col3 (Fi p)) zi) in HWi.
    change (RL (bin_shared 128) (fun p => col1 (Fj p)) xj) in HXj. change (RL (bin_shared 128) (fun p => col2 (Fj p)) yj) in HYj. change (RL (bin_shared 128) (fun p => col3 (Fj p)) zj) in HWj.
    change (shuffle G (rseed G (xor3 di e dk)) (skipn n (A i)) (skipn n (B i)) (skipn n (C i))) with (Fi i).
    change (shuffle G (rseed G (xor3 di dj dk)) (skipn n (A j)) (skipn n (B j)) (skipn n (C j))) with (Fj j).
    rewrite Lx' in *.
    rewrite (surjective_pairing (Fi i)), (surjective_pairing (fst (Fi i))), (surjective_pairing (Fj j)), (surjective_pairing (fst (Fj j))).
    fold (col1 (Fi i)) (col2 (Fi i)) (col3 (Fi i)) (col1 (Fj j)) (col2 (Fj j)) (col3 (Fj j)).
    assert (SN : forall l : list Z, length l = (n + 1)%nat -> exists l' u, l = l' ++ [u] /\ length l' = n).
    { intros l Hl. destruct (snoc_cases l) as [->|(l' & u & ->)]; [cbn in Hl; lia|]. rewrite app_length in Hl. cbn in Hl. exists l', u. split; [reflexivity|lia]. }
    destruct (SN xi L1) as (xi' & xi0 & -> & Lxi). destruct (SN yi L2) as (yi' & yi0 & -> & Lyi). destruct (SN zi L3) as (zi' & zi0 & -> & Lzi).
    destruct (SN xj M1) as (xj' & xj0 & -> & Lxj). destruct (SN yj M2) as (yj' & yj0 & -> & Lyj). destruct (SN zj M3) as (zj' & zj0 & -> & Lzj).
    destruct (RL_inv_snoc _ _ _ _ HXi) as (X1 & X0 & EX & HX1 & HX0). destruct (RL_inv_snoc _ _ _ _ HYi) as (Y1 & Y0 & EY & HY1 & HY0). destruct (RL_inv_snoc _ _ _ _ HWi) as (W1 & W0 & EW & HW1 & HW0).
    destruct (RL_inv_snoc _ _ _ _ HXj) as (X1j & X0j & EXj & HX1j & HX0j). destruct (RL_inv_snoc _ _ _ _ HYj) as (Y1j & Y0j & EYj & HY1j & HY0j). destruct (RL_inv_snoc _ _ _ _ HWj) as (W1j & W0j & EWj & HW1j & HW0j).
    pose proof (EX i) as EXi. pose proof (EY i) as EYi. pose proof (EW i) as EWi. pose proof (EXj j) as EXjj. pose proof (EYj j) as EYjj. pose proof (EWj j) as EWjj.
    cbv beta in EXi, EYi, EWi, EXjj, EYjj, EWjj. rewrite EXi, EYi, EWi, EXjj, EYjj, EWjj. rewrite !pop_snoc.
    do 3 (dbind; apply duoM_res; intros ? ? QE QE'; injection QE as <-; injection QE' as <-). cbn [fst snd].
    assert (BC : forall K X x, bin_shared K X x -> forall p, inr K (sa (X p)) /\ inr K (sb (X p))) by (intros K X x (B1 & B2 & _) p; split; [apply B1|rewrite B2; apply B1]).
    dbind. apply open_bin_duo; [cbn [map]; repeat constructor; eapply BC; eassumption|reflexivity|]. intros v.
    dbind. apply duoM_res. intros o0 o0' Q0 Q0'. dbind. apply duoM_res. intros o1 o1' Q1 Q1'. dbind. apply duoM_res. intros o2 o2' Q2 Q2'.
    unfold opened in Q0', Q1', Q2'. cbn [map map2 index nth_error] in Q0', Q1', Q2'. injection Q0' as <-. injection Q1' as <-. injection Q2' as <-.
    destruct (negb (rand_ o0 o1 =? o2)); [apply duoM_fail_l|].
    match goal with |- duoM _ _ (if ?b then _ else _) _ _ _ => destruct b eqn:EB; [apply duoM_fail_r|] end.
    apply negb_false_iff, Z.eqb_eq in EB.
    destruct (to_open_ranges _ _ _ _ _ _ _ _ HA' HB' HX1 HY1 ltac:(rewrite !firstn_length; lia) ltac:(lia) ltac:(lia) i) as (_ & I1 & I2).
    destruct (to_open_ranges _ _ _ _ _ _ _ _ HA' HB' HX1j HY1j ltac:(rewrite !firstn_length; lia) ltac:(lia) ltac:(lia) j) as (J1 & _ & J2).
    dbind. apply verify_triples_duo; [exact I1|exact J1|congruence|]. intros s2 t2 _ _ HE. apply duoM_ret. split; [reflexivity|]. split; [reflexivity|].
    destruct HE as [HC2|[E1 E2]]; [left; exact HC2|right].
    rewrite R1, S1 in E1. apply coin_eq in E1; auto. subst e. change Fi with Fj in *.
    assert (SE : forall T (l l' : list T) u u', l ++ [u] = l' ++ [u'] -> l = l' /\ u = u') by (intros T l l' u u' E; apply app_inj_tail, E).
    assert (EX2 : X1 i = X1j i /\ X0 i = X0j i) by (apply SE; rewrite <- EX, <- EXj; reflexivity). destruct EX2 as [EX2 EX3].
    assert (EY2 : Y1 i = Y1j i /\ Y0 i = Y0j i) by (apply SE; rewrite <- EY, <- EYj; reflexivity). destruct EY2 as [EY2 EY3].
    assert (EW2 : W1 i = W1j i /\ W0 i = W0j i) by (apply SE; rewrite <- EW, <- EWj; reflexivity). destruct EW2 as [EW2 EW3].
    rewrite EX2, EY2, EW2 in E2. rewrite EX3, EY3, EW3 in EB.
    rewrite (check_errors i _ _ _ _ _ _ _ _ _ _ _ _ HA' HB' HC' HX1j HY1j HW1j) ; [|rewrite !firstn_length; lia|rewrite !firstn_length; lia|lia|lia|lia|exact E2].
    assert (OP : forall X x, bin_shared 128 X x -> rxor (rxor (sb (X i)) (sa (X j))) (sb (X j)) = x).
    { clear. intros X x (A1 & A2 & ->). rewrite !A2. unfold rxor. destruct i; cbn [prev next]; bitsolve. }
    rewrite !(OP _ _ HX0j), !(OP _ _ HY0j), !(OP _ _ HW0j) in EB. unfold rand_ in EB.
    apply (word_errors_zero xj0 yj0 zj0) in EB; [|eapply bin_range; eassumption..].
    rewrite Eseed, <- EE, errors_app by lia. cbn [errors]. rewrite EB, app_nil_r. reflexivity.
  Qed.
End D.
