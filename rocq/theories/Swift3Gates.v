(** Honest runs of the Swift3 engine: arithmetic gates, linear operations, circuits. *)
From Verif Require Import Base Ring RingProofs Prog Sched Conc Rng Rel Net BitArith Iris IrisSpec Protocol MpcSpec BinTrait BinProofs AddProofs SlicedProofs OrProofs
  Aby3 ShareSpec Aby3Proofs Jmp JmpProofs Swift3 Swift3Spec Swift3Proofs.
From Coq Require Import ZifyBool ZifyNat Btauto.

Section Gates.
  Variable G : rng.
  Variable KU : Z.
  Notation ST := (sst G).
  Notation winv := (winv G KU).

  (** ** Multiplication *)
  Definition mul_row (K : Z) (a b : share3) (de : share) (r : Z * Z) : Z * Z * Z :=
    (rsub K (radd K (rsub K (rmul K (rneg K (ta a)) (tc b)) (rmul K (ta b) (tc a))) (sa de)) (fst r),
     rsub K (radd K (rsub K (rmul K (rneg K (tb a)) (tc b)) (rmul K (tb b) (tc a))) (sb de)) (snd r),
     rmul K (tc a) (tc b)).
  Lemma mul_row_ok K A p B q D delta d : 0 <= K -> arith3' K A p -> arith3' K B q -> arith_shared K D delta ->
    exists v, rowrel (radd K) K (fun i => mul_row K (A i) (B i) (D i) (d i, d (prev i))) v /\
      (delta - fst p * snd q - fst q * snd p + snd p * snd q) mod 2 ^ K = (v + (d P0 + d P1 + d P2)) mod 2 ^ K.
  Proof using.
    intros HK ((A1 & A2 & A3) & Ar & A4) ((B1 & B2 & B3) & Br & B4) (D1 & D2 & D3).
    cbn [t_ab sa sb] in *.
    pose (y := fun i => rsub K (radd K (rsub K (rmul K (rneg K (ta (A i))) (snd q)) (rmul K (ta (B i)) (snd p))) (sa (D i))) (d i)).
    exists (radd K (radd K (radd K (y P0) (y P1)) (y P2)) (rmul K (snd p) (snd q))). split.
    - exists y, (rmul K (snd p) (snd q)). split; [intros i; apply (inr_mod K _ HK)|]. split; [|split; [reflexivity|apply (inr_mod K _ HK)]].
      intros i. unfold mul_row, y. rewrite A2, B2, D2, !A4, !B4. reflexivity.
    - unfold y. rewrite A3, B3, D3. modring.
  Qed.
  Lemma mul_val K p q : ((fst p * fst q) mod 2 ^ K - fst p * snd q - fst q * snd p + snd p * snd q) mod 2 ^ K = (val_a K p * val_a K q) mod 2 ^ K.
  Proof using. unfold val_a. modring. Qed.
  Lemma mul_post_ok A p B q D s : In KU widths -> winv s -> arith3' KU A p -> arith3' KU B q -> arith_shared KU D ((fst p * fst q) mod 2 ^ KU) ->
    wpM (fun i => mul_post G i KU (A i) (B i) (D i)) s (fun s' W => winv s' /\ arith3 KU W ((val_a KU p * val_a KU q) mod 2 ^ KU)).
  Proof using.
    intros HK Hs HA HB HD. assert (HK0 : 0 <= KU) by (apply in_widths_pos in HK; lia). unfold mul_post. wbind.
    eapply wpM_mono; [|apply gen_12_ok; eassumption]. intros s1 r (Hs1 & d & Hd & Hr).
    destruct (mul_row_ok KU A p B q D _ d HK0 HA HB HD) as (v & Rv & Ev).
    pose (Y := fun i => mul_row KU (A i) (B i) (D i) (d i, d (prev i))).
    apply (wpM_ext (fun i => bindM (post_gen G i (radd KU) (jshare_gen G i (beta_a KU) KU) KU (fst (fst (Y i))) (snd (fst (Y i))) (snd (Y i)))
       (fun sh => retM (t_sub KU sh (Share3 (d i) (d (prev i)) 0))))).
    { intros i. rewrite Hr. reflexivity. }
    wbind. eapply wpM_mono; [|apply (post_gen_ok G KU (radd KU) (beta_a KU) KU Y v s1 HK (good_beta_a KU HK0) Rv Hs1)].
    intros s2 W (Hs2 & HW). apply wpM_ret. split; [exact Hs2|]. eapply jsh_a; eauto. rewrite <- mul_val. exact Ev.
  Qed.
  Lemma w_mulg_ok A a B b s : In KU widths -> winv s -> arith3 KU A a -> arith3 KU B b ->
    wpM (fun i => w_mulg G i KU (A i) (B i)) s (fun s' W => winv s' /\ arith3 KU W ((a * b) mod 2 ^ KU)).
  Proof using.
    intros HK Hs HA HB. apply arith3_split in HA. destruct HA as (p & HA & <-). apply arith3_split in HB. destruct HB as (q & HB & <-).
    unfold w_mulg. wbind. eapply wpM_mono; [|apply (aby_mul_ok G KU (fun i => t_ab (A i)) (fst p) (fun i => t_ab (B i)) (fst q)); auto; [apply HA|apply HB]].
    intros s1 D (Hs1 & HD). apply mul_post_ok; auto.
  Qed.

  (** ** Dot products *)
  Definition crossp (l : list ((Z * Z) * (Z * Z))) : Z :=
    fold_right Z.add 0 (map (fun pq => snd (fst pq) * snd (snd pq) - fst (fst pq) * snd (snd pq) - fst (snd pq) * snd (fst pq)) l).
  Definition dstep (K : Z) (acc : Z * Z * Z) (xy : share3 * share3) : Z * Z * Z :=
    let '(ya, yb, zc) := acc in
    let a := fst xy in let b := snd xy in
    (rsub K ya (radd K (rmul K (ta a) (tc b)) (rmul K (ta b) (tc a))),
     rsub K yb (radd K (rmul K (tb a) (tc b)) (rmul K (tb b) (tc a))),
     radd K zc (rmul K (tc a) (tc b))).
  Lemma dot_row_eq K l de r : Swift3.dot_row K l de r = fold_left (dstep K) l (rsub K (sa de) (fst r), rsub K (sb de) (snd r), 0).
  Proof using. reflexivity. Qed.
  Definition pair3 (K : Z) (XY : pid -> share3 * share3) (pq : (Z * Z) * (Z * Z)) : Prop :=
    arith3' K (fun i => fst (XY i)) (fst pq) /\ arith3' K (fun i => snd (XY i)) (snd pq).
  Lemma dot_fold_ok K L pqs : 0 <= K -> RL (pair3 K) L pqs -> forall y z, (forall i, inr K (y i)) -> inr K z ->
    exists y' z', (forall i, inr K (y' i)) /\ inr K z' /\ (forall i, fold_left (dstep K) (L i) (y i, y (prev i), z) = (y' i, y' (prev i), z')) /\
      (y' P0 + y' P1 + y' P2 + z') mod 2 ^ K = (y P0 + y P1 + y P2 + z + crossp pqs) mod 2 ^ K.
  Proof using.
    intros HK. induction 1 as [L HL|L XY L0 [p q] pqs HL HXY HR IH]; intros y z Hy Hz.
    - exists y, z. split; [exact Hy|]. split; [exact Hz|]. split; [intros i; rewrite HL; reflexivity|]. unfold crossp. cbn. rewrite Z.add_0_r. reflexivity.
    - destruct HXY as [((A1 & A2 & A3) & Ar & A4) ((B1 & B2 & B3) & Br & B4)]. cbn [fst snd t_ab sa sb] in *.
      destruct (IH (fun i => rsub K (y i) (radd K (rmul K (ta (fst (XY i))) (snd q)) (rmul K (ta (snd (XY i))) (snd p))))
                   (radd K z (rmul K (snd p) (snd q)))) as (y' & z' & H1 & H2 & H3 & H4).
      { intros i; apply (inr_mod K _ HK). } { apply (inr_mod K _ HK). }
      exists y', z'. split; [exact H1|]. split; [exact H2|]. split.
      + intros i. rewrite HL. cbn [fold_left]. rewrite <- H3. f_equal. unfold dstep. rewrite A2, B2, !A4, !B4. reflexivity.
      + rewrite H4. unfold crossp. cbn [map fold_right fst snd]. rewrite A3, B3. cbn [prev]. modring.
  Qed.
  Lemma dot_row3_ok K L pqs D delta d : 0 <= K -> RL (pair3 K) L pqs -> arith_shared K D delta ->
    exists v, rowrel (radd K) K (fun i => Swift3.dot_row K (L i) (D i) (d i, d (prev i))) v /\
      (delta + crossp pqs) mod 2 ^ K = (v + (d P0 + d P1 + d P2)) mod 2 ^ K.
  Proof using.
    intros HK HL (D1 & D2 & D3).
    destruct (dot_fold_ok K L pqs HK HL (fun i => rsub K (sa (D i)) (d i)) 0) as (y & z & H1 & H2 & H3 & H4).
    { intros i; apply (inr_mod K _ HK). } { unfold inr. split; [lia|apply Z.pow_pos_nonneg; lia]. }
    exists (radd K (radd K (radd K (y P0) (y P1)) (y P2)) z). split.
    - exists y, z. split; [exact H1|]. split; [|split; [reflexivity|apply (inr_mod K _ HK)]].
      intros i. rewrite <- H3, dot_row_eq. cbn [fst snd]. rewrite D2. reflexivity.
    - assert (E : (radd K (radd K (radd K (y P0) (y P1)) (y P2)) z + (d P0 + d P1 + d P2)) mod 2 ^ K =
               ((y P0 + y P1 + y P2 + z) mod 2 ^ K + (d P0 + d P1 + d P2)) mod 2 ^ K) by modring.
      rewrite E, H4, D3. modring.
  Qed.
  Lemma dot_val K ps : forall qs, length ps = length qs ->
    (dotp (map fst ps) (map fst qs) mod 2 ^ K + crossp (combine ps qs)) mod 2 ^ K = dotp (map (val_a K) ps) (map (val_a K) qs) mod 2 ^ K.
  Proof using.
    induction ps as [|p ps IH]; intros [|q qs] Hl; try discriminate; [reflexivity|]. injection Hl as Hl. specialize (IH qs Hl).
    unfold dotp, crossp in *. cbn [map map2 combine fold_right fst snd].
    match type of IH with (?x mod _ + ?y) mod _ = ?z mod _ => set (X := x) in *; set (Y := y) in *; set (W := z) in * end.
    assert (E : (val_a K p * val_a K q + W) mod 2 ^ K = (val_a K p * val_a K q + W mod 2 ^ K) mod 2 ^ K) by modring.
    rewrite E, <- IH. unfold val_a. modring.
  Qed.
  Lemma dot_post_ok A ps B qs D s : In KU widths -> winv s -> RL (arith3' KU) A ps -> RL (arith3' KU) B qs -> length ps = length qs ->
    arith_shared KU D (dotp (map fst ps) (map fst qs) mod 2 ^ KU) ->
    wpM (fun i => dot_post G i KU (A i) (B i) (D i)) s (fun s' W => winv s' /\ arith3 KU W (dotp (map (val_a KU) ps) (map (val_a KU) qs) mod 2 ^ KU)).
  Proof using.
    intros HK Hs HA HB Hl HD. assert (HK0 : 0 <= KU) by (apply in_widths_pos in HK; lia). unfold dot_post. wbind.
    eapply wpM_mono; [|apply gen_12_ok; eassumption]. intros s1 r (Hs1 & d & Hd & Hr).
    destruct (dot_row3_ok KU (fun i => combine (A i) (B i)) (combine ps qs) D _ d HK0 (RL_combine _ _ _ _ _ _ HA HB) HD) as (v & Rv & Ev).
    pose (Y := fun i => Swift3.dot_row KU (combine (A i) (B i)) (D i) (d i, d (prev i))).
    apply (wpM_ext (fun i => bindM (post_gen G i (radd KU) (jshare_gen G i (beta_a KU) KU) KU (fst (fst (Y i))) (snd (fst (Y i))) (snd (Y i)))
       (fun sh => retM (t_sub KU sh (Share3 (d i) (d (prev i)) 0))))).
    { intros i. rewrite Hr. fold (Y i). destruct (Y i) as [[? ?] ?]. reflexivity. }
    wbind. eapply wpM_mono; [|apply (post_gen_ok G KU (radd KU) (beta_a KU) KU Y v s1 HK (good_beta_a KU HK0) Rv Hs1)].
    intros s2 W (Hs2 & HW). apply wpM_ret. split; [exact Hs2|]. eapply jsh_a; eauto. rewrite <- dot_val by exact Hl. exact Ev.
  Qed.
  Lemma w_dotg_ok A aa B bb s : In KU widths -> winv s -> RL (arith3 KU) A aa -> RL (arith3 KU) B bb -> length aa = length bb ->
    wpM (fun i => w_dotg G i KU (A i) (B i)) s (fun s' W => winv s' /\ arith3 KU W (dotp aa bb mod 2 ^ KU)).
  Proof using.
    intros HK Hs HA HB Hl.
    destruct (RL_split _ (arith3' KU) (val_a KU) _ _ (arith3_split KU) HA) as (ps & HA' & ->).
    destruct (RL_split _ (arith3' KU) (val_a KU) _ _ (arith3_split KU) HB) as (qs & HB' & ->). rewrite !map_length in Hl.
    unfold w_dotg.
    apply (wpM_ext (fun i => bindM (aby_dot G i KU (map t_ab (A i)) (map t_ab (B i))) (fun de => dot_post G i KU (A i) (B i) de))).
    { intros i. rewrite (RL_length _ _ _ HA'), (RL_length _ _ _ HB'), Hl, Nat.eqb_refl. reflexivity. }
    wbind. eapply wpM_mono; [|apply (aby_dot_ok G KU (fun i => map t_ab (A i)) (map fst ps) (fun i => map t_ab (B i)) (map fst qs)); auto; try (apply RL_tab_a; assumption)].
    2:{ rewrite !map_length. exact Hl. }
    intros s1 D (Hs1 & HD). apply dot_post_ok; auto.
  Qed.

  Definition pairs3 (K : Z) (XY : pid -> list share3 * list share3) (pq : list (Z * Z) * list (Z * Z)) : Prop :=
    RL (arith3' K) (fun i => fst (XY i)) (fst pq) /\ RL (arith3' K) (fun i => snd (XY i)) (snd pq).
  Lemma dot_post_many_ok A ps B qs D s : In KU widths -> winv s -> RL (RL (arith3' KU)) A ps -> RL (RL (arith3' KU)) B qs ->
    Forall2 (fun a b => length a = length b) ps qs ->
    RL (arith_shared KU) D (map2 (fun p q => dotp (map fst p) (map fst q) mod 2 ^ KU) ps qs) ->
    wpM (fun i => dot_post_many G i KU (A i) (B i) (D i)) s
      (fun s' W => winv s' /\ RL (arith3 KU) W (map2 (fun p q => dotp (map (val_a KU) p) (map (val_a KU) q) mod 2 ^ KU) ps qs)).
  Proof using.
    intros HK Hs HA HB Hl HD. assert (HK0 : 0 <= KU) by (apply in_widths_pos in HK; lia). unfold dot_post_many. wbind.
    assert (HE : forall zs, zs = map2 (fun de pq => (de + crossp (combine (fst pq) (snd pq))) mod 2 ^ KU)
                  (map2 (fun p q => dotp (map fst p) (map fst q) mod 2 ^ KU) ps qs) (combine ps qs) ->
      zs = map2 (fun p q => dotp (map (val_a KU) p) (map (val_a KU) q) mod 2 ^ KU) ps qs /\ length zs = length ps).
    { intros zs ->. clear -Hl. induction Hl as [|p q ps qs Hl Hls [E1 E2]]; [split; reflexivity|].
      cbn [map2 combine fst snd length]. rewrite E1, dot_val by exact Hl. rewrite E1 in E2. rewrite E2. auto. }
    eapply wpM_mono; [|apply (wpM_mapM2 winv (arith_shared KU) (pairs3 KU)
       (fun Y z => exists vz, rowa KU Y vz /\ snd vz = z)
       (fun _ d ab => bindM (gen_12 G KU) (fun r => retM (Swift3.dot_row KU (combine (fst ab) (snd ab)) d r, r)))
       (fun de pq => (de + crossp (combine (fst pq) (snd pq))) mod 2 ^ KU));
       [|exact Hs|exact HD|exact (RL_combine _ _ _ _ _ _ HA HB)]].
    - cbn beta. intros s1 L (Hs1 & HL). destruct (HE _ eq_refl) as [EE EL]. rewrite EE in HL.
      destruct (RL_split _ (rowa KU) snd _ _ (fun Y y h => h) HL) as (vzs & HV & Ev).
      assert (HR : RL (rowrel (radd KU) KU) (fun i => map fst (L i)) (map fst vzs)).
      { apply (RL_map (rowa KU) (rowrel (radd KU) KU) (fun _ => fst) fst); [|exact HV]. intros Y y (d & _ & Hr & _). exact Hr. }
      assert (LL : forall i, length (A i) = length (map fst vzs)).
      { intros i. rewrite (RL_length _ _ _ HA), map_length, <- EL, EE, Ev, map_length. reflexivity. }
      apply (wpM_ext (fun i => bindM (post_many_gen G i (radd KU) (jshare_many_gen G i (beta_a KU) KU) KU (map fst (L i)) (length (map fst vzs)))
         (fun shs => retM (map2 (fun sh r => t_sub KU sh (Share3 (fst r) (snd r) 0)) shs (map snd (L i)))))).
      { intros i. rewrite LL. reflexivity. }
      wbind. eapply wpM_mono; [|apply (post_many_gen_ok G KU (radd KU) (beta_a KU) KU _ _ s1 (ac_radd KU) HK (good_beta_a KU HK0) HR Hs1)].
      intros s2 W (Hs2 & HW). apply wpM_ret. split; [exact Hs2|]. rewrite Ev. apply rows_out_a; auto.
    - cbn beta. intros s0 D0 de Z0 [p q] Hs0 HD0 [HZ1 HZ2]. wbind. cbn [fst snd] in *.
      eapply wpM_mono; [|apply gen_12_ok; eassumption]. intros s1 r (Hs1 & d & Hd & Hr). apply wpM_ret. split; [exact Hs1|].
      destruct (dot_row3_ok KU (fun i => combine (fst (Z0 i)) (snd (Z0 i))) (combine p q) D0 _ d HK0 (RL_combine _ _ _ _ _ _ HZ1 HZ2) HD0) as (v & Rv & Ev).
      exists (v, (de + crossp (combine p q)) mod 2 ^ KU). split; [|reflexivity]. exists d. split; [intros i; cbn; apply Hr|].
      split; [|exact Ev]. cbn [fst snd]. destruct Rv as (y & z & Y1 & Y2 & Y3). exists y, z. split; [exact Y1|]. split; [|exact Y3].
      intros i. rewrite Hr, <- Y2. reflexivity.
  Qed.
  Lemma RL2_tab_a K A ps : RL (RL (arith3' K)) A ps -> RL (RL (arith_shared K)) (fun i => map (map t_ab) (A i)) (map (map fst) ps).
  Proof using. apply (RL_map (RL (arith3' K)) (RL (arith_shared K)) (fun _ => map t_ab) (map fst)). intros Y y HY. apply RL_tab_a, HY. Qed.
  Lemma w_dot_many_ok A aa B bb s : In KU widths -> winv s -> RL (RL (arith3 KU)) A aa -> RL (RL (arith3 KU)) B bb ->
    Forall2 (fun a b => length a = length b) aa bb ->
    wpM (fun i => w_dot_many G i KU (A i) (B i)) s (fun s' W => winv s' /\ RL (arith3 KU) W (map2 (fun a b => dotp a b mod 2 ^ KU) aa bb)).
  Proof using.
    intros HK Hs HA HB Hl.
    destruct (RL_split _ (RL (arith3' KU)) (map (val_a KU)) _ _ (fun Y y h => match RL_split _ (arith3' KU) (val_a KU) _ _ (arith3_split KU) h with
       ex_intro _ p (conj a b) => ex_intro _ p (conj a (eq_sym b)) end) HA) as (ps & HA' & ->).
    destruct (RL_split _ (RL (arith3' KU)) (map (val_a KU)) _ _ (fun Y y h => match RL_split _ (arith3' KU) (val_a KU) _ _ (arith3_split KU) h with
       ex_intro _ p (conj a b) => ex_intro _ p (conj a (eq_sym b)) end) HB) as (qs & HB' & ->).
    assert (Hl' : Forall2 (fun a b => length a = length b) ps qs).
    { clear -Hl. revert qs Hl. induction ps as [|p ps IH]; intros [|q qs] Hl; inversion Hl; subst; constructor; auto. rewrite !map_length in *. assumption. }
    assert (Ll : length ps = length qs) by (clear -Hl'; induction Hl'; cbn; congruence).
    unfold w_dot_many.
    apply (wpM_ext (fun i => bindM (aby_dot_many G i KU (map (map t_ab) (A i)) (map (map t_ab) (B i))) (fun de => dot_post_many G i KU (A i) (B i) de))).
    { intros i. rewrite (RL_length _ _ _ HA'), (RL_length _ _ _ HB'), Ll, Nat.eqb_refl. cbn [negb].
      assert (EE : Forall2 (fun a b => length a = length b) (A i) (B i)).
      { clear -HA' HB' Hl'. revert A B HA' HB'. induction Hl' as [|p q ps qs Hl Hls IH]; intros A B HA HB.
        - rewrite (RL_inv_nil _ _ HA i), (RL_inv_nil _ _ HB i). constructor.
        - apply RL_inv_cons in HA. destruct HA as (A1 & A0 & EA & HA1 & HA0).
          apply RL_inv_cons in HB. destruct HB as (B1 & B0 & EB & HB1 & HB0). rewrite EA, EB. constructor; [|apply IH; assumption].
          rewrite (RL_length _ _ _ HA1), (RL_length _ _ _ HB1). exact Hl. }
      replace (map2 (fun x y => map fst (combine (map t_ab x) (map t_ab y))) (A i) (B i)) with (map (map t_ab) (A i)).
      2:{ clear -EE. induction EE as [|a b l l' E EE IH]; [reflexivity|]. cbn [map map2]. rewrite IH, fst_combine by (rewrite !map_length; exact E). reflexivity. }
      replace (map2 (fun x y => map snd (combine (map t_ab x) (map t_ab y))) (A i) (B i)) with (map (map t_ab) (B i)).
      2:{ clear -EE. induction EE as [|a b l l' E EE IH]; [reflexivity|]. cbn [map map2]. rewrite IH, snd_combine by (rewrite !map_length; exact E). reflexivity. }
      reflexivity. }
    wbind. eapply wpM_mono; [|apply (aby_dot_many_ok G KU (fun i => map (map t_ab) (A i)) (map (map fst) ps) (fun i => map (map t_ab) (B i)) (map (map fst) qs)); auto; try (apply RL2_tab_a; assumption)].
    2:{ clear -Hl'. induction Hl' as [|p q ps qs E Hl IH]; constructor; [rewrite !map_length; exact E|exact IH]. }
    intros s1 D (Hs1 & HD). rewrite map2_map_both in HD |- *. apply dot_post_many_ok; auto.
  Qed.
End Gates.
