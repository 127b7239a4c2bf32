(** Boolean gates of the malicious ABY3 engine run by two honest parties against an arbitrary third one: the gates. *)
From Verif Require Import Base Ring RingProofs Prog Sched Conc Rng Rel Net BitArith BinProofs AddProofs IrisProofs MpcSpec Aby3 ShareSpec Aby3Proofs Aby3Proofs2 SlicedProofs Jmp JmpProofs Session SessionProofs
  Aby3Mal Aby3MalProofs Aby3MalProofs2 SacrificeProofs PropLemmas PropLemmas2 SpecProofs Duo DuoProofs MacSpec MacProofs Client ProgMalSpec ProgMalDuo ProgMalOps ProgMalOps2 ProgMalOps3 ProgMalOps4 ProgMalBinSpec ProgMalBin.
From Coq Require Import ZifyBool ZifyNat.

Lemma peq_bind_ret {A} (p : prog A) : peq p (bind p Ret).
Proof. induction p; cbn; constructor; auto. Qed.
Lemma nth_sing (l : list share) n : (n < length l)%nat -> nth n (map (fun x => [x]) l) [] = [nth n l szero].
Proof. intros L. rewrite (nth_indep _ [] [szero]) by (rewrite map_length; exact L). apply (map_nth (fun x => [x])). Qed.
Lemma bit_error0 U a1 a1' b1 c1 a2 a2' b2 c2 n : (n < length b1)%nat -> length a1 = length b1 -> length a2 = length b1 -> length b2 = length b1 ->
  error0 U (bit_sac a1 a1' b1 c1) (bit_sac a2 a2' b2 c2) n = joint U (nth n c1 szero) (nth n c2 szero) - joint U (nth n a1 szero) (nth n a2 szero) * joint U (nth n b1 szero) (nth n b2 szero).
Proof. intros L A1 A2 B2. unfold error0, row_error, bit_sac. cbn [sac_a sac_b sac_c]. rewrite !nth_sing by lia. cbn. unfold dotp. cbn. ring. Qed.
Lemma bit_error1 U a1 a1' b1 c1 a2 a2' b2 c2 n : (n < length b1)%nat -> length a1' = length b1 -> length a2' = length b1 -> length b2 = length b1 ->
  error1 U (bit_sac a1 a1' b1 c1) (bit_sac a2 a2' b2 c2) n = joint U (nth (length b1 + n) c1 szero) (nth (length b1 + n) c2 szero) - joint U (nth n a1' szero) (nth n a2' szero) * joint U (nth n b1 szero) (nth n b2 szero).
Proof. intros L A1 A2 B2. unfold error1, row_error, bit_sac. cbn [sac_a' sac_b sac_c]. rewrite map_length, !nth_sing by lia. cbn. unfold dotp. cbn. ring. Qed.

Section D.
  Variables (G : rng) (H : hasher) (i : pid).
  Notation j := (next i).
  Notation ST := (jst G).
  Notation coll := (hash_collision G H).
  Notation synced := (synced2 G).
  Notation clean := (clean G).
  Notation quiet := (quiet G).
  Notation luck := (lucky_bits G H i).
  Notation stp := (stp G).
  Notation duoL := (duoL G H i).
  Notation rep := (rep G i).
  Notation reps := (reps G i).

  Lemma mul_check_many_gen K len A a A' a' B b C c0 c1 (s t : ST) : In K widths -> synced s t ->
    let U := verif_width K in
    length a = len -> length a' = len -> length b = len -> length c0 = len -> length c1 = len ->
    RL (arith_shared U) A a -> RL (arith_shared U) A' a' -> RL (arith_shared U) B b -> RL (arith_shared U) C (c0 ++ c1) ->
    duoM i (mul_triple_check_many G H i K len (A i) (A' i) (B i) (C i)) (mul_triple_check_many G H j K len (A j) (A' j) (B j) (C j)) s t
      (fun s' x t' y => synced s' t' /\
         x = (map (sh_trunc K) (A i), map (sh_trunc K) (B i), map (sh_trunc K) (firstn len (C i))) /\
         y = (map (sh_trunc K) (A j), map (sh_trunc K) (B j), map (sh_trunc K) (firstn len (C j))) /\
         (coll s' t' \/ (clean s t /\ forall n x x' y z z', nth_error a n = Some x -> nth_error a' n = Some x' -> nth_error b n = Some y ->
           nth_error c0 n = Some z -> nth_error c1 n = Some z' -> ((z' - x' * y) - challenge G U (duo_seed G s t) * (z - x * y)) mod 2 ^ U = 0))).
  Proof.
    intros HK Hs U La La' Lb L0 L1 HA HA' HB HC. pose proof (verif_in K HK) as HU. fold U in HU. assert (HU0 : 0 <= U) by (apply in_widths_pos in HU; lia).
    pose proof (RL_firstn_app _ _ _ _ HC) as [HC0 HC1]. rewrite L0 in HC0, HC1.
    assert (HO : forall r, RL (arith_shared U) (fun p => map2 (fun x y => sh_sub U (sh_mulc U x r) y) (A p) (A' p)) (sac_open U r a a')).
    { intros r. apply (RL_map2 (arith_shared U) (arith_shared U) (arith_shared U) (fun _ x y => sh_sub U (sh_mulc U x r) y)); auto.
      intros V y V' y' HV HV'. apply (sh_sub_ok U HU0); [|exact HV']. apply (sh_mulc_ok U HU0), HV. }
    assert (LO : forall r p, length (map2 (fun x y => sh_sub U (sh_mulc U x r) y) (A p) (A' p)) = len).
    { intros r p. rewrite (RL_length _ _ _ (HO r) p). unfold sac_open. rewrite map2_length_eq; congruence. }
    unfold mul_triple_check_many. fold U.
    apply (sac_open_gen G H i U (fun r => map2 (fun x y => sh_sub U (sh_mulc U x r) y) (A i) (A' i)) (fun r => map2 (fun x y => sh_sub U (sh_mulc U x r) y) (A j) (A' j)) len
      (fun r v => bindM (zero_verify G H i U (map2 (fun bv cc => triple_check U r (snd bv) (fst bv) (fst cc) (snd cc)) (combine (B i) v) (combine (firstn len (C i)) (skipn len (C i)))))
         (fun _ => retM (map (sh_trunc K) (A i), map (sh_trunc K) (B i), map (sh_trunc K) (firstn len (C i)))))
      (fun r v => bindM (zero_verify G H j U (map2 (fun bv cc => triple_check U r (snd bv) (fst bv) (fst cc) (snd cc)) (combine (B j) v) (combine (firstn len (C j)) (skipn len (C j)))))
         (fun _ => retM (map (sh_trunc K) (A j), map (sh_trunc K) (B j), map (sh_trunc K) (firstn len (C j)))))); auto.
    - intros r. split; [apply ranged_sac, HU0|apply LO].
    - intros r. split; [apply ranged_sac, HU0|apply LO].
    - intros s' t' Hs' _ Hcl. cbv zeta. set (r := challenge G U (duo_seed G s t)).
      pose proof (open_of_RL i U _ _ (HO r)) as O. cbv beta in O. destruct O as [-> ->].
      dbind. apply zero_verify_duo. cbv zeta. intros [EH|HCC]; apply duoM_ret; (split; [exact Hs'|]); (split; [reflexivity|]); (split; [reflexivity|]); [right|left; exact HCC].
      split; [exact Hcl|]. set (v := sac_open U r a a') in *.
      pose proof (RL_combine _ _ _ _ _ _ HB (RL_public _ _ (fun _ => eq_refl v))) as HP.
      pose proof (RL_combine _ _ _ _ _ _ HC0 HC1) as HQ.
      assert (HW : RL (arith_shared U) (fun p => map2 (fun bv cc => triple_check U r (snd bv) (fst bv) (fst cc) (snd cc)) (combine (B p) v) (combine (firstn len (C p)) (skipn len (C p))))
         (map2 (fun bv cc => (((fst bv * snd bv) mod 2 ^ U - (fst cc * r) mod 2 ^ U) mod 2 ^ U + snd cc) mod 2 ^ U) (combine b v) (combine c0 c1))).
      { apply (RL_map2 _ _ (arith_shared U) (fun _ bv cc => triple_check U r (snd bv) (fst bv) (fst cc) (snd cc))) with (3 := HQ) (2 := HP).
        intros Y y Y' y' [HY1 HY2] [HY1' HY2']. unfold triple_check. apply (sh_add_ok U HU0); [|exact HY2']. apply (sh_sub_ok U HU0).
        - eapply arel_ext; [|apply (sh_mulc_ok U HU0 _ _ (snd y) HY1)]. intros p. cbn beta. rewrite HY2. reflexivity.
        - apply (sh_mulc_ok U HU0), HY1'. }
      pose proof (zero_rows i U _ _ HU HW EH) as Z0. clear -Z0 La La' Lb L0 L1. unfold v, sac_open in Z0. clear v.
      revert a a' b c0 c1 La La' Lb L0 L1 Z0. induction len as [|len IH]; intros [|u a] [|u' a'] [|w b] [|e c0] [|e' c1] La La' Lb L0 L1 Z0; try discriminate.
      + intros [|n]; intros; discriminate.
      + cbn [map2 combine fst snd] in Z0. inversion Z0 as [|? ? E0 Z1]; subst.
        intros [|n] x x' y z z'; cbn [nth_error]; intros E1 E2 E3 E4 E5.
        * injection E1 as <-. injection E2 as <-. injection E3 as <-. injection E4 as <-. injection E5 as <-. rewrite <- E0. modring.
        * eapply (IH a a' b c0 c1); eauto.
    - intros s' t' ri rj vi vj Hs' _ HCC. dbind. apply zero_verify_duo. intros ? ? _. apply duoM_ret. split; [exact Hs'|]. split; [reflexivity|]. split; [reflexivity|]. left. apply coll_hashed, HCC.
  Qed.

  Lemma check_many_grows p K len a0 a1 b0 cs : growsM G (mul_triple_check_many G H p K len a0 a1 b0 cs).
  Proof.
    unfold mul_triple_check_many. apply growsM_bind; [apply coin_grows|intros]. apply growsM_bind; [apply reconstruct_many_grows|intros]. apply growsM_bind; [apply jmp_verify_grows|intros].
    apply growsM_bind; [apply zero_verify_grows|intros; apply growsM_ret].
  Qed.

  Lemma stp_quiet (b : Prop) s t (b' : Prop) s' t' : synced s' t' -> quiet s s' -> quiet t t' -> (b -> b') -> stp b s t b' s' t'.
  Proof.
    intros Hs Q1 Q2 B. split; [exact Hs|]. pose proof (quiet_clean G s t s' t' Q1 Q2) as C. destruct Q1 as (_ & _ & E1), Q2 as (_ & _ & E2).
    split; [exists []; rewrite app_nil_r; exact E1|]. split; [exists []; rewrite app_nil_r; exact E2|]. split; [exact B|]. intros C'. right. apply C, C'.
  Qed.

  Definition triples (b : Prop) (s t : ST) (len : nat) (T T' : list share * list share * list share) : Prop :=
    exists x y, length x = len /\ length y = len /\ reps b s t 1 (fst (fst T)) (fst (fst T')) x /\ reps b s t 1 (snd (fst T)) (snd (fst T')) y /\
      reps b s t 1 (snd T) (snd T') (map2 Z.land x y).
  Lemma check_L b len (a1 a2 a1' a2' b1 b2 c1 c2 : list share) (s t : ST) : let U := verif_width 1 in
    Forall2 (paired U) a1 a2 -> Forall2 (paired U) a1' a2' -> Forall2 (paired U) b1 b2 -> Forall2 (paired U) c1 c2 ->
    length a1 = len -> length a1' = len -> length b1 = len -> length c1 = (len + len)%nat ->
    duoL b (mul_triple_check_many G H i 1 len a1 a1' b1 c1) (mul_triple_check_many G H j 1 len a2 a2' b2 c2) s t (fun b' s' T t' T' => triples b' s' t' len T T').
  Proof.
    intros U PA PA' PB PC La La' Lb Lc Hs.
    assert (La2 : length a2 = len) by (rewrite <- La; symmetry; eapply Forall2_len; exact PA). assert (La2' : length a2' = len) by (rewrite <- La'; symmetry; eapply Forall2_len; exact PA').
    assert (Lb2 : length b2 = len) by (rewrite <- Lb; symmetry; eapply Forall2_len; exact PB). assert (Lc2 : length c2 = (len + len)%nat) by (rewrite <- Lc; symmetry; eapply Forall2_len; exact PC).
    pose proof (rows_fam_RL i U _ _ PA) as HA. pose proof (rows_fam_RL i U _ _ PA') as HA'. pose proof (rows_fam_RL i U _ _ PB) as HB. pose proof (rows_fam_RL i U _ _ PC) as HC.
    set (a := map2 (joint U) a1 a2) in *. set (a' := map2 (joint U) a1' a2') in *. set (bb := map2 (joint U) b1 b2) in *. set (c := map2 (joint U) c1 c2) in *.
    assert (Ea : length a = len) by (unfold a; rewrite map2_length_eq; congruence). assert (Ea' : length a' = len) by (unfold a'; rewrite map2_length_eq; congruence).
    assert (Eb : length bb = len) by (unfold bb; rewrite map2_length_eq; congruence). assert (Ec : length c = (len + len)%nat) by (unfold c; rewrite map2_length_eq; congruence).
    pose proof (mul_check_many_gen 1 len _ a _ a' _ bb _ (firstn len c) (skipn len c) s t (or_introl eq_refl) Hs Ea Ea' Eb ltac:(rewrite firstn_length; lia) ltac:(rewrite skipn_length; lia) HA HA' HB ltac:(rewrite firstn_skipn; exact HC)) as D.
    rewrite !rows_fam_i, !rows_fam_j in D. apply duoT_runs. eapply duoT_of; [exact D|]. clear D. fold U.
    intros ti s' T tj t' T' (Hs' & -> & -> & OUT) R1 R2 b' B1 B2 B3. cbn [fst snd] in *. fold U in OUT.
    assert (KU : 0 <= 1 <= U) by (unfold U; cbn; lia).
    split.
    { split; [exact Hs'|]. split; [apply (check_many_grows i 1 len a1 a1' b1 c1 _ _ _ _ R1)|]. split; [apply (check_many_grows j 1 len a2 a2' b2 c2 _ _ _ _ R2)|]. split; [exact B1|]. intros _. destruct OUT as [C|[C _]]; auto. }
    clear R1 R2.
    exists (map (fun x => x mod 2 ^ 1) a), (map (fun x => x mod 2 ^ 1) bb). split; [rewrite map_length; exact Ea|]. split; [rewrite map_length; exact Eb|]. cbn [fst snd].
    assert (TR : forall l, Forall (ranged 1) (map (sh_trunc 1) l)) by (intros l; apply Forall_map, Forall_forall; intros w _; apply trunc_ranged; lia).
    assert (REPS : forall p q P v, RL (arith_shared U) P v -> P i = p -> P j = q -> reps b' s' t' 1 (map (sh_trunc 1) p) (map (sh_trunc 1) q) (map (fun x => x mod 2 ^ 1) v)).
    { intros p q P v HP <- <-. split; [apply TR|]. split; [apply TR|]. rewrite !map_length, !(RL_length _ _ _ HP). split; [reflexivity|]. split; [reflexivity|]. intros _. right.
      exists (fun p => map (sh_trunc 1) (P p)). split; [|auto]. apply RL_arith_bin1. apply (RL_map (arith_shared U) (arith_shared 1) (fun _ => sh_trunc 1)); [|exact HP]. intros Y y HY. apply (sh_trunc_ok 1 U); assumption. }
    split; [apply (REPS _ _ _ _ HA); [apply rows_fam_i|apply rows_fam_j]|]. split; [apply (REPS _ _ _ _ HB); [apply rows_fam_i|apply rows_fam_j]|].
    assert (LM : length (map2 Z.land (map (fun x => x mod 2 ^ 1) a) (map (fun x => x mod 2 ^ 1) bb)) = len) by (rewrite map2_length_eq; rewrite !map_length; congruence).
    assert (BAD : b' -> reps b' s' t' 1 (map (sh_trunc 1) (firstn len c1)) (map (sh_trunc 1) (firstn len c2)) (map2 Z.land (map (fun x => x mod 2 ^ 1) a) (map (fun x => x mod 2 ^ 1) bb))).
    { intros B. split; [apply TR|]. split; [apply TR|]. rewrite !map_length, !firstn_length, LM. split; [lia|]. split; [lia|]. auto. }
    destruct OUT as [C|[Hc EQ]]; [apply BAD, B2, C|].
    set (X := bit_sac a1 a1' b1 c1) in *. set (Y := bit_sac a2 a2' b2 c2) in *.
    destruct (Forall_Exists_dec (fun n => error0 U X Y n mod 2 ^ 1 = 0) (fun n => Z.eq_dec _ _) (seq 0 len)) as [F|F].
    - pose proof (RL_firstn _ _ _ len HC) as HC0. specialize (REPS (firstn len c1) (firstn len c2) _ _ HC0). cbv beta in REPS. rewrite rows_fam_i, rows_fam_j in REPS. specialize (REPS eq_refl eq_refl).
      replace (map2 Z.land (map (fun x => x mod 2 ^ 1) a) (map (fun x => x mod 2 ^ 1) bb)) with (map (fun x => x mod 2 ^ 1) (firstn len c)); [exact REPS|].
      assert (IR : forall l, Forall (inr 1) (map (fun x => x mod 2 ^ 1) l)) by (intros l; apply Forall_map, Forall_forall; intros w _; apply inr_mod; lia).
      rewrite <- map2_mul_land1 by apply IR.
      apply (nth_ext _ _ 0 0). { rewrite map_length, firstn_length, map2_length_eq; rewrite !map_length; lia. }
      intros n Hn. rewrite map_length, firstn_length in Hn. assert (Hn' : (n < len)%nat) by lia.
      rewrite (nth_map2 _ _ _ n (0 mod 2 ^ 1) (0 mod 2 ^ 1)) by (rewrite !map_length; lia). rewrite (nth_indep _ 0 (0 mod 2 ^ 1)) by (rewrite map_length, firstn_length; exact Hn).
      rewrite !(map_nth (fun x => x mod 2 ^ 1)).
      rewrite Forall_forall in F. assert (HF : error0 U X Y n mod 2 ^ 1 = 0) by (apply F, in_seq; lia). clear F.
      unfold X, Y in HF. rewrite bit_error0 in HF by lia. apply sub_mod0 in HF.
      assert (EN : nth n (firstn len c) 0 = joint U (nth n c1 szero) (nth n c2 szero)).
      { rewrite <- (nth_map2 (joint U) c1 c2 n szero szero 0) by lia. fold c. rewrite <- (firstn_skipn len c) at 2. rewrite app_nth1; [reflexivity|rewrite firstn_length; lia]. }
      rewrite EN, HF. unfold a, bb. rewrite (nth_map2 _ a1 a2 n szero szero), (nth_map2 _ b1 b2 n szero szero) by lia. rewrite <- Zmult_mod. reflexivity.
    - apply BAD, B3. apply Exists_exists in F. destruct F as (n & In & NE). apply in_seq in In.
      exists [], ti, [], tj, (mul_triple_check_many G H i 1 len a1 a1' b1 c1 s), (mul_triple_check_many G H j 1 len a2 a2' b2 c2 t), s, a1, a1', b1, c1, t, a2, a2', b2, c2, n.
      split; [reflexivity|]. split; [reflexivity|]. split; [constructor|]. split; [constructor|].
      split; [exists Ret; rewrite Lb; apply peq_bind_ret|]. split; [exists Ret; rewrite Lb2; apply peq_bind_ret|].
      do 7 (split; [lia|]). fold X Y. split; [unfold X, bit_sac; cbn [sac_b]; rewrite map_length; lia|]. split; [exact NE|]. fold U.
      unfold X, Y. rewrite bit_error0, bit_error1 by lia. rewrite Lb.
      apply (EQ n); unfold a, a', bb.
      + apply nth_error_map2; lia.
      + apply nth_error_map2; lia.
      + apply nth_error_map2; lia.
      + rewrite <- (nth_error_app1 _ (skipn len c)) by (rewrite firstn_length; lia). rewrite firstn_skipn. apply nth_error_map2; lia.
      + rewrite <- (nth_error_map2 (joint U) c1 c2 (len + n) szero szero) by lia. fold c. rewrite <- (firstn_skipn len c) at 2. rewrite nth_error_app2 by (rewrite firstn_length; lia). f_equal. rewrite firstn_length. lia.
  Qed.

  Lemma triples_L b len (s t : ST) : duoL b (get_mul_triple_many G H i 1 len) (get_mul_triple_many G H j 1 len) s t (fun b' s' T t' T' => triples b' s' t' len T T').
  Proof.
    unfold get_mul_triple_many. replace (negb (40 <=? verif_width 1 - 1)) with false by reflexivity. cbv zeta. set (U := verif_width 1). assert (HU : In U widths) by (apply verif_in; left; reflexivity). assert (HU0 : 0 <= U) by (unfold U; cbn; lia).
    apply duoL_bind. apply duoL_of. intros Hs. apply gen_rand_many_duo; [exact HU0|exact Hs|]. intros s1 a t1 a2 S1 Q1 Q1' PA La La2 b1 B1 _. split; [apply stp_quiet; assumption|]. intros _.
    apply duoL_bind. apply duoL_of. intros _. apply gen_rand_many_duo; [exact HU0|exact S1|]. intros s2 y t2 y2 S2 Q2 Q2' PB Lb Lb2 b2 B2 _. split; [apply stp_quiet; assumption|]. intros _.
    apply duoL_bind. apply duoL_of. intros _. apply gen_rand_many_duo; [exact HU0|exact S2|]. intros s3 a' t3 a2' S3 Q3 Q3' PA' La' La2' b3 B3 _. split; [apply stp_quiet; assumption|]. intros _.
    apply duoL_bind. apply duoL_of. intros _. apply aby_mul_many_duo; [exact HU|exact S3|rewrite !app_length; lia|rewrite !app_length; lia|rewrite !app_length; lia|]. intros s4 c t4 c2 S4 Q4 Q4' PC Lc Lc2 b4 B4 _. split; [apply stp_quiet; assumption|]. intros _.
    apply check_L; auto. rewrite Lc, app_length. lia.
  Qed.
End D.
