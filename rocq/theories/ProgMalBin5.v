(** Boolean gates of the malicious ABY3 engine run by two honest parties against an arbitrary third one: OR of many bits, comparisons, opening of bits. *)
From Verif Require Import Base Ring RingProofs Prog Sched Conc Rng Rel Net BinTrait BitArith BinProofs AddProofs IrisProofs MpcSpec Aby3 ShareSpec Aby3Proofs Aby3Proofs2 SlicedProofs EngineProofs Jmp JmpProofs Session SessionProofs
  Aby3Mal Aby3MalProofs Aby3MalProofs2 SacrificeProofs PropLemmas PropLemmas2 SpecProofs Duo DuoProofs MacSpec MacProofs Client ProgMalSpec ProgMalDuo ProgMalOps ProgMalOps2 ProgMalOps3 ProgMalOps4 ProgMalBinSpec ProgMalBin ProgMalBin2 ProgMalBin3 ProgMalBin4.
From Coq Require Import ZifyBool ZifyNat.

Section D.
  Variables (G : rng) (H : hasher) (i : pid).
  Notation j := (next i).
  Notation ST := (jst G).
  Notation coll := (hash_collision G H).
  Notation synced := (synced2 G).
  Notation clean := (clean G).
  Notation luck := (lucky_bits G H i).
  Notation stp := (stp G).
  Notation duoL := (duoL G H i).
  Notation rep := (rep G i).
  Notation reps := (reps G i).
  Notation EI K := (mal_bin G H i K).
  Notation EJ K := (mal_bin G H j K).

  Lemma reps_cons b s t K x y v xs ys vs : rep b s t K x y v -> reps b s t K xs ys vs -> reps b s t K (x :: xs) (y :: ys) (v :: vs).
  Proof. intros R RS. apply (reps_app G i b s t K [x] [y] [v]); [apply reps_one, R|exact RS]. Qed.

  Inductive repss (b : Prop) (s t : ST) (K : Z) : list (list share) -> list (list share) -> list (list Z) -> Prop :=
  | repss_nil : repss b s t K [] [] []
  | repss_cons xs ys vs xss yss vss : reps b s t K xs ys vs -> repss b s t K xss yss vss -> repss b s t K (xs :: xss) (ys :: yss) (vs :: vss).
  Lemma repss_stp b s t b' s' t' K xss yss vss : stp b s t b' s' t' -> repss b s t K xss yss vss -> repss b' s' t' K xss yss vss.
  Proof. intros S. induction 1; constructor; [eapply reps_stp; eassumption|assumption]. Qed.
  Lemma repss_chunks b s t K n fuel : forall xs ys vs, reps b s t K xs ys vs -> repss b s t K (chunks_fuel fuel n xs) (chunks_fuel fuel n ys) (chunks_fuel fuel n vs).
  Proof.
    induction fuel as [|fuel IH]; intros xs ys vs R; [constructor|]. pose proof (reps_len _ _ _ _ _ _ _ _ _ R) as [L1 L2]. destruct xs as [|x xs], ys as [|y ys], vs as [|v vs]; try discriminate; [constructor|].
    cbn [chunks_fuel]. constructor; [apply reps_firstn, R|apply IH, reps_skipn, R].
  Qed.
  Lemma repss_chunk b s t K n xs ys vs : reps b s t K xs ys vs -> repss b s t K (chunks n xs) (chunks n ys) (chunks n vs).
  Proof. intros R. unfold chunks. pose proof (reps_len _ _ _ _ _ _ _ _ _ R) as [L1 L2]. rewrite L1, L2. apply repss_chunks, R. Qed.
  Lemma repss_concat b s t K xss yss vss : repss b s t K xss yss vss -> reps b s t K (concat xss) (concat yss) (concat vss).
  Proof. induction 1; cbn [concat]; [apply reps_nil|apply reps_app; assumption]. Qed.

  Lemma or_chunks_L K : In K widths -> forall xss xss' yss yss' vss vss' b (s t : ST), repss b s t K xss yss vss -> repss b s t K xss' yss' vss' -> Forall2 (fun a c => length a = length c) vss vss' ->
    duoL b (mapM2 (or_many (EI K)) xss xss') (mapM2 (or_many (EJ K)) yss yss') s t (fun b' s' w t' w' => repss b' s' t' K w w' (map2 (map2 Z.lor) vss vss')).
  Proof.
    intros HK xss. induction xss as [|xs xss IH]; intros xss' yss yss' vss vss' b s t R R' F.
    - inversion R; subst. inversion F; subst. inversion R'; subst. cbn [mapM2 map2]. apply duoL_ret. intros; constructor.
    - inversion R as [|? ys vs ? yss0 vss0 R0 R1]; subst. inversion F as [|? vs' ? vss0' L F']; subst. inversion R' as [|xs' ys' ? xss0' yss0' ? R0' R1']; subst. cbn [mapM2 map2].
      apply duoL_bind. eapply duoL_mono; [|apply (or_many_L G H i b K _ _ _ _ _ _ s t HK L R0 R0')]. intros b1 s1 w t1 w' S1 W _.
      apply duoL_bind. eapply duoL_mono; [|apply (IH _ yss0 _ vss0 _ b1 s1 t1 (repss_stp _ _ _ _ _ _ _ _ _ _ S1 R1) (repss_stp _ _ _ _ _ _ _ _ _ _ S1 R1') F')]. intros b2 s2 ws t2 ws' S2 WS _.
      apply duoL_ret. intros b3 S3. constructor; [eapply reps_stp; [exact S3|]; eapply reps_stp; [exact S2|exact W]|eapply repss_stp; eassumption].
  Qed.

  Lemma or_tree_loop_L K chunk : In K widths -> (0 < chunk)%nat -> forall fuel num xs ys vs b (s t : ST), (num <= fuel)%nat -> (0 < num)%nat -> num = length vs -> reps b s t K xs ys vs ->
    duoL b (or_tree_loop (EI K) fuel chunk num xs) (or_tree_loop (EJ K) fuel chunk num ys) s t (fun b' s' w t' w' => reps b' s' t' K w w' [orl vs]).
  Proof.
    intros HK Hc. induction fuel as [|fuel IH]; intros num xs ys vs b s t Hf Hn0 Hn R; [lia|].
    cbn [or_tree_loop]. destruct (Nat.ltb_spec 1 num) as [H1|H1].
    - pose proof (div2_mod2 num) as Hd. assert (Hm : (Nat.modulo num 2 < 2)%nat) by (apply Nat.mod_upper_bound; lia).
      set (n := Nat.div2 num) in *. set (m := Nat.modulo num 2) in *.
      replace (Nat.eqb chunk 0) with false by (symmetry; apply Nat.eqb_neq; lia).
      pose proof (reps_firstn G i _ _ _ _ _ _ _ n R) as Ra. pose proof (reps_skipn G i _ _ _ _ _ _ _ n R) as Rs. pose proof (reps_firstn G i _ _ _ _ _ _ _ n Rs) as Rb. pose proof (reps_skipn G i _ _ _ _ _ _ _ n Rs) as Rl. clear Rs R.
      assert (Hl : length (firstn n vs) = length (firstn n (skipn n vs))) by (rewrite !firstn_length, skipn_length; lia).
      assert (Hln : length (firstn n vs) = n) by (rewrite firstn_length; lia).
      pose proof (chunks_len2 chunk _ _ Hl) as HF.
      apply duoL_bind. eapply duoL_mono; [|apply (or_chunks_L K HK _ _ _ _ _ _ b s t (repss_chunk _ _ _ _ chunk _ _ _ Ra) (repss_chunk _ _ _ _ chunk _ _ _ Rb) HF)]. intros b1 s1 w t1 w' S1 W _.
      apply repss_concat in W. rewrite concat_map2 in W by exact HF. rewrite !chunks_concat in W by exact Hc. apply (reps_stp G i _ _ _ _ _ _ _ _ _ _ S1) in Rl.
      set (zs := map2 Z.lor (firstn n vs) (firstn n (skipn n vs)) ++ skipn n (skipn n vs)).
      replace (orl vs) with (orl zs). { apply IH; [lia|lia| |apply reps_app; assumption]. unfold zs. rewrite app_length, map2_length_eq by exact Hl. rewrite Hln, !skipn_length. lia. }
      unfold zs. rewrite orl_app, orl_map2 by exact Hl. rewrite <- !orl_app. rewrite <- app_assoc, firstn_skipn, firstn_skipn. reflexivity.
    - apply duoL_ret. intros b' S. destruct vs as [|v [|]]; simpl in Hn; try lia. cbn. rewrite Z.lor_0_r. eapply reps_stp; eassumption.
  Qed.
  Lemma or_tree_L K chunk xs ys vs b (s t : ST) : In K widths -> (0 < chunk)%nat -> (0 < length vs)%nat -> reps b s t K xs ys vs ->
    duoL b (or_tree (EI K) xs chunk) (or_tree (EJ K) ys chunk) s t (fun b' s' w t' w' => rep b' s' t' K w w' (orl vs)).
  Proof.
    intros HK Hc Hn R. pose proof (reps_len _ _ _ _ _ _ _ _ _ R) as [L1 L2]. unfold or_tree. rewrite L1, L2. apply duoL_bind. eapply duoL_mono; [|apply (or_tree_loop_L K chunk HK Hc _ _ _ _ _ b s t (le_n _) Hn eq_refl R)].
    intros b1 s1 w t1 w' S1 W _. apply reps_cons_inv in W. destruct W as (w0 & wr & w0' & wr' & -> & -> & W0 & _).
    change (resM (index (w0 :: wr) 0)) with (retM (S := ST) w0). change (resM (index (w0' :: wr') 0)) with (retM (S := ST) w0'). apply duoL_ret. intros b2 S2. eapply rep_stp; eassumption.
  Qed.

  (** ** Arithmetic shares: from arithmetic to binary *)
  Definition arep (b : Prop) (s t : ST) (K : Z) (x y : share) (v : Z) : Prop := ranged K x /\ ranged K y /\ (clean s t -> b \/ (paired K x y /\ joint K x y = v)).
  Definition areps (b : Prop) (s t : ST) (K : Z) (xs ys : list share) (vs : list Z) : Prop :=
    Forall (ranged K) xs /\ Forall (ranged K) ys /\ length xs = length vs /\ length ys = length vs /\ (clean s t -> b \/ (Forall2 (paired K) xs ys /\ map2 (joint K) xs ys = vs)).
  Lemma arep_stp b s t b' s' t' K x y v : stp b s t b' s' t' -> arep b s t K x y v -> arep b' s' t' K x y v.
  Proof. intros (_ & _ & _ & B & C) (R1 & R2 & R). split; [exact R1|]. split; [exact R2|]. intros C'. destruct (C C') as [?|C0]; [auto|]. destruct (R C0); auto. Qed.
  Lemma areps_stp b s t b' s' t' K x y v : stp b s t b' s' t' -> areps b s t K x y v -> areps b' s' t' K x y v.
  Proof. intros (_ & _ & _ & B & C) (R1 & R2 & L1 & L2 & R). do 4 (split; [assumption|]). intros C'. destruct (C C') as [?|C0]; [auto|]. destruct (R C0); auto. Qed.

  Lemma goods_cons K x y v xs ys vs : good i K x y v -> goods i K xs ys vs -> goods i K (x :: xs) (y :: ys) (v :: vs).
  Proof. intros (X & HX & <- & <-) (XS & HXS & <- & <-). exists (fun p => X p :: XS p). split; [apply RL_cons'; assumption|auto]. Qed.

  Definition part (q : pid) (x y : share) : Z := sa (fam i x y q).
  Definition pre1 (p : pid) (x : share) : share := fst (fst (a2b_pre p x)).
  Definition pre2 (p : pid) (x : share) : share := snd (fst (a2b_pre p x)).
  Definition pre3 (p : pid) (x : share) : share := snd (a2b_pre p x).
  Lemma pre_ranged K p x : 0 <= K -> ranged K x -> ranged K (pre1 p x) /\ ranged K (pre2 p x) /\ ranged K (pre3 p x).
  Proof using Type.
    intros HK [R1 R2]. assert (H0 : inr K 0) by (unfold inr; assert (0 < 2 ^ K) by (apply Z.pow_pos_nonneg; lia); lia).
    unfold pre1, pre2, pre3, ranged. destruct p; cbn; auto.
  Qed.
  Lemma pre_good K x y : In K widths -> paired K x y ->
    good i K (pre1 i x) (pre1 j y) (part P0 x y) /\ good i K (pre2 i x) (pre2 j y) (part P1 x y) /\ good i K (pre3 i x) (pre3 j y) (part P2 x y).
  Proof.
    intros HK P. assert (HK0 : 0 <= K) by (apply in_widths_pos in HK; lia). destruct (paired_fam i K x y P) as (A1 & A2 & _).
    assert (H0 : inr K 0) by (unfold inr; assert (0 < 2 ^ K) by (apply Z.pow_pos_nonneg; lia); lia).
    pose proof (fam_i i x y) as Fi. pose proof (fam_j i x y) as Fj. set (X := fam i x y) in *.
    split; [|split]; [exists (fun p => pre1 p (X p))|exists (fun p => pre2 p (X p))|exists (fun p => pre3 p (X p))]; rewrite Fi, Fj; (split; [|auto]); (split; [exact HK|]); unfold part; fold X; (split; [|split]).
    1,4,7: intros p; destruct p; cbn; auto.
    1,3,5: intros p; destruct p; cbn; rewrite ?A2; reflexivity.
    all: cbn; rewrite ?Z.lxor_0_r, ?Z.lxor_0_l; reflexivity.
  Qed.
  Lemma part_sum K x y : In K widths -> paired K x y -> add3_plain K (part P0 x y) (part P1 x y) (part P2 x y) = joint K x y.
  Proof. intros HK P. destruct (paired_fam i K x y P) as (A1 & A2 & A3). unfold part. rewrite add3_plain_spec by auto. rewrite A3. reflexivity. Qed.

  Lemma a2b_L b K x y v (s t : ST) : In K widths -> arep b s t K x y v ->
    duoL b (mal_a2b G H i K x) (mal_a2b G H j K y) s t (fun b' s' w t' w' => rep b' s' t' K w w' v).
  Proof.
    intros HK A. assert (HK0 : 0 <= K) by (apply in_widths_pos in HK; lia). pose proof A as (R1 & R2 & R).
    destruct (pre_ranged K i x HK0 R1) as (X1 & X2 & X3). destruct (pre_ranged K j y HK0 R2) as (Y1 & Y2 & Y3).
    assert (P1' : rep b s t K (pre1 i x) (pre1 j y) (part P0 x y)) by (split; [exact X1|]; split; [exact Y1|]; intros C; destruct (R C) as [?|[P _]]; [auto|]; right; apply (pre_good K x y HK P)).
    assert (P2' : rep b s t K (pre2 i x) (pre2 j y) (part P1 x y)) by (split; [exact X2|]; split; [exact Y2|]; intros C; destruct (R C) as [?|[P _]]; [auto|]; right; apply (pre_good K x y HK P)).
    assert (P3' : rep b s t K (pre3 i x) (pre3 j y) (part P2 x y)) by (split; [exact X3|]; split; [exact Y3|]; intros C; destruct (R C) as [?|[P _]]; [auto|]; right; apply (pre_good K x y HK P)).
    apply (duoL_ext G H i b _ (binary_add_3 (EI K) (pre1 i x) (pre2 i x) (pre3 i x)) _ (binary_add_3 (EJ K) (pre1 j y) (pre2 j y) (pre3 j y))).
    { unfold mal_a2b, pre1, pre2, pre3. destruct (a2b_pre i x) as [[? ?] ?]. reflexivity. } { unfold mal_a2b, pre1, pre2, pre3. destruct (a2b_pre j y) as [[? ?] ?]. reflexivity. }
    eapply duoL_mono; [|apply (add3_L G H i b K _ _ _ _ _ _ _ _ _ s t HK P1' P2' P3')]. intros b' s' w t' w' S (W1 & W2 & W). split; [exact W1|]. split; [exact W2|].
    intros C. destruct (W C) as [?|GD]; [auto|]. apply (arep_stp _ _ _ _ _ _ _ _ _ _ S) in A. destruct A as (_ & _ & A). destruct (A C) as [?|[P E]]; [auto|]. right. rewrite part_sum in GD by assumption. rewrite <- E. exact GD.
  Qed.
  Lemma pre_reps b s t K (pre : pid -> share -> share) q xs ys vs : In K widths -> (forall p x, ranged K x -> ranged K (pre p x)) ->
    (forall x y, paired K x y -> good i K (pre i x) (pre j y) (part q x y)) -> areps b s t K xs ys vs -> reps b s t K (map (pre i) xs) (map (pre j) ys) (map2 (part q) xs ys).
  Proof.
    intros HK RP GP (R1 & R2 & L1 & L2 & R). split; [apply Forall_map; eapply Forall_impl; [|exact R1]; auto|]. split; [apply Forall_map; eapply Forall_impl; [|exact R2]; auto|].
    rewrite !map_length, map2_length_eq by congruence. split; [reflexivity|]. split; [congruence|]. intros C. destruct (R C) as [?|[P _]]; [auto|]. right.
    clear - P GP. induction P as [|x y xs ys P F IH]; cbn [map map2]; [exists (fun _ => []); split; [apply RL_nil'|auto]|]. apply goods_cons; [apply GP, P|exact IH].
  Qed.
  Lemma a2b_many_L b K xs ys vs (s t : ST) : In K widths -> areps b s t K xs ys vs ->
    duoL b (mal_a2b_many G H i K xs) (mal_a2b_many G H j K ys) s t (fun b' s' w t' w' => reps b' s' t' K w w' vs).
  Proof.
    intros HK A. assert (HK0 : 0 <= K) by (apply in_widths_pos in HK; lia). pose proof A as (R1 & R2 & L1 & L2 & R).
    pose proof (pre_reps b s t K pre1 P0 xs ys vs HK (fun p x h => proj1 (pre_ranged K p x HK0 h)) (fun x y h => proj1 (pre_good K x y HK h)) A) as P1'.
    pose proof (pre_reps b s t K pre2 P1 xs ys vs HK (fun p x h => proj1 (proj2 (pre_ranged K p x HK0 h))) (fun x y h => proj1 (proj2 (pre_good K x y HK h))) A) as P2'.
    pose proof (pre_reps b s t K pre3 P2 xs ys vs HK (fun p x h => proj2 (proj2 (pre_ranged K p x HK0 h))) (fun x y h => proj2 (proj2 (pre_good K x y HK h))) A) as P3'.
    unfold mal_a2b_many. rewrite !map_map.
    eapply duoL_mono; [|apply (add3_many_L G H i b K _ _ _ _ _ _ _ _ _ s t HK) with (3 := P1') (4 := P2') (5 := P3'); rewrite !map2_length_eq by congruence; reflexivity].
    intros b' s' w t' w' S W. apply (areps_stp _ _ _ _ _ _ _ _ _ _ S) in A. destruct A as (_ & _ & _ & _ & A). destruct W as (W1 & W2 & W3 & W4 & W).
    assert (LM : length (map3 (add3_plain K) (map2 (part P0) xs ys) (map2 (part P1) xs ys) (map2 (part P2) xs ys)) = length vs).
    { rewrite <- L1. assert (LL : length xs = length ys) by congruence. clear - LL. revert ys LL. induction xs as [|x xs IH]; intros [|y ys] LL; try discriminate; [reflexivity|]. cbn. rewrite IH by (injection LL; auto). reflexivity. }
    rewrite LM in W3, W4. do 4 (split; [assumption|]).
    intros C. destruct (W C) as [?|GD]; [auto|]. destruct (A C) as [?|[P E]]; [auto|]. right. rewrite <- E.
    replace (map2 (joint K) xs ys) with (map3 (add3_plain K) (map2 (part P0) xs ys) (map2 (part P1) xs ys) (map2 (part P2) xs ys)); [exact GD|].
    clear - P HK. induction P as [|x y xs ys P F IH]; cbn [map2 map3]; [reflexivity|]. rewrite IH, part_sum by assumption. reflexivity.
  Qed.
  Lemma rep_msb b s t K x y v : In K widths -> rep b s t K x y v -> rep b s t 1 (sh_get_msb K x) (sh_get_msb K y) (Z.b2z (Z.testbit v (K - 1))).
  Proof.
    intros HK (R1 & R2 & R). assert (RM : forall z, ranged K z -> ranged 1 (sh_get_msb K z)) by (intros z [Z1 Z2]; split; cbn; rewrite get_msb_bit by auto; apply b2z_inr).
    split; [apply RM, R1|]. split; [apply RM, R2|]. intros C. destruct (R C) as [?|(X & [_ HX] & <- & <-)]; [auto|]. right. exists (fun p => sh_get_msb K (X p)). split; [split; [left; reflexivity|apply sh_get_msb_ok; assumption]|auto].
  Qed.
  Lemma reps_msb b s t K xs ys vs : In K widths -> reps b s t K xs ys vs -> reps b s t 1 (map (sh_get_msb K) xs) (map (sh_get_msb K) ys) (map Z.b2z (map (fun v => Z.testbit v (K - 1)) vs)).
  Proof.
    intros HK. revert xs ys. induction vs as [|v vs IH]; intros xs ys R.
    - destruct (reps_len _ _ _ _ _ _ _ _ _ R) as [L1 L2]. destruct xs; [|discriminate]. destruct ys; [|discriminate]. apply reps_nil.
    - apply reps_cons_inv in R. destruct R as (x & xs' & y & ys' & -> & -> & R0 & R). cbn [map]. apply reps_cons; [apply rep_msb; assumption|apply IH, R].
  Qed.
  Lemma msb_L b K x y v (s t : ST) : In K widths -> arep b s t K x y v ->
    duoL b (mal_get_msb G H i K x) (mal_get_msb G H j K y) s t (fun b' s' w t' w' => rep b' s' t' 1 w w' (Z.b2z (Z.testbit v (K - 1)))).
  Proof.
    intros HK A. unfold mal_get_msb. apply duoL_bind. eapply duoL_mono; [|apply (a2b_L b K x y v s t HK A)]. intros b1 s1 w t1 w' S W _. apply duoL_ret. intros b2 S2. eapply rep_stp; [exact S2|]. apply rep_msb; assumption.
  Qed.
  Lemma msb_many_L b K xs ys vs (s t : ST) : In K widths -> areps b s t K xs ys vs ->
    duoL b (mal_get_msb_many G H i K xs) (mal_get_msb_many G H j K ys) s t (fun b' s' w t' w' => reps b' s' t' 1 w w' (map Z.b2z (map (fun v => Z.testbit v (K - 1)) vs))).
  Proof.
    intros HK A. unfold mal_get_msb_many. apply duoL_bind. eapply duoL_mono; [|apply (a2b_many_L b K xs ys vs s t HK A)]. intros b1 s1 w t1 w' S W _. apply duoL_ret. intros b2 S2. eapply reps_stp; [exact S2|]. apply reps_msb; assumption.
  Qed.
  Lemma reduce_or_L b xs ys bs chunk (s t : ST) : (0 < chunk)%nat -> (0 < length bs)%nat -> reps b s t 1 xs ys (map Z.b2z bs) ->
    duoL b (mal_reduce_binary_or G H i xs chunk) (mal_reduce_binary_or G H j ys chunk) s t (fun b' s' w t' w' => rep b' s' t' 1 w w' (Z.b2z (existsb (fun b => b) bs))).
  Proof.
    intros Hc Hl R. unfold mal_reduce_binary_or. rewrite <- orl_b2z. apply or_tree_L; [left; reflexivity|lia|rewrite map_length; exact Hl|exact R].
  Qed.

  (** ** Opening of bits *)
  Lemma open_bit_L b x y bit (s t : ST) : rep b s t 1 x y (Z.b2z bit) ->
    duoL b (mal_open_bit G H i x) (mal_open_bit G H j y) s t (fun b' s' u t' v => b' \/ (u = bit /\ v = bit)).
  Proof.
    intros (R1 & R2 & R). apply duoL_of. intros Hs. unfold mal_open_bit.
    dbind. apply jmp_verify_duo. intros V1. dbind. apply jsr_duo; [left; reflexivity|apply R1|]. intros c Hc. dbind. apply jmp_verify_duo. cbn [verified j_prf j_rcv j_snd j_log app]. intros V2.
    apply duoM_ret. intros b' B1 B2. cbn [verified j_prf j_rcv j_snd j_log app] in *.
    assert (OUT : b' \/ (clean s t /\ c = sa y)).
    { destruct V1 as [C1|C1]; [|left; apply B2; eapply coll_grows; [exact C1|reflexivity|reflexivity]]. destruct V2 as [C2|C2]; [|left; apply B2; exact C2]. right. split; [exact C1|].
      apply bts_inj in C2; [|left; reflexivity|reflexivity|repeat constructor; apply Hc|repeat constructor; apply R2]. injection C2 as ->. reflexivity. }
    split.
    { split; [exact Hs|]. split; [eexists; cbn; rewrite <- !app_assoc; reflexivity|]. split; [eexists; cbn; rewrite <- !app_assoc; reflexivity|]. split; [exact B1|]. intros _. destruct OUT as [?|[? _]]; auto. }
    destruct OUT as [?|[C ->]]; [auto|]. destruct (R C) as [?|(X & HX & <- & <-)]; [auto|]. right.
    destruct (open_of_RLb i 1 (fun p => [X p]) [Z.b2z bit]) as [O1 O2]; [apply RL_cons'; [exact HX|apply RL_nil']|]. cbn in O1, O2. injection O1 as O1. injection O2 as O2.
    split.
    - replace (rxor (rxor (sa (X i)) (sb (X i))) (sa (X j))) with (rxor (rxor (sa (X j)) (sa (X i))) (sb (X i))) by (unfold rxor; bitsolve). rewrite O1. destruct bit; reflexivity.
    - replace (rxor (rxor (sa (X j)) (sb (X j))) (sb (X i))) with (rxor (rxor (sb (X i)) (sa (X j))) (sb (X j))) by (unfold rxor; bitsolve). rewrite O2. destruct bit; reflexivity.
  Qed.
  Lemma map2_eqb1 xs c bits : opened_bi xs c = map Z.b2z bits -> map2 (fun s c => rxor (rxor c (sa s)) (sb s) =? 1) xs c = bits.
  Proof using Type.
    unfold opened_bi. revert c bits. induction xs as [|x xs IH]; intros [|c0 c] [|bit bits]; cbn; intros E; try discriminate; try reflexivity. injection E as E0 E. rewrite (IH _ _ E), E0. f_equal. destruct bit; reflexivity.
  Qed.
  Lemma open_bit_many_L b xs ys bits (s t : ST) : reps b s t 1 xs ys (map Z.b2z bits) ->
    duoL b (mal_open_bit_many G H i xs) (mal_open_bit_many G H j ys) s t (fun b' s' u t' v => b' \/ (u = bits /\ v = bits)).
  Proof.
    intros (R1 & R2 & L1 & L2 & R). apply duoL_of. intros Hs. unfold mal_open_bit_many. destruct (ranged_cols _ _ R1) as [X1 X2]. destruct (ranged_cols _ _ R2) as [Y1 Y2].
    dbind. apply jmp_verify_duo. intros V1. dbind. apply jsrm_duo; [left; reflexivity|exact X2|rewrite !map_length; congruence|]. intros c Hc Lc. rewrite map_length in Lc. dbind. apply jmp_verify_duo. cbn [verified j_prf j_rcv j_snd j_log app]. intros V2.
    apply duoM_ret. intros b' B1 B2. cbn [verified j_prf j_rcv j_snd j_log app] in *.
    assert (OUT : b' \/ (clean s t /\ c = map sa ys)).
    { destruct V1 as [C1|C1]; [|left; apply B2; eapply coll_grows; [exact C1|reflexivity|reflexivity]]. destruct V2 as [C2|C2]; [|left; apply B2; exact C2]. right. split; [exact C1|].
      apply bts_inj in C2; [exact C2|left; reflexivity|rewrite map_length; congruence|exact Hc|exact Y1]. }
    split.
    { split; [exact Hs|]. split; [eexists; cbn; rewrite <- !app_assoc; reflexivity|]. split; [eexists; cbn; rewrite <- !app_assoc; reflexivity|]. split; [exact B1|]. intros _. destruct OUT as [?|[? _]]; auto. }
    destruct OUT as [?|[C ->]]; [auto|]. destruct (R C) as [?|(X & HX & <- & <-)]; [auto|]. right.
    destruct (open_of_RLb i 1 X _ HX) as [O1 O2]. split; apply map2_eqb1; assumption.
  Qed.
End D.
