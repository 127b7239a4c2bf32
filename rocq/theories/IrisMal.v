(** The iris-code protocol on malicious ABY3 run by two honest parties against an arbitrary third one: the judgement and inner products. *)
From Verif Require Import Base Ring RingProofs Prog Sched Conc Rng Rel Net BitArith BinProofs AddProofs IrisProofs MpcSpec Aby3 ShareSpec Aby3Proofs Aby3Proofs2 SlicedProofs Jmp JmpProofs Session SessionProofs
  Aby3Mal Aby3MalProofs Aby3MalProofs2 SacrificeProofs PropLemmas PropLemmas2 PropLemmas5 SpecProofs Duo DuoProofs MacSpec MacProofs Client ProgMalSpec ProgMalDuo ProgMalOps ProgMalOps2 ProgMalOps3 ProgMalOps4
  ProgMalBinSpec ProgMalBin ProgMalBin2 ProgMalBin3 ProgMalBin4 ProgMalBin5 ProgMalBin6 IrisMalSpec.
From Coq Require Import ZifyBool ZifyNat.

Lemma peq_bind_ret {A} (p : prog A) : peq p (bind p Ret).
Proof. induction p; cbn; constructor; auto. Qed.

Section D.
  Variables (G : rng) (H : hasher) (i : pid) (K : Z).
  Notation j := (next i).
  Notation ST := (jst G).
  Notation coll := (hash_collision G H).
  Notation synced := (synced2 G).
  Notation clean := (clean G).
  Notation quiet := (quiet G).
  Notation luckb := (lucky_bits G H i).
  Notation luckd := (lucky_dots G H K i).
  Notation stp := (stp G).
  Notation grows := (grows G).
  Notation areps := (areps G).

  Lemma luckd_first {A B C D} (p : prog A) (q : prog B) (f : A -> prog C) (g : B -> prog D) ti tj ti' tj' :
    luckd p q ti tj -> luckd (bind p f) (bind q g) (ti ++ ti') (tj ++ tj').
  Proof.
    intros (ti1 & ti2 & tj1 & tj2 & p' & q' & s & x & t & y & n & -> & -> & L1 & L2 & (k1 & K1) & (k2 & K2) & R).
    exists ti1, (ti2 ++ ti'), tj1, (tj2 ++ tj'), (bind p' f), (bind q' g), s, x, t, y, n.
    rewrite <- !app_assoc. split; [reflexivity|]. split; [reflexivity|]. split; [apply lrun_bind_part, L1|]. split; [apply lrun_bind_part, L2|].
    split; [eexists; eapply peq_trans; [apply peq_bind; [exact K1|intros; apply peq_refl]|apply peq_assoc]|].
    split; [eexists; eapply peq_trans; [apply peq_bind; [exact K2|intros; apply peq_refl]|apply peq_assoc]|]. exact R.
  Qed.
  Lemma luckd_then {A B C D} (p : prog A) (q : prog B) (f : A -> prog C) (g : B -> prog D) ti a tj b ti' tj' :
    lrun p ti (Ret a) -> lrun q tj (Ret b) -> luckd (f a) (g b) ti' tj' -> luckd (bind p f) (bind q g) (ti ++ ti') (tj ++ tj').
  Proof.
    intros E1 E2 (ti1 & ti2 & tj1 & tj2 & p' & q' & s & x & t & y & n & -> & -> & L1 & L2 & R).
    exists (ti ++ ti1), ti2, (tj ++ tj1), tj2, p', q', s, x, t, y, n.
    rewrite <- !app_assoc. split; [reflexivity|]. split; [reflexivity|]. split; [eapply lrun_bind_intro; eassumption|]. split; [eapply lrun_bind_intro; eassumption|]. exact R.
  Qed.

  Definition duoX {A} (b : Prop) (p q : M ST A) (s t : ST) (Q : Prop -> ST -> A -> ST -> A -> Prop) : Prop :=
    synced s t -> duoT i (p s) (q t) (fun ti r tj r' => forall b' : Prop, (b -> b') -> (coll (fst r) (fst r') -> b') -> (luckb (p s) (q t) ti tj \/ luckd (p s) (q t) ti tj -> b') ->
      stp b s t b' (fst r) (fst r') /\ Q b' (fst r) (snd r) (fst r') (snd r')).
  Lemma duoX_L {A} b (p q : M ST A) s t Q : duoL G H i b p q s t Q -> duoX b p q s t Q.
  Proof. intros D Hs. eapply duoT_mono; [|apply D, Hs]. intros ti r tj r' R b' B1 B2 B3. apply R; tauto. Qed.
  Lemma duoX_bind {A B} b (p q : M ST A) (f g : A -> M ST B) s t Q :
    duoX b p q s t (fun b1 s1 x t1 y => stp b s t b1 s1 t1 -> duoX b1 (f x) (g y) s1 t1 Q) -> duoX b (bindM p f) (bindM q g) s t Q.
  Proof.
    intros D Hs. unfold bindM. apply duoT_bind. apply duoT_runs. eapply duoT_mono; [|apply D, Hs]. clear D.
    intros ti [s1 x] tj [t1 y] D L1 L2. cbn [fst snd] in *.
    set (b1 := b \/ coll s1 t1 \/ luckb (p s) (q t) ti tj \/ luckd (p s) (q t) ti tj). destruct (D b1) as [S1 D1]; [unfold b1; tauto..|]. specialize (D1 S1). clear D.
    eapply duoT_mono; [|apply D1; apply S1]. clear D1. intros ti' [s2 z] tj' [t2 w] D b' HB HC HL. cbn [fst snd] in *.
    destruct (D True) as [(_ & G1 & G2 & _) _]; [tauto..|].
    assert (B1 : b1 -> b').
    { intros [Z0|[Z0|[Z0|Z0]]]; [exact (HB Z0)|apply HC; eapply coll_gr; eassumption|apply HL; left; apply luck_first, Z0|apply HL; right; apply luckd_first, Z0]. }
    destruct (D b') as [S2 QQ]; [exact B1|exact HC|intros [L|L]; apply HL; [left; eapply luck_then; eassumption|right; eapply luckd_then; eassumption]|].
    split; [|exact QQ]. eapply stp_trans; eassumption.
  Qed.
  Lemma duoX_mono {A} b (p q : M ST A) s t (Q Q' : Prop -> ST -> A -> ST -> A -> Prop) : (forall b' s' x t' y, stp b s t b' s' t' -> Q b' s' x t' y -> Q' b' s' x t' y) -> duoX b p q s t Q -> duoX b p q s t Q'.
  Proof.
    intros HQ D Hs. eapply duoT_mono; [|apply D, Hs]. intros ti r tj r' R b' B1 B2 B3. destruct (R b' B1 B2 B3) as [R1 R2]. auto.
  Qed.
  Lemma duoX_ret {A} b (x y : A) s t (Q : Prop -> ST -> A -> ST -> A -> Prop) : (forall b', stp b s t b' s t -> Q b' s x t y) -> duoX b (retM x) (retM y) s t Q.
  Proof. intros HQ. apply duoX_L, duoL_ret, HQ. Qed.
  Lemma duoX_ext {A} b (p p' q q' : M ST A) s t Q : p s = p' s -> q t = q' t -> duoX b p' q' s t Q -> duoX b p q s t Q.
  Proof. intros E1 E2 D Hs. unfold duoX in D. rewrite <- E1, <- E2 in D. exact (D Hs). Qed.

  (** *** Inner products of correctly shared rows *)
  Notation same_len := (Forall2 (fun x y => length x = length y)).
  Lemma dot_many_D xi xj yi yj (s t : ST) : In K widths -> synced s t ->
    same_len xi yi -> same_len xj yj -> same_len yi yj -> Forall2 (Forall2 (paired K)) xi xj -> Forall2 (Forall2 (paired K)) yi yj ->
    duoT i (mal_dot_many G H i K xi yi s) (mal_dot_many G H j K xj yj t) (fun ti r tj r' =>
      synced (fst r) (fst r') /\ Forall (ranged K) (snd r) /\ Forall (ranged K) (snd r') /\ length (snd r) = length xi /\ length (snd r') = length xi /\
      (coll (fst r) (fst r') \/ luckd (mal_dot_many G H i K xi yi s) (mal_dot_many G H j K xj yj t) ti tj \/
       (clean s t /\ Forall2 (paired K) (snd r) (snd r') /\ map2 (joint K) (snd r) (snd r') = map2 (fun x y => dotp x y mod 2 ^ K) (map2 (map2 (joint K)) xi xj) (map2 (map2 (joint K)) yi yj)))).
  Proof.
    intros HK Hs L1 L2 L3 PA PB. pose proof (in_widths_pos K HK) as K0. assert (HK0 : 0 <= K) by lia.
    assert (KU : 0 <= K <= verif_width K) by (split; [exact HK0|apply (PropLemmas5.verif_ge K HK)]).
    pose proof (verif_in K HK) as HU.
    assert (N1 : length xi = length yi) by (eapply Forall2_len; eassumption). assert (N2 : length xj = length yj) by (eapply Forall2_len; eassumption). assert (N3 : length yi = length yj) by (eapply Forall2_len; eassumption).
    unfold mal_dot_many. rewrite N1, N2, !Nat.eqb_refl. cbn [negb]. unfold dot_sacrifice_many.
    destruct (40 <=? verif_width K - K) eqn:HV; cbn [negb]; [|apply duoT_fail_l]. set (U := verif_width K) in *.
    assert (HU0 : 0 <= U) by (apply in_widths_pos in HU; lia).
    set (xi' := map (map sh_ext) xi). set (yi' := map (map sh_ext) yi). set (xj' := map (map sh_ext) xj). set (yj' := map (map sh_ext) yj).
    assert (M1 : same_len xi' yi') by (apply same_len_ext, L1). assert (M2 : same_len xj' yj') by (apply same_len_ext, L2). assert (M3 : same_len yi' yj') by (apply same_len_ext, L3).
    assert (NX : length xi' = length yi) by (unfold xi'; rewrite map_length; exact N1). assert (NY : length yi' = length yi) by apply map_length.
    assert (NX' : length xj' = length yi) by (unfold xj'; rewrite map_length; congruence). assert (NY' : length yj' = length yi) by (unfold yj'; rewrite map_length; congruence).
    set (pi := bindM (mapM (fun b => gen_rand_many G U (length b)) yi') (fun a_ => bindM (aby_dot_many G i U (xi' ++ a_) (yi' ++ yi')) (fun cs => dot_sacrifice_check_many G H i K (length xi) xi' a_ yi' cs))).
    set (pj := bindM (mapM (fun b => gen_rand_many G U (length b)) yj') (fun a_ => bindM (aby_dot_many G j U (xj' ++ a_) (yj' ++ yj')) (fun cs => dot_sacrifice_check_many G H j K (length xj) xj' a_ yj' cs))).
    set (LK := luckd (pi s) (pj t)). 
    eapply duoT_step; [apply gen_rows_duo; [exact HU0|exact M3|exact Hs|intros s' x t' y HS' Q Q' P F F'; exact (conj HS' (conj Q (conj Q' (conj P (conj F F')))))]|].
    intros ti1 s1 a tj1 t1 a' R1 R1' (Hs1 & Q1 & Q1' & P1 & La & La').
    assert (A1 : length a = length yi) by (rewrite <- NY; eapply Forall2_len; exact La). assert (A2 : length a' = length yi) by (rewrite <- NY; eapply Forall2_len; exact La').
    eapply duoT_step; [apply aby_dot_many_duo; [exact HU|exact Hs1|apply Forall2_app; [exact M1|exact La]|apply Forall2_app; [exact M2|eapply same_len_trans; [exact La'|exact M3]]|rewrite !app_length; congruence|
      intros s' x t' y HS' Q Q' P F F'; exact (conj HS' (conj Q (conj Q' (conj P (conj F F')))))]|].
    intros ti2 s2 cs tj2 t2 ds R2 R2' (Hs2 & Q2 & Q2' & P4 & Lc & Ld). rewrite app_length, NX, A1 in Lc, Ld.
    assert (CC : clean s2 t2 -> clean s t). { intros C. apply (quiet_clean _ _ _ _ _ Q1 Q1'). apply (quiet_clean _ _ _ _ _ Q2 Q2'). exact C. }
    set (c := map2 (joint U) cs ds). assert (Lcc : length c = (length yi + length yi)%nat) by (unfold c; rewrite map2_length_eq; congruence).
    pose proof (rows_fam_RL i U cs ds P4) as RC. fold c in RC. rewrite <- (firstn_skipn (length yi) c) in RC.
    pose proof (dot_check_many_gen G H i K xi' xj' a a' yi' yj' (rows_fam i cs ds) (firstn (length yi) c) (skipn (length yi) c) s2 t2 HK Hs2) as D. cbv zeta in D. fold U in D.
    specialize (D M1 La (same_len_trans _ _ _ M2 (same_len_sym _ _ M3)) La' ltac:(rewrite NY, firstn_length; lia) ltac:(rewrite NY, skipn_length; lia)
      (fun h => paired_ext_t K U _ _ KU PA) P1 (fun h => paired_ext_t K U _ _ KU PB) RC).
    rewrite rows_fam_i, rows_fam_j, NY in D. rewrite N2, <- N3, N1.
    eapply duoT_of; [exact D|]. clear D. intros ti3 s3 z tj3 t3 z' (Hs3 & C3 & -> & -> & OUT). cbn [fst snd].
    assert (TR : forall l, Forall (ranged K) (map (sh_trunc K) l)) by (intros l; apply Forall_map, Forall_forall; intros w _; apply trunc_ranged, HK0).
    split; [exact Hs3|]. split; [apply TR|]. split; [apply TR|]. split; [rewrite map_length, firstn_length; lia|]. split; [rewrite map_length, firstn_length; lia|].
    destruct OUT as [C|[Hc EQ]]; [left; exact C|]. apply CC in Hc. clear CC.
    set (X := Sac xi' a yi' cs) in *. set (Y := Sac xj' a' yj' ds) in *.
    destruct (Forall_Exists_dec (fun n => error0 U X Y n mod 2 ^ K = 0) (fun n => Z.eq_dec _ _) (seq 0 (length yi))) as [F|F].
    - right. right. split; [exact Hc|].
      assert (PT : Forall2 (paired K) (map (sh_trunc K) (firstn (length yi) cs)) (map (sh_trunc K) (firstn (length yi) ds)) /\
        map2 (joint K) (map (sh_trunc K) (firstn (length yi) cs)) (map (sh_trunc K) (firstn (length yi) ds)) = map (fun x => x mod 2 ^ K) (firstn (length yi) c)).
      { unfold c. clear -i P4 KU. generalize (length yi). induction P4 as [|u v cs ds P P4 IH]; intros [|n]; cbn; try (split; [constructor|reflexivity]).
        destruct (trunc_paired i K U u v KU P) as [T1 T2]. destruct (IH n) as [I1 I2]. split; [constructor; assumption|]. rewrite T2, I2. reflexivity. }
      destruct PT as [PT1 PT2]. split; [exact PT1|]. rewrite PT2.
      assert (LL : forall (p q : list (list share)), Forall2 (Forall2 (paired K)) p q -> length (map2 (map2 (joint K)) p q) = length p) by (intros p q HH; apply map2_length_eq; eapply Forall2_len; exact HH).
      apply (nth_ext _ _ 0 0). { rewrite map_length, firstn_length, map2_length_eq; rewrite !LL by assumption; lia. }
      intros n Hn. rewrite map_length, firstn_length in Hn. assert (Hn' : (n < length yi)%nat) by lia.
      rewrite (map_dotp_ext K U) by (try assumption; lia).
      rewrite Forall_forall in F. assert (HF : error0 U X Y n mod 2 ^ K = 0) by (apply F, in_seq; lia). clear F.
      unfold error0, row_error, X, Y in HF. cbn [sac_a sac_b sac_c] in HF.
      rewrite (nth_indep _ 0 (0 mod 2 ^ K)) by (rewrite map_length, firstn_length; exact Hn). rewrite (map_nth (fun x => x mod 2 ^ K)).
      assert (EN : nth n (firstn (length yi) c) 0 = joint U (nth n cs szero) (nth n ds szero)).
      { rewrite <- (nth_map2 (joint U) cs ds n szero szero 0) by lia. fold c. rewrite <- (firstn_skipn (length yi) c) at 2. rewrite app_nth1; [reflexivity|rewrite firstn_length; lia]. }
      rewrite EN. apply sub_mod0, HF.
    - right. left. apply Exists_exists in F. destruct F as (n & In & NE). apply in_seq in In. unfold LK.
      exists (ti1 ++ ti2), ti3, (tj1 ++ tj2), tj3, (dot_sacrifice_check_many G H i K (length xi') xi' a yi' cs s2), (dot_sacrifice_check_many G H j K (length xj') xj' a' yj' ds t2), s2, X, t2, Y, n.
      split; [apply app_assoc|]. split; [apply app_assoc|].
      split. { unfold pi, bindM. eapply lrun_bind_intro; [exact R1|]. cbn [fst snd]. rewrite <- (app_nil_r ti2). eapply lrun_bind_intro; [exact R2|]. cbn [fst snd]. replace (length xi) with (length xi') by apply map_length. constructor. }
      split. { unfold pj, bindM. eapply lrun_bind_intro; [exact R1'|]. cbn [fst snd]. rewrite <- (app_nil_r tj2). eapply lrun_bind_intro; [exact R2'|]. cbn [fst snd]. replace (length xj) with (length xj') by apply map_length. constructor. }
      split; [eexists; apply peq_bind_ret|]. split; [eexists; apply peq_bind_ret|]. unfold same_rows. cbn [X Y sac_a sac_a' sac_b sac_c].
      split; [exact M1|]. split; [exact La|]. split; [rewrite NY; exact Lc|]. split; [apply same_len_sym, M3|]. split; [eapply same_len_trans; [exact M2|apply same_len_sym, M3]|]. split; [exact La'|]. split; [congruence|].
      assert (LX : length (sac_b X) = length yi) by exact NY.
      split; [rewrite LX; lia|]. split; [exact NE|].
      unfold error0, error1, row_error. rewrite LX. cbn [sac_a sac_a' sac_b sac_c X Y].
      specialize (EQ n (map2 (joint U) (nth n xi' []) (nth n xj' [])) (map2 (joint U) (nth n a []) (nth n a' [])) (map2 (joint U) (nth n yi' []) (nth n yj' []))
        (joint U (nth n cs szero) (nth n ds szero)) (joint U (nth (length yi + n) cs szero) (nth (length yi + n) ds szero))).
      apply EQ; clear EQ.
      + apply nth_error_map2; lia.
      + apply nth_error_map2; lia.
      + apply nth_error_map2; lia.
      + rewrite <- (nth_error_app1 _ (skipn (length yi) c)) by (rewrite firstn_length; lia). rewrite firstn_skipn. apply nth_error_map2; lia.
      + rewrite <- (nth_error_map2 (joint U) cs ds (length yi + n) szero szero) by lia. fold c. rewrite <- (firstn_skipn (length yi) c) at 2. rewrite nth_error_app2 by (rewrite firstn_length; lia). f_equal. rewrite firstn_length. lia.
  Qed.
  Lemma dot_many_X b xi xj yi yj (s t : ST) : In K widths ->
    same_len xi yi -> same_len xj yj -> same_len yi yj -> Forall2 (Forall2 (paired K)) xi xj -> Forall2 (Forall2 (paired K)) yi yj ->
    duoX b (mal_dot_many G H i K xi yi) (mal_dot_many G H j K xj yj) s t (fun b' s' w t' w' =>
      areps b' s' t' K w w' (map2 (fun x y => dotp x y mod 2 ^ K) (map2 (map2 (joint K)) xi xj) (map2 (map2 (joint K)) yi yj))).
  Proof.
    intros HK L1 L2 L3 PA PB Hs. apply duoT_runs. eapply duoT_mono; [|apply (dot_many_D xi xj yi yj s t); assumption].
    intros ti [s' w] tj [t' w'] (Hs' & F1 & F2 & N1 & N2 & OUT) R1 R2 b' B1 B2 B3. cbn [fst snd] in *.
    pose proof (dot_many_grows G H i K xi yi _ _ _ _ R1) as G1. pose proof (dot_many_grows G H j K xj yj _ _ _ _ R2) as G2.
    assert (LL : length (map2 (fun x y => dotp x y mod 2 ^ K) (map2 (map2 (joint K)) xi xj) (map2 (map2 (joint K)) yi yj)) = length xi).
    { rewrite map2_length_eq; rewrite !map2_length_eq; try (eapply Forall2_len; eassumption). reflexivity. }
    split.
    - split; [exact Hs'|]. split; [exact G1|]. split; [exact G2|]. split; [exact B1|]. intros _. destruct OUT as [C|[C|[C _]]]; auto.
    - split; [exact F1|]. split; [exact F2|]. split; [congruence|]. split; [congruence|]. intros _. destruct OUT as [C|[C|(C & P & E)]]; auto.
  Qed.
End D.
