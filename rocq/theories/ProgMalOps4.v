(** Inner products and openings of malicious ABY3 run by two honest parties. *)
From Verif Require Import Base Ring RingProofs Prog Sched Conc Rng Rel Net BitArith BinProofs AddProofs IrisProofs MpcSpec Aby3 ShareSpec Aby3Proofs Aby3Proofs2 SlicedProofs Jmp JmpProofs Session SessionProofs
  Aby3Mal Aby3MalProofs SacrificeProofs PropLemmas PropLemmas2 PropLemmas5 SpecProofs Duo DuoProofs MacSpec MacProofs Client ProgMalSpec ProgMalDuo ProgMalOps ProgMalOps2 ProgMalOps3.
From Coq Require Import ZifyBool ZifyNat.

Lemma nth_map2 {A B C} (f : A -> B -> C) a b n da db dc : length a = length b -> (n < length a)%nat -> nth n (map2 f a b) dc = f (nth n a da) (nth n b db).
Proof. revert b n. induction a as [|x a IH]; intros [|y b] [|n] L N; cbn in *; try lia; try reflexivity. apply IH; lia. Qed.
Lemma paired_ext K U x y : 0 <= K <= U -> paired K x y -> paired U (sh_ext x) (sh_ext y) /\ joint U (sh_ext x) (sh_ext y) mod 2 ^ K = joint K x y.
Proof.
  intros KU ([A1 A2] & [B1 B2] & E). assert (P : 2 ^ K <= 2 ^ U) by (apply Z.pow_le_mono_r; lia).
  unfold inr in *. split; [|unfold joint; rewrite mod_mod_pow by exact KU; reflexivity].
  unfold paired, ranged, inr, sh_ext, to_verif. cbn [sa sb]. repeat split; lia.
Qed.
Lemma paired_ext_l K U x y : 0 <= K <= U -> Forall2 (paired K) x y ->
  Forall2 (paired U) (map sh_ext x) (map sh_ext y) /\ map (fun x => x mod 2 ^ K) (map2 (joint U) (map sh_ext x) (map sh_ext y)) = map2 (joint K) x y.
Proof.
  intros KU. induction 1 as [|x y xs ys P F [IH1 IH2]]; cbn; [split; [constructor|reflexivity]|].
  destruct (paired_ext K U x y KU P) as [E1 E2]. split; [constructor; assumption|]. rewrite E2, IH2. reflexivity.
Qed.
Lemma paired_ext_t K U x y : 0 <= K <= U -> Forall2 (Forall2 (paired K)) x y ->
  Forall2 (Forall2 (paired U)) (map (map sh_ext) x) (map (map sh_ext) y).
Proof. intros KU. induction 1; cbn; constructor; auto. eapply paired_ext_l; eassumption. Qed.
Lemma trunc_paired (i : pid) K U x y : 0 <= K <= U -> paired U x y -> paired K (sh_trunc K x) (sh_trunc K y) /\ joint K (sh_trunc K x) (sh_trunc K y) = joint U x y mod 2 ^ K.
Proof.
  intros KU P. pose proof (sh_trunc_ok K U _ _ KU (paired_fam i _ _ _ P)) as T. apply (fam_paired i) in T. cbv beta in T. rewrite !fam_i, !fam_j in T. exact T.
Qed.
Lemma sub_mod0 c d N : (c - d) mod N = 0 -> c mod N = d mod N.
Proof. intros E. replace c with ((c - d) + d) by ring. rewrite Zplus_mod, E, Z.add_0_l. apply Zmod_mod. Qed.
Lemma trunc_ranged K x : 0 <= K -> ranged K (sh_trunc K x).
Proof. intros HK. split; cbn; apply inr_mod, HK. Qed.

Section D.
  Variables (G : rng) (H : hasher) (i : pid).
  Notation j := (next i).
  Notation ST := (jst G).
  Notation coll := (hash_collision G H).
  Notation synced := (synced2 G).
  Notation clean := (clean G).
  Notation quiet := (quiet G).
  Notation lucky_here := (lucky_here G i).

  (** *** Inner product *)
  Definition dot_rest (p : pid) (K : Z) (x : sac) : M ST share :=
    match x with Sac [a] [a'] [b] cs => dot_sacrifice_check G H p K a a' b cs | _ => failM EOther end.
  Lemma dot_split p K ms ns m a b : (40 <=? verif_width K - K) = true -> gets (areg m) ms = Some a -> gets (areg m) ns = Some b ->
    peqM (dot_sacrifice G H p K a b) (bindM (sacrifice_of G p K (CDot ms ns) m) (dot_rest p K)).
  Proof.
    intros HU EA EB. unfold dot_sacrifice. rewrite HU. cbn [negb sacrifice_of]. rewrite EA, EB. cbn [need].
    change (peqM (bindM (gen_rand_many G (verif_width K) (length (map sh_ext a))) (fun a_ => bindM (aby_dot_many G p (verif_width K) [map sh_ext a; a_] [map sh_ext b; map sh_ext b]) (fun cs => dot_sacrifice_check G H p K (map sh_ext a) a_ (map sh_ext b) cs)))
      (bindM (bindM (gen_rand_many G (verif_width K) (length (map sh_ext a))) (fun a_ => bindM (aby_dot_many G p (verif_width K) [map sh_ext a; a_] [map sh_ext b; map sh_ext b]) (fun cs => retM (Sac [map sh_ext a] [a_] [map sh_ext b] cs)))) (dot_rest p K))).
    eapply peqM_trans; [|apply peqM_sym, peqM_assoc]. apply peqM_bind_r. intros a_.
    eapply peqM_trans; [|apply peqM_sym, peqM_assoc]. apply peqM_bind_r. intros cs. apply peqM_refl.
  Qed.
  Lemma sac_dot_duo K ms ns mi mj xi xj yi yj (s t : ST) : In K widths -> synced s t ->
    gets (areg mi) ms = Some xi -> gets (areg mi) ns = Some yi -> gets (areg mj) ms = Some xj -> gets (areg mj) ns = Some yj ->
    length xi = length yi -> length xj = length xi -> length yj = length yi -> let U := verif_width K in
    duoM i (sacrifice_of G i K (CDot ms ns) mi) (sacrifice_of G j K (CDot ms ns) mj) s t (fun s' x t' y =>
      synced s' t' /\ quiet s s' /\ quiet t t' /\
      exists a a' c0 d0 c1 d1, x = Sac [map sh_ext xi] [a] [map sh_ext yi] [c0; c1] /\ y = Sac [map sh_ext xj] [a'] [map sh_ext yj] [d0; d1] /\
        Forall2 (paired U) a a' /\ length a = length yi /\ length a' = length yi /\ paired U c0 d0 /\ paired U c1 d1).
  Proof.
    intros HK Hs E1 E2 E3 E4 L1 L2 L3 U. pose proof (verif_in K HK) as HU. fold U in HU. assert (HU0 : 0 <= U) by (apply in_widths_pos in HU; lia). cbn [sacrifice_of]. fold U.
    rewrite E1, E2, E3, E4. cbn [need]. do 2 (dbind; apply duoM_ret). rewrite !map_length, L2.
    dbind. apply gen_rand_many_duo; [exact HU0|exact Hs|]. intros s1 a t1 a' Hs1 Q1 Q1' P1 La La'.
    dbind. apply aby_dot_many_duo; [exact HU|exact Hs1|repeat constructor; rewrite ?map_length; congruence|repeat constructor; rewrite ?map_length; congruence|reflexivity|].
    intros s2 cs t2 ds Hs2 Q2 Q2' P4 L4 _.
    inversion P4 as [|c0 d0 cs' ds' P5 P4' E E']; subst; [discriminate|]. inversion P4' as [|c1 d1 cs2 ds2 P6 P4'' E E']; subst; [discriminate|]. inversion P4''; subst; [|discriminate].
    apply duoM_ret. split; [exact Hs2|]. split; [eapply quiet_trans; eassumption|]. split; [eapply quiet_trans; eassumption|].
    exists a, a', c0, d0, c1, d1. split; [reflexivity|]. split; [reflexivity|]. split; [exact P1|]. split; [congruence|]. split; [congruence|]. split; assumption.
  Qed.
  Lemma dot_T K ms ns mi mj xi xj yi yj (s t : ST) : In K widths -> synced s t ->
    gets (areg mi) ms = Some xi -> gets (areg mi) ns = Some yi -> gets (areg mj) ms = Some xj -> gets (areg mj) ns = Some yj ->
    length xj = length xi -> length yj = length yi ->
    (clean s t -> Forall2 (paired K) xi xj) -> (clean s t -> Forall2 (paired K) yi yj) ->
    duoT i (mal_dot G H i K xi yi s) (mal_dot G H j K xj yj t) (fun ti r tj r' =>
      synced (fst r) (fst r') /\ ranged K (snd r) /\ ranged K (snd r') /\
      (coll (fst r) (fst r') \/ lucky_here K (CDot ms ns) mi mj s t ti tj \/
       (clean s t /\ paired K (snd r) (snd r') /\ joint K (snd r) (snd r') = dotp (map2 (joint K) xi xj) (map2 (joint K) yi yj) mod 2 ^ K))).
  Proof.
    intros HK Hs E1 E2 E3 E4 L2 L3 PA PB. pose proof (in_widths_pos K HK) as K0. assert (HK0 : 0 <= K) by lia.
    assert (KU : 0 <= K <= verif_width K) by (split; [exact HK0|apply (PropLemmas5.verif_ge K HK)]).
    unfold mal_dot. destruct (Nat.eqb (length xi) (length yi)) eqn:EL; cbn [negb]; [|apply duoT_fail_l]. destruct (Nat.eqb (length xj) (length yj)) eqn:EL'; cbn [negb]; [|apply duoT_fail_r].
    apply Nat.eqb_eq in EL. clear EL'.
    destruct (40 <=? verif_width K - K) eqn:HV.
    2:{ unfold dot_sacrifice. rewrite HV. apply duoT_fail_l. }
    eapply duoT_peq; [apply (dot_split i K ms ns mi _ _ HV E1 E2)|apply (dot_split j K ms ns mj _ _ HV E3 E4)|].
    eapply duoT_step; [apply (sac_dot_duo K ms ns mi mj xi xj yi yj); assumption|]. cbv zeta. set (U := verif_width K) in *.
    intros ti1 s1 x tj1 t1 y R1 R2 (Hs1 & Q1 & Q1' & a & a' & c0 & d0 & c1 & d1 & -> & -> & P1 & La & La' & P4 & P5).
    unfold dot_rest.
    assert (CC : clean s1 t1 -> clean s t) by apply (quiet_clean _ _ _ _ _ Q1 Q1').
    pose proof (dot_check_gen G H i K (map sh_ext xi) (map sh_ext xj) a a' (map sh_ext yi) (map sh_ext yj) (fam i c0 d0) (joint U c0 d0) (fam i c1 d1) (joint U c1 d1) s1 t1 HK Hs1) as D. cbv zeta in D. fold U in D.
    rewrite !map_length in D.
    specialize (D EL La ltac:(congruence) La' (fun h => proj1 (paired_ext_l K U _ _ KU (PA (CC h)))) P1 (fun h => proj1 (paired_ext_l K U _ _ KU (PB (CC h)))) (paired_fam i _ _ _ P4) (paired_fam i _ _ _ P5)).
    rewrite !fam_i, !fam_j in D.
    eapply duoT_of; [exact D|]. clear D. intros t2 s2 z u2 t2' z' (Hs2 & C2 & -> & -> & OUT). cbn [fst snd].
    split; [exact Hs2|]. split; [apply trunc_ranged, HK0|]. split; [apply trunc_ranged, HK0|].
    destruct OUT as [C|[Hc EQ]]; [left; exact C|]. apply CC in Hc. clear CC.
    destruct (Z.eq_dec ((joint U c0 d0 - dotp (map2 (joint U) (map sh_ext xi) (map sh_ext xj)) (map2 (joint U) (map sh_ext yi) (map sh_ext yj))) mod 2 ^ K) 0) as [E0|E0].
    - right. right. split; [exact Hc|]. destruct (trunc_paired i K U _ _ KU P4) as [T1 T2]. split; [exact T1|]. rewrite T2.
      destruct (paired_ext_l K U _ _ KU (PA Hc)) as [_ EA]. destruct (paired_ext_l K U _ _ KU (PB Hc)) as [_ EB]. rewrite <- EA, <- EB, <- (dotp_mod K U _ _ KU), mod_mod_pow by exact KU.
      apply sub_mod0, E0.
    - right. left. exists ti1, t2, tj1, u2, s1, (Sac [map sh_ext xi] [a] [map sh_ext yi] [c0; c1]), t1, (Sac [map sh_ext xj] [a'] [map sh_ext yj] [d0; d1]), 0%nat.
      split; [reflexivity|]. split; [reflexivity|]. split; [exact R1|]. split; [exact R2|].
      unfold lucky, error0, error1, row_error. cbn [sac_a sac_a' sac_b sac_c nth length Nat.add]. fold U. split; [lia|]. split; [exact E0|exact EQ].
  Qed.

  (** *** Inner products *)
  Definition dot_many_rest (p : pid) (K : Z) (x : sac) : M ST (list share) :=
    dot_sacrifice_check_many G H p K (length (sac_a x)) (sac_a x) (sac_a' x) (sac_b x) (sac_c x).
  Lemma dot_many_split p K ms ns m a b : (40 <=? verif_width K - K) = true -> getss (areg m) ms = Some a -> getss (areg m) ns = Some b ->
    peqM (dot_sacrifice_many G H p K a b) (bindM (sacrifice_of G p K (CDotMany ms ns) m) (dot_many_rest p K)).
  Proof.
    intros HU EA EB. unfold dot_sacrifice_many. rewrite HU. cbn [negb sacrifice_of]. rewrite EA, EB. cbn [need].
    set (U := verif_width K). set (a1 := map (map sh_ext) a). set (b1 := map (map sh_ext) b).
    change (peqM (bindM (mapM (fun b => gen_rand_many G U (length b)) b1) (fun a_ => bindM (aby_dot_many G p U (a1 ++ a_) (b1 ++ b1)) (fun cs => dot_sacrifice_check_many G H p K (length a) a1 a_ b1 cs)))
      (bindM (bindM (mapM (fun b => gen_rand_many G U (length b)) b1) (fun a_ => bindM (aby_dot_many G p U (a1 ++ a_) (b1 ++ b1)) (fun cs => retM (Sac a1 a_ b1 cs)))) (dot_many_rest p K))).
    eapply peqM_trans; [|apply peqM_sym, peqM_assoc]. apply peqM_bind_r. intros a_.
    eapply peqM_trans; [|apply peqM_sym, peqM_assoc]. apply peqM_bind_r. intros cs.
    replace (length a) with (length a1) by apply map_length. apply peqM_refl.
  Qed.
  Notation same_len := (Forall2 (fun x y => length x = length y)).
  Lemma same_len_ext (x y : list (list share)) : same_len x y -> same_len (map (map sh_ext) x) (map (map sh_ext) y).
  Proof. induction 1; cbn; constructor; rewrite ?map_length; auto. Qed.
  Lemma same_len_trans {A B C} (x : list (list A)) (y : list (list B)) (z : list (list C)) : same_len x y -> same_len y z -> same_len x z.
  Proof. intros F. revert z. induction F; intros z F'; inversion F'; subst; constructor; [congruence|auto]. Qed.
  Lemma same_len_sym {A B} (x : list (list A)) (y : list (list B)) : same_len x y -> same_len y x.
  Proof. induction 1; constructor; auto. Qed.
  Lemma sac_dot_many_duo K ms ns mi mj xi xj yi yj (s t : ST) : In K widths -> synced s t ->
    getss (areg mi) ms = Some xi -> getss (areg mi) ns = Some yi -> getss (areg mj) ms = Some xj -> getss (areg mj) ns = Some yj ->
    same_len xi yi -> same_len xj yj -> same_len yi yj -> let U := verif_width K in
    duoM i (sacrifice_of G i K (CDotMany ms ns) mi) (sacrifice_of G j K (CDotMany ms ns) mj) s t (fun s' x t' y =>
      synced s' t' /\ quiet s s' /\ quiet t t' /\
      exists a a' cs ds, x = Sac (map (map sh_ext) xi) a (map (map sh_ext) yi) cs /\ y = Sac (map (map sh_ext) xj) a' (map (map sh_ext) yj) ds /\
        Forall2 (Forall2 (paired U)) a a' /\ same_len a (map (map sh_ext) yi) /\ same_len a' (map (map sh_ext) yi) /\ Forall2 (paired U) cs ds /\ length cs = (length yi + length yi)%nat).
  Proof.
    intros HK Hs E1 E2 E3 E4 L1 L2 L3 U. pose proof (verif_in K HK) as HU. fold U in HU. assert (HU0 : 0 <= U) by (apply in_widths_pos in HU; lia). cbn [sacrifice_of]. fold U.
    rewrite E1, E2, E3, E4. cbn [need]. do 2 (dbind; apply duoM_ret).
    dbind. apply gen_rows_duo; [exact HU0|apply same_len_ext, L3|exact Hs|]. intros s1 a t1 a' Hs1 Q1 Q1' P1 La La'.
    assert (N1 : length xi = length yi) by (eapply Forall2_len; eassumption). assert (N2 : length a = length yi) by (rewrite <- (map_length (map sh_ext) yi); eapply Forall2_len; exact La).
    assert (N3 : length xj = length xi) by (rewrite N1; transitivity (length yj); [eapply Forall2_len; eassumption|symmetry; eapply Forall2_len; eassumption]).
    assert (N4 : length a' = length yi) by (rewrite <- (map_length (map sh_ext) yi); eapply Forall2_len; exact La').
    dbind. apply aby_dot_many_duo; [exact HU|exact Hs1|apply Forall2_app; [apply same_len_ext, L1|exact La]| |rewrite !app_length, !map_length; congruence|].
    { apply Forall2_app; [apply same_len_ext, L2|]. eapply same_len_trans; [exact La'|apply same_len_ext, L3]. }
    intros s2 cs t2 ds Hs2 Q2 Q2' P4 L4 _. rewrite app_length, map_length, N1, N2 in L4.
    apply duoM_ret. split; [exact Hs2|]. split; [eapply quiet_trans; eassumption|]. split; [eapply quiet_trans; eassumption|].
    exists a, a', cs, ds. auto 10.
  Qed.
  Lemma map_dotp_ext K U xi xj yi yj n : 0 <= K <= U -> Forall2 (Forall2 (paired K)) xi xj -> Forall2 (Forall2 (paired K)) yi yj -> length xi = length yi -> (n < length xi)%nat ->
    nth n (map2 (fun x y => dotp x y mod 2 ^ K) (map2 (map2 (joint K)) xi xj) (map2 (map2 (joint K)) yi yj)) 0 =
    dotp (map2 (joint U) (nth n (map (map sh_ext) xi) []) (nth n (map (map sh_ext) xj) [])) (map2 (joint U) (nth n (map (map sh_ext) yi) []) (nth n (map (map sh_ext) yj) [])) mod 2 ^ K.
  Proof.
    intros KU PA. revert yi yj n. induction PA as [|x x' xi xj P PA IH]; intros yi yj n PB L N; [cbn in N; lia|].
    inversion PB as [|y y' yi' yj' P' PB' E E']; subst; [discriminate|]. destruct n as [|n]; cbn [map map2 nth].
    - destruct (paired_ext_l K U _ _ KU P) as [_ EA]. destruct (paired_ext_l K U _ _ KU P') as [_ EB]. rewrite <- EA, <- EB, <- (dotp_mod K U _ _ KU), mod_mod_pow by exact KU. reflexivity.
    - apply IH; [exact PB'|cbn in L; congruence|cbn in N; lia].
  Qed.
  Lemma nth_error_map2 {A B C} (f : A -> B -> C) a b n da db : length a = length b -> (n < length a)%nat -> nth_error (map2 f a b) n = Some (f (nth n a da) (nth n b db)).
  Proof. revert b n. induction a as [|x a IH]; intros [|y b] [|n] L N; cbn in *; try lia; try reflexivity. apply IH; lia. Qed.

  Lemma dot_many_T K ms ns mi mj xi xj yi yj (s t : ST) : In K widths -> synced s t ->
    getss (areg mi) ms = Some xi -> getss (areg mi) ns = Some yi -> getss (areg mj) ms = Some xj -> getss (areg mj) ns = Some yj ->
    same_len xi yi -> same_len xj yj -> same_len yi yj ->
    (clean s t -> Forall2 (Forall2 (paired K)) xi xj) -> (clean s t -> Forall2 (Forall2 (paired K)) yi yj) ->
    duoT i (mal_dot_many G H i K xi yi s) (mal_dot_many G H j K xj yj t) (fun ti r tj r' =>
      synced (fst r) (fst r') /\ Forall (ranged K) (snd r) /\ Forall (ranged K) (snd r') /\ length (snd r) = length xi /\ length (snd r') = length xi /\
      (coll (fst r) (fst r') \/ lucky_here K (CDotMany ms ns) mi mj s t ti tj \/
       (clean s t /\ Forall2 (paired K) (snd r) (snd r') /\ map2 (joint K) (snd r) (snd r') = map2 (fun x y => dotp x y mod 2 ^ K) (map2 (map2 (joint K)) xi xj) (map2 (map2 (joint K)) yi yj)))).
  Proof.
    intros HK Hs E1 E2 E3 E4 L1 L2 L3 PA PB. pose proof (in_widths_pos K HK) as K0. assert (HK0 : 0 <= K) by lia.
    assert (KU : 0 <= K <= verif_width K) by (split; [exact HK0|apply (PropLemmas5.verif_ge K HK)]).
    assert (N1 : length xi = length yi) by (eapply Forall2_len; eassumption). assert (N2 : length xj = length yj) by (eapply Forall2_len; eassumption). assert (N3 : length yi = length yj) by (eapply Forall2_len; eassumption).
    unfold mal_dot_many. rewrite N1, N2, !Nat.eqb_refl. cbn [negb].
    destruct (40 <=? verif_width K - K) eqn:HV.
    2:{ unfold dot_sacrifice_many. rewrite HV. apply duoT_fail_l. }
    eapply duoT_peq; [apply (dot_many_split i K ms ns mi _ _ HV E1 E2)|apply (dot_many_split j K ms ns mj _ _ HV E3 E4)|].
    eapply duoT_step; [apply (sac_dot_many_duo K ms ns mi mj xi xj yi yj); assumption|]. cbv zeta. set (U := verif_width K) in *.
    intros ti1 s1 x tj1 t1 y R1 R2 (Hs1 & Q1 & Q1' & a & a' & cs & ds & -> & -> & P1 & La & La' & P4 & Lc).
    unfold dot_many_rest. cbn [sac_a sac_a' sac_b sac_c].
    assert (CC : clean s1 t1 -> clean s t) by apply (quiet_clean _ _ _ _ _ Q1 Q1').
    assert (Ld : length ds = (length yi + length yi)%nat) by (rewrite <- Lc; symmetry; eapply Forall2_len; exact P4).
    set (c := map2 (joint U) cs ds). assert (Lcc : length c = (length yi + length yi)%nat) by (unfold c; rewrite map2_length_eq; congruence).
    pose proof (rows_fam_RL i U cs ds P4) as RC. fold c in RC. rewrite <- (firstn_skipn (length yi) c) in RC.
    assert (LB : length (map (map sh_ext) yi) = length yi) by apply map_length.
    pose proof (dot_check_many_gen G H i K (map (map sh_ext) xi) (map (map sh_ext) xj) a a' (map (map sh_ext) yi) (map (map sh_ext) yj) (rows_fam i cs ds) (firstn (length yi) c) (skipn (length yi) c) s1 t1 HK Hs1) as D. cbv zeta in D. fold U in D.
    specialize (D (same_len_ext _ _ L1) La (same_len_ext _ _ (same_len_trans _ _ _ L2 (same_len_sym _ _ L3))) La' ltac:(rewrite LB, firstn_length; lia) ltac:(rewrite LB, skipn_length; lia)
      (fun h => paired_ext_t K U _ _ KU (PA (CC h))) P1 (fun h => paired_ext_t K U _ _ KU (PB (CC h))) RC).
    rewrite rows_fam_i, rows_fam_j, LB in D. rewrite !map_length, N2, <- N3, N1.
    eapply duoT_of; [exact D|]. clear D. intros t2 s2 z u2 t2' z' (Hs2 & C2 & -> & -> & OUT). cbn [fst snd].
    assert (TR : forall l, Forall (ranged K) (map (sh_trunc K) l)) by (intros l; apply Forall_map, Forall_forall; intros w _; apply trunc_ranged, HK0).
    split; [exact Hs2|]. split; [apply TR|]. split; [apply TR|]. split; [rewrite map_length, firstn_length; lia|]. split; [rewrite map_length, firstn_length; lia|].
    destruct OUT as [C|[Hc EQ]]; [left; exact C|]. apply CC in Hc. clear CC. specialize (PA Hc). specialize (PB Hc).
    set (X := Sac (map (map sh_ext) xi) a (map (map sh_ext) yi) cs) in *. set (Y := Sac (map (map sh_ext) xj) a' (map (map sh_ext) yj) ds) in *.
    destruct (Forall_Exists_dec (fun n => error0 U X Y n mod 2 ^ K = 0) (fun n => Z.eq_dec _ _) (seq 0 (length yi))) as [F|F].
    - right. right. split; [exact Hc|].
      assert (PT : Forall2 (paired K) (map (sh_trunc K) (firstn (length yi) cs)) (map (sh_trunc K) (firstn (length yi) ds)) /\
        map2 (joint K) (map (sh_trunc K) (firstn (length yi) cs)) (map (sh_trunc K) (firstn (length yi) ds)) = map (fun x => x mod 2 ^ K) (firstn (length yi) c)).
      { unfold c. clear -i P4 KU. generalize (length yi). induction P4 as [|u v cs ds P P4 IH]; intros [|n]; cbn; try (split; [constructor|reflexivity]).
        destruct (trunc_paired i K U u v KU P) as [T1 T2]. destruct (IH n) as [I1 I2]. split; [constructor; assumption|]. rewrite T2, I2. reflexivity. }
      destruct PT as [PT1 PT2]. split; [exact PT1|]. rewrite PT2.
      assert (LL : forall (p q : list (list share)), Forall2 (Forall2 (paired K)) p q -> length (map2 (map2 (joint K)) p q) = length p) by (intros p q HH; apply map2_length_eq; eapply Forall2_len; exact HH).
      apply (nth_ext _ _ 0 0). { rewrite map_length, firstn_length, map2_length_eq; rewrite !LL by assumption; lia. }
      intros n Hn. rewrite map_length, firstn_length in Hn. assert (Hn' : (n < length yi)%nat) by lia.
      rewrite (map_dotp_ext K U) by (try assumption; lia).
      rewrite Forall_forall in F. assert (HF : error0 U X Y n mod 2 ^ K = 0) by (apply F, in_seq; lia). clear F.
      unfold error0, row_error, X, Y in HF. cbn [sac_a sac_b sac_c] in HF.
      rewrite (nth_indep _ 0 (0 mod 2 ^ K)) by (rewrite map_length, firstn_length; exact Hn). rewrite (map_nth (fun x => x mod 2 ^ K)).
      assert (EN : nth n (firstn (length yi) c) 0 = joint U (nth n cs szero) (nth n ds szero)).
      { rewrite <- (nth_map2 (joint U) cs ds n szero szero 0) by lia. fold c. rewrite <- (firstn_skipn (length yi) c) at 2. rewrite app_nth1; [reflexivity|rewrite firstn_length; lia]. }
      rewrite EN. apply sub_mod0, HF.
    - right. left. apply Exists_exists in F. destruct F as (n & In & NE). apply in_seq in In.
      exists ti1, t2, tj1, u2, s1, X, t1, Y, n.
      split; [reflexivity|]. split; [reflexivity|]. split; [exact R1|]. split; [exact R2|].
      assert (LX : length (sac_b X) = length yi) by apply map_length.
      split; [rewrite LX; lia|]. split; [exact NE|].
      unfold error0, error1, row_error. rewrite LX. cbn [sac_a sac_a' sac_b sac_c X Y].
      assert (A1 : length a = length yi) by (rewrite <- LB; eapply Forall2_len; exact La). assert (A2 : length a' = length yi) by (rewrite <- LB; eapply Forall2_len; exact La').
      specialize (EQ n (map2 (joint U) (nth n (map (map sh_ext) xi) []) (nth n (map (map sh_ext) xj) [])) (map2 (joint U) (nth n a []) (nth n a' [])) (map2 (joint U) (nth n (map (map sh_ext) yi) []) (nth n (map (map sh_ext) yj) []))
        (joint U (nth n cs szero) (nth n ds szero)) (joint U (nth (length yi + n) cs szero) (nth (length yi + n) ds szero))).
      apply EQ; clear EQ.
      + apply nth_error_map2; rewrite !map_length; lia.
      + apply nth_error_map2; lia.
      + apply nth_error_map2; rewrite !map_length; lia.
      + rewrite <- (nth_error_app1 _ (skipn (length yi) c)) by (rewrite firstn_length; lia). rewrite firstn_skipn. apply nth_error_map2; lia.
      + rewrite <- (nth_error_map2 (joint U) cs ds (length yi + n) szero szero) by lia. fold c. rewrite <- (firstn_skipn (length yi) c) at 2. rewrite nth_error_app2 by (rewrite firstn_length; lia). f_equal. rewrite firstn_length. lia.
  Qed.

  (** *** Openings *)
  Lemma open_T K x y (s t : ST) : In K widths -> synced s t -> ranged K x -> ranged K y -> (clean s t -> paired K x y) ->
    duoM i (mal_open G H i K x) (mal_open G H j K y) s t (fun s' u t' v => synced s' t' /\
      (coll s' t' \/ (clean s t /\ u = joint K x y /\ v = joint K x y))).
  Proof.
    intros HK Hs RX RY P. pose proof (in_widths_pos K HK) as K0. assert (HK0 : 0 <= K) by lia. unfold mal_open.
    dbind. apply jmp_verify_duo. intros V1. dbind. apply jsr_duo; [exact HK|apply RX|]. intros c Hc. dbind. apply jmp_verify_duo. cbn [verified j_prf j_rcv j_snd j_log app]. intros V2.
    apply duoM_ret. split; [exact Hs|].
    destruct V1 as [C1|C1]; [|left; eapply coll_grows; [exact C1|reflexivity|reflexivity]].
    destruct V2 as [C2|C2]; [|left; exact C2]. right. split; [exact C1|]. destruct (P C1) as (_ & _ & E).
    apply bts_inj in C2; [|exact HK|reflexivity|repeat constructor; apply Hc|repeat constructor; apply RY].
    injection C2 as ->. unfold joint. split; [unfold radd, norm; modring|]. rewrite E. unfold radd, norm. modring.
  Qed.
  Lemma open_many_T K xs ys (s t : ST) : In K widths -> synced s t -> Forall (ranged K) xs -> Forall (ranged K) ys -> length xs = length ys -> (clean s t -> Forall2 (paired K) xs ys) ->
    duoM i (mal_open_many G H i K xs) (mal_open_many G H j K ys) s t (fun s' u t' v => synced s' t' /\
      (coll s' t' \/ (clean s t /\ u = map2 (joint K) xs ys /\ v = map2 (joint K) xs ys))).
  Proof.
    intros HK Hs RX RY L P. pose proof (in_widths_pos K HK) as K0. assert (HK0 : 0 <= K) by lia. unfold mal_open_many.
    destruct (ranged_cols _ _ RX) as [X1 X2]. destruct (ranged_cols _ _ RY) as [Y1 Y2].
    dbind. apply jmp_verify_duo. intros V1. dbind. apply jsrm_duo; [exact HK|exact X2|rewrite !map_length; exact L|]. intros c Hc Lc. rewrite map_length in Lc. dbind. apply jmp_verify_duo. cbn [verified j_prf j_rcv j_snd j_log app]. intros V2.
    apply duoM_ret. split; [exact Hs|].
    destruct V1 as [C1|C1]; [|left; eapply coll_grows; [exact C1|reflexivity|reflexivity]].
    destruct V2 as [C2|C2]; [|left; exact C2]. right. split; [exact C1|].
    apply bts_inj in C2; [|exact HK|rewrite map_length; congruence|exact Hc|exact Y1]. subst c.
    pose proof (open_of_RL i K _ _ (rows_fam_RL i K _ _ (P C1))) as O. rewrite rows_fam_i, rows_fam_j in O. exact O.
  Qed.
End D.
