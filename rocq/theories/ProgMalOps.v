(** The sacrifices of malicious ABY3 run by two honest parties on values that may still be unverified. *)
From Verif Require Import Base Ring RingProofs Prog Sched Conc Rng Rel Net BitArith BinProofs AddProofs IrisProofs MpcSpec Aby3 ShareSpec Aby3Proofs Aby3Proofs2 SlicedProofs Jmp JmpProofs Session SessionProofs
  Aby3Mal Aby3MalProofs SacrificeProofs PropLemmas PropLemmas2 SpecProofs Duo DuoProofs MacSpec MacProofs Client ProgMalSpec ProgMalDuo.
From Coq Require Import ZifyBool ZifyNat.

Section D.
  Variables (G : rng) (H : hasher) (i : pid).
  Notation j := (next i).
  Notation ST := (jst G).
  Notation coll := (hash_collision G H).
  Notation synced := (synced2 G).
  Notation clean := (clean G).
  Notation bts K l := (wire (map (pair K) l)).

  Definition opened_i U (xs ys : list share) : list Z := map2 (fun s c => radd U (radd U c (sa s)) (sb s)) xs (map sa ys).
  Definition opened_j U (xs ys : list share) : list Z := map2 (fun s c => radd U (radd U c (sa s)) (sb s)) ys (map sb xs).
  Lemma ranged_cols U xs : Forall (ranged U) xs -> Forall (inr U) (map sa xs) /\ Forall (inr U) (map sb xs).
  Proof. intros F. rewrite !Forall_map. split; (eapply Forall_impl; [|exact F]); intros ? []; assumption. Qed.
  Lemma open_of_RL U X xs : RL (arith_shared U) X xs -> opened_i U (X i) (X j) = xs /\ opened_j U (X i) (X j) = xs.
  Proof.
    intros HX. pose proof (open_cols_a U _ _ HX i) as Oi. pose proof (open_cols_a U _ _ HX j) as Oj. destruct (arel_cols U _ _ HX) as (J1 & J2 & J3).
    replace (prev j) with i in Oj by (destruct i; reflexivity).
    replace (map sb (X (prev i))) with (map sa (X j)) in Oi by (rewrite J2; destruct i; reflexivity). split; assumption.
  Qed.

  (** Opening without verification, as in mul. *)
  Lemma reconstruct_many_duo U xs ys (s t : ST) (Q : ST -> list Z -> ST -> list Z -> Prop) :
    In U widths -> Forall (ranged U) xs -> Forall (ranged U) ys -> length xs = length ys ->
    (forall c s' t', j_prf G s' = j_prf G s -> j_prf G t' = j_prf G t -> j_log G s' = j_log G s -> j_log G t' = j_log G t ->
       length c = length xs -> (clean s' t' -> clean s t /\ c = map sa ys) ->
       Q s' (map2 (fun s c => radd U (radd U c (sa s)) (sb s)) xs c) t' (opened_j U xs ys)) ->
    duoM i (reconstruct_many G i U xs) (reconstruct_many G j U ys) s t Q.
  Proof.
    intros HU Fx Fy L HQ. unfold reconstruct_many. apply duoM_bind. destruct (ranged_cols _ _ Fx) as [X1 X2]. destruct (ranged_cols _ _ Fy) as [Y1 Y2].
    apply jsrm_duo; [exact HU|exact X2|rewrite !map_length; exact L|]. intros c Fc Lc. rewrite map_length in Lc. apply duoM_ret.
    apply HQ; try reflexivity; [exact Lc|]. unfold ProgMalDuo.clean. cbn [j_rcv j_snd]. intros E.
    apply app_inj_len_r in E; [|apply bts_len; rewrite map_length; congruence]. destruct E as [E E2]. split; [exact E|].
    apply bts_inj in E2; [exact E2|exact HU|rewrite map_length; congruence|exact Fc|exact Y1].
  Qed.

  Lemma clean_hashed l l' s t : clean s t -> clean (j_hashed G l s) (j_hashed G l' t).
  Proof. exact (fun x => x). Qed.
  Lemma clean_verified s t : clean (verified G s) (verified G t).
  Proof. reflexivity. Qed.

  (** *** Coin, opening of values that depend on the coin, verification *)
  Lemma sac_open_gen {R} U (Oi Oj : Z -> list share) n (f g : Z -> list Z -> M ST R) (s t : ST) Q :
    In U widths -> synced s t -> (forall r, Forall (ranged U) (Oi r) /\ length (Oi r) = n) -> (forall r, Forall (ranged U) (Oj r) /\ length (Oj r) = n) ->
    (forall s' t', synced s' t' -> clean s' t' -> clean s t -> let r := challenge G U (duo_seed G s t) in
       duoM i (f r (opened_i U (Oi r) (Oj r))) (g r (opened_j U (Oi r) (Oj r))) s' t' Q) ->
    (forall s' t' r r' v v', synced s' t' -> clean s' t' -> coll s' t' -> duoM i (f r v) (g r' v') s' t' Q) ->
    duoM i (bindM (coin G i) (fun seed => bindM (reconstruct_many G i U (Oi (challenge G U seed))) (fun v => bindM (jmp_verify G H i) (fun _ => f (challenge G U seed) v))))
           (bindM (coin G j) (fun seed => bindM (reconstruct_many G j U (Oj (challenge G U seed))) (fun v => bindM (jmp_verify G H j) (fun _ => g (challenge G U seed) v)))) s t Q.
  Proof.
    intros HU Hs HI HJ HF HFc. dbind. apply coin_duo; [exact Hs|]. intros c di dj dk s1 t1 Fc Lc Edj Edk Edi Hs1 R1 S1.
    assert (Eseed : duo_seed G s t = xor3 di dj dk) by (unfold duo_seed; subst; reflexivity).
    assert (Ldj : length dj = 32%nat) by (subst; apply draw_length). assert (Fdj : Forall (inr 8) dj) by (subst; apply draw_bytes_range).
    set (rj := challenge G U (xor3 di dj dk)). set (ri := challenge G U (xor3 di c dk)).
    destruct (HI ri) as [I1 I2]. destruct (HJ rj) as [J1 J2].
    dbind. apply reconstruct_many_duo; [exact HU|exact I1|exact J1|congruence|].
    intros cv s2 t2 P1 P2 _ _ Lcv HC. dbind. apply jmp_verify_duo.
    assert (Hs2 : synced (verified G s2) (verified G t2)) by (unfold synced2, verified; cbn [j_prf]; rewrite P1, P2; exact Hs1).
    intros [EH|HCC]; [|apply HFc; [exact Hs2|apply clean_verified|exact HCC]].
    destruct (HC EH) as [C1 ->]. unfold ProgMalDuo.clean in C1. rewrite R1, S1 in C1.
    apply app_inj_len_r in C1; [|apply bts_len; congruence]. destruct C1 as [C0 E1].
    apply bts_inj in E1; [|right; left; reflexivity|congruence|assumption..]. subst c. change ri with rj in *. clear ri.
    specialize (HF (verified G s2) (verified G t2) Hs2 (clean_verified s2 t2) C0). cbv zeta in HF. rewrite Eseed in HF. exact HF.
  Qed.

  Lemma ranged_sac U r xs ys : 0 <= U -> Forall (ranged U) (map2 (fun x y => sh_sub U (sh_mulc U x r) y) xs ys).
  Proof.
    intros HU. revert ys. induction xs as [|x xs IH]; intros [|y ys]; cbn; constructor; [|apply IH].
    split; cbn; apply inr_mod; exact HU.
  Qed.

  Lemma dot_check_gen K (Ai Aj A'i A'j Bi Bj : list share) C0 c0 C1 c1 (s t : ST) : In K widths -> synced s t ->
    let U := verif_width K in
    length Ai = length Bi -> length A'i = length Bi -> length Aj = length Bi -> length A'j = length Bi ->
    (clean s t -> Forall2 (paired U) Ai Aj) -> Forall2 (paired U) A'i A'j -> (clean s t -> Forall2 (paired U) Bi Bj) ->
    arith_shared U C0 c0 -> arith_shared U C1 c1 ->
    duoM i (dot_sacrifice_check G H i K Ai A'i Bi [C0 i; C1 i]) (dot_sacrifice_check G H j K Aj A'j Bj [C0 j; C1 j]) s t
      (fun s' x t' y => synced s' t' /\ clean s' t' /\ x = sh_trunc K (C0 i) /\ y = sh_trunc K (C0 j) /\
         (coll s' t' \/ (clean s t /\ ((c1 - dotp (map2 (joint U) A'i A'j) (map2 (joint U) Bi Bj)) - challenge G U (duo_seed G s t) * (c0 - dotp (map2 (joint U) Ai Aj) (map2 (joint U) Bi Bj))) mod 2 ^ U = 0))).
  Proof.
    intros HK Hs U La La' Laj Laj' PA PA' PB HC0 HC1. pose proof (verif_in K HK) as HU. fold U in HU. assert (HU0 : 0 <= U) by (apply in_widths_pos in HU; lia).
    unfold dot_sacrifice_check. fold U.
    apply (sac_open_gen U (fun r => map2 (fun x y => sh_sub U (sh_mulc U x r) y) Ai A'i) (fun r => map2 (fun x y => sh_sub U (sh_mulc U x r) y) Aj A'j) (length Bi)
      (fun r v => bindM (resM (index [C0 i; C1 i] 0)) (fun c0 => bindM (resM (index [C0 i; C1 i] 1)) (fun c1 => bindM (zero_verify G H i U [dot_check U r v Bi c0 c1]) (fun _ => retM (sh_trunc K c0)))))
      (fun r v => bindM (resM (index [C0 j; C1 j] 0)) (fun c0 => bindM (resM (index [C0 j; C1 j] 1)) (fun c1 => bindM (zero_verify G H j U [dot_check U r v Bj c0 c1]) (fun _ => retM (sh_trunc K c0)))))); auto.
    - intros r. split; [apply ranged_sac, HU0|]. rewrite map2_length_eq; congruence.
    - intros r. split; [apply ranged_sac, HU0|]. rewrite map2_length_eq; congruence.
    - intros s' t' Hs' Hc' Hc. cbv zeta. set (r := challenge G U (duo_seed G s t)). dbind. apply duoM_res. cbn. intros ? ? E E'. injection E as <-. injection E' as <-.
      dbind. apply duoM_res. cbn. intros ? ? E E'. injection E as <-. injection E' as <-.
      specialize (PA Hc). specialize (PB Hc).
      pose proof (rows_fam_RL i U _ _ PA) as HA. pose proof (rows_fam_RL i U _ _ PA') as HA'. pose proof (rows_fam_RL i U _ _ PB) as HB.
      set (a := map2 (joint U) Ai Aj) in *. set (a' := map2 (joint U) A'i A'j) in *. set (b := map2 (joint U) Bi Bj) in *.
      assert (HO : RL (arith_shared U) (fun p => map2 (fun x y => sh_sub U (sh_mulc U x r) y) (rows_fam i Ai Aj p) (rows_fam i A'i A'j p)) (sac_open U r a a')).
      { apply (RL_map2 (arith_shared U) (arith_shared U) (arith_shared U) (fun _ x y => sh_sub U (sh_mulc U x r) y)); auto.
        intros V y V' y' HV HV'. apply (sh_sub_ok U HU0); [|exact HV']. apply (sh_mulc_ok U HU0), HV. }
      apply open_of_RL in HO. rewrite !rows_fam_i, !rows_fam_j in HO. destruct HO as [-> ->].
      assert (Lab : length a = length b). { rewrite <- (RL_length _ _ _ HA i), <- (RL_length _ _ _ HB i), !rows_fam_i. exact La. }
      assert (Lab' : length a' = length b). { rewrite <- (RL_length _ _ _ HA' i), <- (RL_length _ _ _ HB i), !rows_fam_i. exact La'. }
      dbind. apply zero_verify_duo. cbv zeta. intros [EH|HCC]; apply duoM_ret; (split; [exact Hs'|]); (split; [exact Hc'|]); (split; [reflexivity|]); (split; [reflexivity|]); [right|left; exact HCC].
      split; [exact Hc|]. set (v := sac_open U r a a') in *.
      assert (M : forall X x y, arith_shared U X x -> (y = x) -> arith_shared U X (y mod 2 ^ U)).
      { intros X x y HX ->. pose proof HX as (X1 & X2 & ->). split; [exact X1|]. split; [exact X2|]. rewrite Zmod_mod. reflexivity. }
      assert (HW : arith_shared U (fun p => dot_check U r v (rows_fam i Bi Bj p) (C0 p) (C1 p)) ((c1 - dotp a' b - r * (c0 - dotp a b)) mod 2 ^ U)).
      { apply (dot_check_value U r a a' b (c0 - dotp a b) (c1 - dotp a' b) (fun _ => v) (rows_fam i Bi Bj) C0 C1 HU0 Lab Lab'); [|exact HB|eapply M; [exact HC0|ring]|eapply M; [exact HC1|ring]].
        intros _. unfold v, sac_open. clear. clearbody a a'. revert a'. induction a as [|x a IH]; intros [|y a']; cbn; try reflexivity. rewrite IH. f_equal. modring. }
      pose proof (zero_rows i U (fun p => [dot_check U r v (rows_fam i Bi Bj p) (C0 p) (C1 p)]) _ HU (RL_cons' _ _ _ _ _ HW (RL_nil' _))) as Z0.
      cbv beta in Z0. rewrite rows_fam_i, rows_fam_j in Z0. specialize (Z0 EH). inversion Z0; assumption.
    - intros s' t' ri rj vi vj Hs' Hc' HCC. dbind. apply duoM_res. cbn. intros ? ? E E'. injection E as <-. injection E' as <-.
      dbind. apply duoM_res. cbn. intros ? ? E E'. injection E as <-. injection E' as <-.
      dbind. apply zero_verify_duo. intros ? ? _. apply duoM_ret. split; [exact Hs'|]. split; [exact Hc'|]. split; [reflexivity|]. split; [reflexivity|]. left. apply coll_hashed, HCC.
  Qed.

  Lemma concat_len {A B C D} (f : A -> B -> C) a a' (b : list (list D)) : Forall2 (fun x y => length x = length y) a b -> Forall2 (fun x y => length x = length y) a' b ->
    length (concat (map2 (map2 f) a a')) = length (concat b).
  Proof.
    intros La. revert a'. induction La as [|x y a b E La IH]; intros a' La'; inversion La'; subst; cbn; [reflexivity|].
    rewrite !app_length, IH by assumption. rewrite map2_length_eq; congruence.
  Qed.
  Lemma ranged_concat U r a a' : 0 <= U -> Forall (ranged U) (concat (map2 (map2 (fun x y => sh_sub U (sh_mulc U x r) y)) a a')).
  Proof.
    intros HU. revert a'. induction a as [|x a IH]; intros [|y a']; cbn; try constructor. apply Forall_app. split; [apply ranged_sac, HU|apply IH].
  Qed.
  Lemma tbl_lens U (Ai Aj Bi Bj : list (list share)) : Forall2 (fun x y => length x = length y) Ai Bi ->
    Forall2 (Forall2 (paired U)) Ai Aj -> Forall2 (Forall2 (paired U)) Bi Bj ->
    Forall2 (fun x y => length x = length y) (map2 (map2 (joint U)) Ai Aj) (map2 (map2 (joint U)) Bi Bj).
  Proof.
    intros L. revert Aj Bj. induction L as [|x y Ai Bi E L IH]; intros Aj Bj PA PB; inversion PA; subst; inversion PB; subst; cbn; constructor; [|apply IH; assumption].
    rewrite !map2_length_eq; [exact E|eapply Forall2_len; eassumption..].
  Qed.
  Lemma dot_check_many_gen K (Ai Aj A'i A'j Bi Bj : list (list share)) C c0 c1 (s t : ST) : In K widths -> synced s t ->
    let U := verif_width K in
    Forall2 (fun x y => length x = length y) Ai Bi -> Forall2 (fun x y => length x = length y) A'i Bi ->
    Forall2 (fun x y => length x = length y) Aj Bi -> Forall2 (fun x y => length x = length y) A'j Bi ->
    length c0 = length Bi -> length c1 = length Bi ->
    (clean s t -> Forall2 (Forall2 (paired U)) Ai Aj) -> Forall2 (Forall2 (paired U)) A'i A'j -> (clean s t -> Forall2 (Forall2 (paired U)) Bi Bj) ->
    RL (arith_shared U) C (c0 ++ c1) ->
    duoM i (dot_sacrifice_check_many G H i K (length Bi) Ai A'i Bi (C i)) (dot_sacrifice_check_many G H j K (length Bi) Aj A'j Bj (C j)) s t
      (fun s' x t' y => synced s' t' /\ clean s' t' /\
         x = map (sh_trunc K) (firstn (length Bi) (C i)) /\ y = map (sh_trunc K) (firstn (length Bi) (C j)) /\
         (coll s' t' \/ (clean s t /\ forall n x x' y z z', nth_error (map2 (map2 (joint U)) Ai Aj) n = Some x -> nth_error (map2 (map2 (joint U)) A'i A'j) n = Some x' ->
           nth_error (map2 (map2 (joint U)) Bi Bj) n = Some y ->
           nth_error c0 n = Some z -> nth_error c1 n = Some z' -> ((z' - dotp x' y) - challenge G U (duo_seed G s t) * (z - dotp x y)) mod 2 ^ U = 0))).
  Proof.
    intros HK Hs U La La' Laj Laj' L0 L1 PA PA' PB HC. pose proof (verif_in K HK) as HU. fold U in HU. assert (HU0 : 0 <= U) by (apply in_widths_pos in HU; lia).
    pose proof (RL_firstn_app _ _ _ _ HC) as [HC0 HC1]. rewrite L0 in HC0, HC1.
    set (len := length Bi) in *.
    unfold dot_sacrifice_check_many. fold U.
    apply (sac_open_gen U (fun r => concat (map2 (map2 (fun x y => sh_sub U (sh_mulc U x r) y)) Ai A'i)) (fun r => concat (map2 (map2 (fun x y => sh_sub U (sh_mulc U x r) y)) Aj A'j)) (length (concat Bi))
      (fun r v => bindM (zero_verify G H i U (sacrifice_rows U r Bi (combine (firstn len (C i)) (skipn len (C i))) v)) (fun _ => retM (map (sh_trunc K) (firstn len (C i)))))
      (fun r v => bindM (zero_verify G H j U (sacrifice_rows U r Bj (combine (firstn len (C j)) (skipn len (C j))) v)) (fun _ => retM (map (sh_trunc K) (firstn len (C j)))))); auto.
    - intros r. split; [apply ranged_concat, HU0|]. apply concat_len; assumption.
    - intros r. split; [apply ranged_concat, HU0|]. apply concat_len; assumption.
    - intros s' t' Hs' Hc' Hc. cbv zeta. set (r := challenge G U (duo_seed G s t)). specialize (PA Hc). specialize (PB Hc).
      pose proof (tbl_fam_RL i U _ _ PA) as HA. pose proof (tbl_fam_RL i U _ _ PA') as HA'. pose proof (tbl_fam_RL i U _ _ PB) as HB.
      pose proof (tbl_lens U _ _ _ _ La PA PB) as LA. pose proof (tbl_lens U _ _ _ _ La' PA' PB) as LA'.
      assert (LB : length (map2 (map2 (joint U)) Bi Bj) = len) by (rewrite map2_length_eq; [reflexivity|eapply Forall2_len; eassumption]).
      set (a := map2 (map2 (joint U)) Ai Aj) in *. set (a' := map2 (map2 (joint U)) A'i A'j) in *. set (b := map2 (map2 (joint U)) Bi Bj) in *.
      assert (HO : RL (arith_shared U) (fun p => concat (map2 (map2 (fun x y => sh_sub U (sh_mulc U x r) y)) (tbl_fam i Ai Aj p) (tbl_fam i A'i A'j p))) (concat (map2 (sac_open U r) a a'))).
      { apply RL_concat. apply (RL_map2 (RL (arith_shared U)) (RL (arith_shared U)) (RL (arith_shared U)) (fun _ => map2 (fun x y => sh_sub U (sh_mulc U x r) y))); auto.
        intros P p P' p' HP HP'. unfold sac_open.
        apply (RL_map2 (arith_shared U) (arith_shared U) (arith_shared U) (fun _ x y => sh_sub U (sh_mulc U x r) y)); auto.
        intros V y V' y' HV HV'. apply (sh_sub_ok U HU0); [|exact HV']. apply (sh_mulc_ok U HU0), HV. }
      apply open_of_RL in HO. rewrite !tbl_fam_i, !tbl_fam_j in HO. destruct HO as [-> ->].
      dbind. apply zero_verify_duo. cbv zeta. intros [EH|HCC]; apply duoM_ret; (split; [exact Hs'|]); (split; [exact Hc'|]); (split; [reflexivity|]); (split; [reflexivity|]); [right|left; exact HCC].
      split; [exact Hc|].
      pose proof (RL_combine _ _ _ _ _ _ HC0 HC1) as HQ.
      assert (HW := sacrifice_rows_value U (tbl_fam i Bi Bj) b r HU0 HB (fun i => combine (firstn len (C i)) (skipn len (C i))) (combine c0 c1) a a' LA LA' ltac:(rewrite combine_length; lia) HQ).
      pose proof (zero_rows i U _ _ HU HW) as Z0. cbv beta in Z0. rewrite tbl_fam_i, tbl_fam_j in Z0. specialize (Z0 EH).
      rewrite <- LB in L0, L1. clear -Z0 LA LA' L0 L1. clearbody a a' b.
      revert a' c0 c1 LA' L0 L1 Z0. induction LA as [|u w a b Eu La IH]; intros a' c0 c1 La' L0 L1 Z0.
      + intros [|n]; intros; discriminate.
      + inversion La' as [|u' ? ? ? Eu' La'']; subst. destruct c0 as [|e c0]; [discriminate|]. destruct c1 as [|e' c1]; [discriminate|].
        cbn [map2 combine fst snd] in Z0. inversion Z0 as [|? ? E0 Z1]; subst.
        intros [|n] x x' y z z'; cbn [nth_error]; intros E1 E2 E3 E4 E5.
        * injection E1 as <-. injection E2 as <-. injection E3 as <-. injection E4 as <-. injection E5 as <-. exact E0.
        * eapply (IH l c0 c1); eauto.
    - intros s' t' ri rj vi vj Hs' Hc' HCC. dbind. apply zero_verify_duo. intros ? ? _. apply duoM_ret. split; [exact Hs'|]. split; [exact Hc'|]. split; [reflexivity|]. split; [reflexivity|]. left. apply coll_hashed, HCC.
  Qed.

  Lemma mul_check_gen K A a A' a' B b C0 c0 C1 c1 (s t : ST) : In K widths -> synced s t ->
    let U := verif_width K in
    arith_shared U A a -> arith_shared U A' a' -> arith_shared U B b -> arith_shared U C0 c0 -> arith_shared U C1 c1 ->
    duoM i (mul_triple_check G H i K (A i) (A' i) (B i) [C0 i; C1 i]) (mul_triple_check G H j K (A j) (A' j) (B j) [C0 j; C1 j]) s t
      (fun s' x t' y => synced s' t' /\ clean s' t' /\
         x = (sh_trunc K (A i), sh_trunc K (B i), sh_trunc K (C0 i)) /\ y = (sh_trunc K (A j), sh_trunc K (B j), sh_trunc K (C0 j)) /\
         (coll s' t' \/ (clean s t /\ ((c1 - a' * b) - challenge G U (duo_seed G s t) * (c0 - a * b)) mod 2 ^ U = 0))).
  Proof.
    intros HK Hs U HA HA' HB HC0 HC1. pose proof (verif_in K HK) as HU. fold U in HU. assert (HU0 : 0 <= U) by (apply in_widths_pos in HU; lia).
    unfold mul_triple_check. fold U. dbind. apply coin_duo; [exact Hs|]. intros c di dj dk s1 t1 Fc Lc Edj Edk Edi Hs1 R1 S1.
    assert (Eseed : duo_seed G s t = xor3 di dj dk) by (unfold duo_seed; subst; reflexivity).
    assert (Ldj : length dj = 32%nat) by (subst; apply draw_length). assert (Fdj : Forall (inr 8) dj) by (subst; apply draw_bytes_range).
    assert (HO : forall r, arith_shared U (fun p => sh_sub U (sh_mulc U (A p) r) (A' p)) (((a * r) mod 2 ^ U - a') mod 2 ^ U))
      by (intros r; apply (sh_sub_ok U HU0); [apply (sh_mulc_ok U HU0), HA|exact HA']).
    dbind. unfold reconstruct. dbind. set (rj := challenge G U (xor3 di dj dk)). set (ri := challenge G U (xor3 di c dk)).
    apply jsr_duo; [exact HU|destruct (HO ri) as (O1 & O2 & _); cbn beta in O2; rewrite O2; apply O1|].
    intros cv Hcv. apply duoM_ret. dbind. apply jmp_verify_duo. cbn [j_rcv j_snd j_prf]. intros [EH|HC].
    2:{ dbind. apply duoM_res. cbn. intros ? ? E E'. injection E as <-. injection E' as <-.
        dbind. apply duoM_res. cbn. intros ? ? E E'. injection E as <-. injection E' as <-.
        dbind. apply zero_verify_duo. intros ? ? _. apply duoM_ret. split; [exact Hs1|]. split; [reflexivity|]. split; [reflexivity|]. split; [reflexivity|]. left. apply coll_hashed, HC. }
    apply app_inj_len_r in EH; [|apply bts_len; reflexivity]. destruct EH as [EH E2]. rewrite R1, S1 in EH.
    apply app_inj_len_r in EH; [|apply bts_len; congruence]. destruct EH as [Hcl E1].
    apply bts_inj in E1; [|right; left; reflexivity|congruence|assumption..]. subst c.
    apply bts_inj in E2; [|exact HU|reflexivity|apply Forall_cons; [exact Hcv|apply Forall_nil]|apply Forall_cons; [apply (HO rj)|apply Forall_nil]]. apply (f_equal (hd 0)) in E2. cbn [hd] in E2. subst cv.
    change ri with rj. clear ri. set (v := ((a * rj) mod 2 ^ U - a') mod 2 ^ U).
    destruct (HO rj) as (O1 & O2 & O3). fold v in O3.
    assert (Vi : radd U (radd U (sa (sh_sub U (sh_mulc U (A i) rj) (A' i))) (sb (sh_sub U (sh_mulc U (A i) rj) (A' i)))) (sa (sh_sub U (sh_mulc U (A j) rj) (A' j))) = v).
    { pose proof (arith_ij i U _ _ (HO rj)) as E. cbn beta in E. fold v in E. rewrite <- E. unfold radd, norm. modring. }
    assert (Vj : radd U (radd U (sa (sh_sub U (sh_mulc U (A j) rj) (A' j))) (sb (sh_sub U (sh_mulc U (A j) rj) (A' j)))) (sb (sh_sub U (sh_mulc U (A i) rj) (A' i))) = v).
    { rewrite <- Vi. rewrite (O2 j). replace (prev j) with i by (destruct i; reflexivity). unfold radd, norm. modring. }
    rewrite Vi, Vj. dbind. apply duoM_res. cbn. intros ? ? E E'. injection E as <-. injection E' as <-.
    dbind. apply duoM_res. cbn. intros ? ? E E'. injection E as <-. injection E' as <-.
    dbind. apply zero_verify_duo. cbv zeta. intros [EH|HC]; apply duoM_ret; (split; [exact Hs1|]); (split; [reflexivity|]); (split; [reflexivity|]); (split; [reflexivity|]); [right|left; exact HC]. rewrite Eseed. fold rj.
    split; [exact Hcl|].
    pose proof (triple_check_value U rj a a' b (c0 - a * b) (c1 - a' * b) (fun _ => v) B C0 C1 HU0) as T.
    assert (HW : arith_shared U (fun p => triple_check U rj v (B p) (C0 p) (C1 p)) ((c1 - a' * b - rj * (c0 - a * b)) mod 2 ^ U)).
    { assert (M : forall X x y, arith_shared U X x -> (y = x) -> arith_shared U X (y mod 2 ^ U)).
      { intros X x y HX ->. pose proof HX as (X1 & X2 & ->). split; [exact X1|]. split; [exact X2|]. rewrite Zmod_mod. reflexivity. }
      apply T; [intros _; unfold v; modring|exact HB|eapply M; [exact HC0|ring]|eapply M; [exact HC1|ring]]. }
    pose proof (zero_rows i U (fun p => [triple_check U rj v (B p) (C0 p) (C1 p)]) _ HU (RL_cons' _ _ _ _ _ HW (RL_nil' _)) EH) as Z0.
    inversion Z0; assumption.
  Qed.
End D.
