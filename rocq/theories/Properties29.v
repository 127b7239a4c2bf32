(** Property C63: programs of ring operations on the SPDZ-wise engine when one party is malicious. *)
From Verif Require Import Base Ring RingProofs Prog Sched Conc Rng Rel Net BinTrait BitArith BinProofs AddProofs IrisSpec MpcSpec Aby3 ShareSpec Aby3Proofs Jmp JmpProofs Session SessionProofs Aby3Mal Aby3MalProofs Aby3MalProofs2
  SacrificeProofs PropLemmas PropLemmas2 SpecProofs Duo DuoProofs PropLemmas5 MacSpec MacProofs Client ClientProofs Emits TripleMalMet Properties4 Properties7 Properties22
  Aby3Proofs2 SlicedProofs ProgMalSpec ProgMalDuo ProgMalMet Spdz TripleSpec SpdzProofs2 SpdzProofs3 SpdzProofs4 SpdzProofs5 MacCount ProgMalBin ProgMalBin2 ProgMalBin3 ProgMalBin4 ProgMalBin5 TripleMalDuo OpenMal Properties28
  SpdzMal SpdzMalSpec SpdzMal2 SpdzMalCount EngineProofs.
From Coq Require Import ZifyBool ZifyNat.

(** Run a program of the calls of [Client.v], then open arithmetic register n. *)
Definition run_open (G : rng) (H : hasher) (K : Z) (p : pid) (cs : list cmd) (n : nat) (x : list ashare) : M (sst G) Z :=
  bindM (exec (spdz_api G H p K) p cs (Mem x [] [] [])) (fun m => bindM (need (nth_error (areg m) n)) (spdz_open G H p K)).

Lemma duoR_lrun {A B} i (p : prog A) (q : prog B) Q : duoR i p q [] [] Q ->
  duoR i p q [] [] (fun l a b => Q l a b /\ exists ti tj, lrun p ti (Ret a) /\ lrun q tj (Ret b) /\ l = rcvd_from (prev i) ti).
Proof. intros D ti a tj b xi yi xj yj L1 L2 B1 B2 E1 E2. destruct (D _ _ _ _ _ _ _ _ L1 L2 B1 B2 E1 E2) as (? & ? & ?). repeat split; auto. exists ti, tj. auto. Qed.

Section D.
  Variables (G : rng) (H : hasher) (i : pid) (K : Z).
  Hypothesis HK : In K widths.
  Notation j := (next i).
  Notation U := (verif_width K).
  Lemma open_duoR V M key xs ds es r (s t : sst G) x y v : mac_case G U i V M key xs ds es r (with_opened G s [x]) (with_opened G t [y]) ->
    paired U (av x) (av y) -> joint U (av x) (av y) = v ->
    duoR i (spdz_open G H i K x s) (spdz_open G H j K y t) [] [] (fun l a b =>
      (exists e0 e1 e2, third_off U i V M key (length xs) (mac_randoms G U (length xs) i s t) l e0 e1 e2 /\
        (hash_collision G H (s_j G (fst a)) (s_j G (fst b)) \/ mac_relation U r (coef (length xs) (mac_randoms G U (length xs) i s t)) ds es e0 e1 e2)) /\
      snd b = v mod 2 ^ K).
  Proof.
    intros HC HP Hv. pose proof (relation_duo G H U i V M key xs ds es r _ _ HC) as D.
    pose proof (HKU K HK) as HKU. pose proof (HU K HK) as HUw.
    unfold spdz_open, vq_push, bindM, getM, putM. cbn [bind].
    apply duoR_bind. eapply duoR_mono; [|exact D]. cbn beta. intros l1 [s1 []] [t1 []] (e0 & e1 & e2 & (m1 & m2 & rest & W0 & W1 & W2 & -> & T) & HR). cbn [fst snd] in HR |- *.
    unfold on_aby, on_j, on_prf, zoom, open, send_and_receive_value, send_and_receive, liftM, bindM, retM. cbn [bind].
    apply duoR_send_next. apply duoR_r_send_next. apply duoR_recv_prev. intros m Bm. cbn [app]. apply duoR_r_recv_prev. cbn [bind].
    destruct HP as ((Rx1 & Rx2) & HP2 & HP3). rewrite (from_to_bytes U _ HUw Rx2). cbn [of_res bind].
    destruct (from_bytes U m) as [w|e] eqn:EM; [|apply duoR_fail_l]. cbn [of_res bind].
    apply duoR_ret. cbn [fst snd s_j]. split.
    - exists e0, e1, e2. split; [exists m1, m2, (rest ++ [m]), W0, W1, W2; split; [reflexivity|exact T]|]. exact HR.
    - subst v. unfold joint, from_verif, radd. rewrite !mod_mod_pow by lia. rewrite Zplus_mod, mod_mod_pow, <- Zplus_mod by lia. f_equal. rewrite HP3. ring.
  Qed.
  Lemma rows_sub (X Y : list ashare) : Forall2 (apair U) X Y -> Forall2 (paired U) (map av X) (map av Y) /\ Forall2 (paired U) (map am X) (map am Y) /\
    map2 (joint U) (map av X) (map av Y) = map2 (jv U) X Y /\ map2 (joint U) (map am X) (map am Y) = map2 (jm U) X Y.
  Proof using Type.
    induction 1 as [|x y X Y [P1 P2] F (I1 & I2 & I3 & I4)]; [repeat split; constructor|]. cbn [map map2]. split; [constructor; assumption|]. split; [constructor; assumption|]. split; f_equal; assumption.
  Qed.

  Lemma start_tri r (vs : list Z) X : RL (auth_shared U r) X vs -> tri3 (areg_ok U) (X i) (X j) (with_mac U r vs).
  Proof using Type.
    intros R. induction R as [X E|X Y X' y ys E [HA HM] R IH]; [rewrite !E; constructor|]. rewrite !E. cbn [with_mac map]. constructor; [|exact IH].
    destruct (fam_paired i U _ _ HA) as [P1 J1]. destruct (fam_paired i U _ _ HM) as [P2 J2]. split; [split; [exact P1|exact P2]|]. unfold jv, jm. cbn beta in *. rewrite J1, J2. reflexivity.
  Qed.
  Lemma areg_range x y v : areg_ok U x y v -> inr U (fst v) /\ inr U (snd v).
  Proof using HK. intros [_ <-]. pose proof (HKU K HK). cbn [fst snd]. unfold jv, jm, joint. split; apply inr_mod; lia. Qed.

  Lemma items_case r (s t : sst G) mi mj rs q x y v : INV G K r s t mi mj rs q -> areg_ok U x y v ->
    let q' := q ++ [Item (fst v) 0 (snd v - fst v * r)] in
    exists V M key, mac_case G U i V M key (map it_value q') (map it_off q') (map it_mac_off q') r (with_opened G s [x]) (with_opened G t [y]).
  Proof using HK.
    intros (I1 & (PK & JK) & I3 & I5 & I6 & I7) R q'. pose proof (HKU K HK) as HKU. pose proof (areg_range _ _ _ R) as [Rv Rm]. destruct R as [P E].
    assert (F : Forall2 (apair U) (s_vq G s ++ [x]) (s_vq G t ++ [y])) by (apply Forall2_app; [exact I3|constructor; [exact P|constructor]]).
    assert (L : length (s_vq G s) = length (s_vq G t)) by (eapply Forall2_len; exact I3).
    destruct (rows_sub _ _ F) as (F1 & F2 & E1 & E2).
    exists (rows_fam i (map av (s_vq G s ++ [x])) (map av (s_vq G t ++ [y]))), (rows_fam i (map am (s_vq G s ++ [x])) (map am (s_vq G t ++ [y]))), (fam i (s_mac G s) (s_mac G t)).
    assert (M2 : forall f : item -> item -> Z, forall l, map2 f l l = map (fun a => f a a) l) by (intros f l; induction l; cbn; congruence).
    assert (MM : forall (f g : item -> Z) (h : Z -> Z -> Z) l, map2 h (map f l) (map g l) = map (fun a => h (f a) (g a)) l) by (intros f g h l; induction l; cbn; congruence).
    split.
    - apply HU, HK.
    - unfold q'. rewrite map_app. intros C. apply app_eq_nil in C. destruct C. discriminate.
    - rewrite !map_length. reflexivity.
    - rewrite !map_length. reflexivity.
    - apply RL_vec. rewrite MM. cbn beta. unfold q'. rewrite (map_app _ q), <- I5. cbn [map it_value it_off]. rewrite Z.add_0_r, Z.mod_small by exact Rv.
      replace (fst v) with (jv U x y) by (rewrite <- E; reflexivity). change [jv U x y] with (map2 (jv U) [x] [y]). rewrite <- map2_app by exact L. rewrite <- E1. apply rows_fam_RL, F1.
    - apply RL_vec. rewrite MM. cbn beta. unfold q'. rewrite (map_app _ q), <- I6. cbn [map it_value it_mac_off]. replace (fst v * r + (snd v - fst v * r)) with (snd v) by ring. rewrite Z.mod_small by exact Rm.
      replace (snd v) with (jm U x y) by (rewrite <- E; reflexivity). change [jm U x y] with (map2 (jm U) [x] [y]). rewrite <- map2_app by exact L. rewrite <- E2. apply rows_fam_RL, F2.
    - rewrite <- JK. apply paired_fam, PK.
    - cbn [with_opened s_vq]. rewrite rows_fam_i. reflexivity.
    - cbn [with_opened s_vq]. rewrite rows_fam_i. reflexivity.
    - cbn. rewrite fam_i. reflexivity.
    - cbn [with_opened s_vq]. rewrite rows_fam_j. reflexivity.
    - cbn [with_opened s_vq]. rewrite rows_fam_j. reflexivity.
    - cbn. rewrite fam_j. reflexivity.
    - exact I1.
  Qed.
End D.

(** C63.  i and i+1 are honest and run the program cs - linear operations, products, (batches of) inner
    products - on shared
    values vs with their MACs, then open register n; the third party sends whatever it likes.  Whenever both finish:
    the whole influence of the third party on the registers and on the queue of the MAC check is a pair of offsets
    for each product ([off_eval]: one on the value, one on the MAC), i+1 obtains the register so computed, and the
    check it went through is C26's, for exactly the items that off_eval collects (or the hash collides). *)
Theorem C63_programs : forall G H K i r key vs X cs n (s t s' t' : sst G) x y l, In K widths ->
  let U := verif_width K in
  vec_shared (auth_shared U r) X vs -> forallb ring_call cs = true ->
  arith_shared U key r -> s_mac G s = key i -> s_mac G t = key (next i) -> s_vq G s = [] -> s_vq G t = [] ->
  next_prf G (j_prf G (s_j G t)) = my_prf G (j_prf G (s_j G s)) ->
  duo_trace i (run_open G H K i cs n (X i)) (run_open G H K (next i) cs n (X (next i))) s t s' t' x y l ->
  exists offs R q v m, off_eval U r cs offs (with_mac U r vs, []) = Some ([], (R, q)) /\ nth_error R n = Some (v, m) /\ y = v mod 2 ^ K /\
    let q' := q ++ [Item v 0 (m - v * r)] in
    exists s1 t1 mi mj tri trj a b V M key',
      lrun (exec (spdz_api G H i K) i cs (Mem (X i) [] [] []) s) tri (Ret (s1, mi)) /\
      lrun (exec (spdz_api G H (next i) K) (next i) cs (Mem (X (next i)) [] [] []) t) trj (Ret (t1, mj)) /\
      nth_error (areg mi) n = Some a /\ nth_error (areg mj) n = Some b /\
      mac_case G U i V M key' (map it_value q') (map it_off q') (map it_mac_off q') r (with_opened G s1 [a]) (with_opened G t1 [b]) /\
      let d := mac_randoms G U (length q') i s1 t1 in
      exists l' e0 e1 e2, l = rcvd_from (prev i) tri ++ l' /\ third_off U i V M key' (length q') d l' e0 e1 e2 /\
        (hash_collision G H (s_j G s') (s_j G t') \/ mac_relation U r (coef (length q') d) (map it_off q') (map it_mac_off q') e0 e1 e2).
Proof.
  intros G H K i r key vs X cs n s t s' t' x y l HK U HX Hc HKey K1 K2 V1 V2 Hs HR.
  apply vec_RL in HX.
  assert (HI : INV G K r s t (Mem (X i) [] [] []) (Mem (X (next i)) [] [] []) (with_mac U r vs) []).
  { split; [exact Hs|]. destruct (fam_paired i U key r HKey) as [PK JK]. rewrite K1, K2, V1, V2. split; [split; [exact PK|exact JK]|].
    split; [constructor|]. split; [reflexivity|]. split; [reflexivity|]. apply (start_tri i K r vs X HX). }
  pose proof (exec_inv G H i K HK r cs _ _ _ _ _ _ Hc HI) as D. apply duoR_duo in D. apply duoR_lrun in D.
  refine (duo_trace_sound i _ _ s t s' t' x y l (fun l xx yy => exists offs R q v m, off_eval U r cs offs (with_mac U r vs, []) = Some ([], (R, q)) /\ nth_error R n = Some (v, m) /\ snd yy = v mod 2 ^ K /\
    let q' := q ++ [Item v 0 (m - v * r)] in
    exists s1 t1 mi mj tri trj a b V M key',
      lrun (exec (spdz_api G H i K) i cs (Mem (X i) [] [] []) s) tri (Ret (s1, mi)) /\
      lrun (exec (spdz_api G H (next i) K) (next i) cs (Mem (X (next i)) [] [] []) t) trj (Ret (t1, mj)) /\
      nth_error (areg mi) n = Some a /\ nth_error (areg mj) n = Some b /\
      mac_case G U i V M key' (map it_value q') (map it_off q') (map it_mac_off q') r (with_opened G s1 [a]) (with_opened G t1 [b]) /\
      let d := mac_randoms G U (length q') i s1 t1 in
      exists l' e0 e1 e2, l = rcvd_from (prev i) tri ++ l' /\ third_off U i V M key' (length q') d l' e0 e1 e2 /\
        (hash_collision G H (s_j G (fst xx)) (s_j G (fst yy)) \/ mac_relation U r (coef (length q') d) (map it_off q') (map it_mac_off q') e0 e1 e2)) _ HR). clear HR.
  unfold run_open, bindM at 1 3. apply duoR_bind. eapply duoR_mono; [|exact D]. cbn beta.
  intros l1 [s1 mi] [t1 mj] [(R & q & offs & HE & HI1) (tri & trj & L1 & L2 & ->)]. cbn [fst snd] in *.
  specialize (HE []). rewrite app_nil_r in HE.
  pose proof HI1 as (I1 & (P2 & J2) & I3 & I5 & I6 & I7). destruct (tri3_len _ _ _ _ I7) as [LA LB].
  destruct (nth_error R n) as [v|] eqn:EN.
  2:{ replace (nth_error (areg mi) n) with (@None ashare) by (symmetry; apply nth_error_None; apply nth_error_None in EN; rewrite LA; exact EN). unfold need, failM, bindM. cbn [bind]. apply duoR_fail_l. }
  destruct (tri3_nth _ _ _ _ _ _ I7 EN) as (a & b & Ea & Eb & Rab). rewrite Ea, Eb. unfold need, bindM, retM. cbn [bind fst snd].
  destruct (items_case G i K HK r s1 t1 mi mj R q a b v HI1 Rab) as (V & M & key' & HC).
  assert (Ev : joint U (av a) (av b) = fst v) by (destruct Rab as [_ <-]; reflexivity).
  eapply duoR_mono; [|exact (open_duoR G H i K HK V M key' _ _ _ r s1 t1 a b (fst v) HC ltac:(apply Rab) Ev)]. cbn beta.
  intros l2 aa bb [(e0 & e1 & e2 & HT & HM) HY]. rewrite map_length in HT, HM.
  exists offs, R, q, (fst v), (snd v). split; [exact HE|]. split; [rewrite EN, <- surjective_pairing; reflexivity|]. split; [exact HY|].
  exists s1, t1, mi, mj, tri, trj, a, b, V, M, key'. repeat (split; [eassumption|]). exists l2, e0, e1, e2. split; [reflexivity|]. split; [exact HT|exact HM].
Qed.
Print Assumptions C63_programs.

(** Offsets that vanish modulo 2^K do no harm: then the registers hold, modulo 2^K, what the plain program computes.
    So a wrong result needs a product whose value is off modulo 2^K. *)
Theorem C63_no_offset : forall K r cs offs vs R q p n v m, In K widths -> let U := verif_width K in
  Forall (fun x => fst x mod 2 ^ K = 0) offs -> off_eval U r cs offs (with_mac U r vs, []) = Some ([], (R, q)) ->
  eval K cs (Mem (map (fun v => v mod 2 ^ K) vs) [] [] []) = Some p -> nth_error R n = Some (v, m) -> nth_error (areg p) n = Some (v mod 2 ^ K).
Proof.
  intros K r cs offs vs R q p n v m HK U HF E HE EN.
  assert (EM : map (low K) (with_mac U r vs) = map (fun v => v mod 2 ^ K) vs) by (unfold with_mac; rewrite map_map; reflexivity).
  rewrite <- EM in HE. rewrite (low_eval K U (HKU K HK) r cs offs _ _ _ _ _ HF E HE). cbn [areg]. rewrite nth_error_map, EN. reflexivity.
Qed.
Print Assumptions C63_no_offset.
(** And how often can that pass?  Fix the program and its inputs, the offsets, the number pos of the first product
    that is off modulo 2^K, and all coefficients of the check but the one of that product.  Of the 2^(2U) pairs
    (key, that coefficient), at most (U + 1) 2^(U+K-1) fulfil the relation of C63_programs. *)
Theorem C63_detect : forall K cs offs vs n rho e0 e1 e2 pos, In K widths -> let U := verif_width K in
  (pos < length offs)%nat -> length rho = S (length offs) ->
  (forall q, (q < pos)%nat -> fst (nth q offs (0, 0)) mod 2 ^ K = 0) -> fst (nth pos offs (0, 0)) mod 2 ^ K <> 0 ->
  exists bad : list (Z * Z), Z.of_nat (length bad) <= (U + 1) * 2 ^ (U + K - 1) /\
    forall r R q v m rho', inr U r -> off_eval U r cs offs (with_mac U r vs, []) = Some ([], (R, q)) -> nth_error R n = Some (v, m) ->
      length rho' = length rho -> (forall p, p <> pos -> nth p rho' 0 = nth p rho 0) ->
      let q' := q ++ [Item v 0 (m - v * r)] in
      mac_relation U r rho' (map it_off q') (map it_mac_off q') e0 e1 e2 -> In (r, nth pos rho' 0 mod 2 ^ U) bad.
Proof.
  intros K cs offs vs n rho e0 e1 e2 pos HK U Hp HL Hq Hd. pose proof (HKU K HK) as HKU. fold U in HKU. assert (HK1 : 1 <= K) by (apply in_widths_pos in HK; lia).
  exists (bad_runs U cs offs vs n pos rho e0 e1 e2). split; [apply bad_runs_few; assumption || lia|].
  intros r R q v m rho' Hr HE EN HL' Hrho q' HM. pose proof (queue_length K U r cs offs vs R q ltac:(lia) HE) as LQ.
  apply filter_In. cbn [fst snd]. assert (LZ : length q' = length rho) by (unfold q'; rewrite app_length; cbn; lia).
  pose proof (bad_pairs_in U pos r rho' rho (map it_off q') (map it_mac_off q') e0 e1 e2 ltac:(lia) ltac:(lia) ltac:(rewrite map_length; lia) ltac:(rewrite map_length; lia)) as B.
  specialize (B ltac:(intros c; apply with_coef_ext; [congruence|intros z Hz; symmetry; apply Hrho, Hz]) Hr HM). apply filter_In in B. cbn [fst snd] in B. destruct B as [B1 B2].
  split; [exact B1|]. unfold passes. cbn [fst snd]. rewrite HE, EN. exact B2.
Qed.
Print Assumptions C63_detect.

Lemma iters_emits i K u v : emits (send_slices_and_receive_iters i K u v).
Proof.
  unfold send_slices_and_receive_iters. constructor; [apply slice_bytes|]. constructor; [apply slice_bytes|]. constructor; intros m1. constructor; intros m2.
  destruct (ring_iter_from_bytes K m1 (length u)); cbn [of_res bind]; [|constructor]. destruct (ring_iter_from_bytes K m2 (length v)); cbn [of_res bind]; constructor.
Qed.
Lemma ring_exec_emits G H i K (HH : forall x, bytes (hfun H x)) cs : forall m, forallb ring_call cs = true -> emitsM (exec (spdz_api G H i K) i cs m).
Proof.
  assert (MM : forall U a b, emitsM (mul_many G i U a b)).
  { intros U a b. unfold mul_many. apply emitsM_bind; [apply emitsM_mapM2; intros x y; apply emitsM_bind; [apply zero_emits|intros; apply emitsM_ret]|].
    intros l. unfold reshare_many. apply emitsM_bind; [apply emitsM_lift, slice_emits|intros; apply emitsM_ret]. }
  assert (NE : forall T (o : option T) B (k : T -> M (sst G) B), (forall x, emitsM (k x)) -> emitsM (bindM (need o) k)).
  { intros T o B k Hk. apply emitsM_bind; [destruct o; [apply emitsM_ret|apply emitsM_fail]|exact Hk]. }
  induction cs as [|c cs IH]; intros m Hc; cbn [exec]; [apply emitsM_ret|]. cbn [forallb] in Hc. apply andb_prop in Hc. destruct Hc as [Hc Hcs].
  apply emitsM_bind; [|intros; apply IH, Hcs].
  destruct c; try discriminate; cbn [exec_cmd].
  - apply NE; intros; apply NE; intros; apply emitsM_ret.
  - apply NE; intros; apply NE; intros; apply emitsM_ret.
  - apply NE; intros. apply emitsM_bind; [apply emitsM_get|intros; apply emitsM_ret].
  - apply NE; intros. apply emitsM_bind; [apply emitsM_get|intros; apply emitsM_ret].
  - apply NE; intros. apply emitsM_ret.
  - apply NE; intros; apply NE; intros. apply emitsM_bind; [|intros; apply emitsM_ret]. cbn [spdz_api a_mul]. unfold spdz_mul.
    apply emitsM_bind; [apply on_aby_emits, MM|intros]. apply emitsM_bind; [apply emitsM_res|intros]. apply emitsM_bind; [apply emitsM_res|intros]. apply emitsM_bind; [apply vq_push_emits|intros; apply emitsM_ret].
  - apply NE; intros; apply NE; intros. apply emitsM_bind; [|intros; apply emitsM_ret]. cbn [spdz_api a_dot]. unfold spdz_dot. destruct (negb _); [apply emitsM_fail|].
    apply emitsM_bind; [apply on_aby_emits, dot_many_emits|intros]. apply emitsM_bind; [apply emitsM_res|intros]. apply emitsM_bind; [apply emitsM_res|intros]. apply emitsM_bind; [apply vq_push_emits|intros; apply emitsM_ret].
  - apply NE; intros; apply NE; intros. apply emitsM_bind; [|intros; apply emitsM_ret]. cbn [spdz_api a_dot_many]. unfold spdz_dot_many. destruct (negb _); [apply emitsM_fail|].
    apply emitsM_bind; [apply on_aby_emits; apply emitsM_mapM2; intros u v; destruct (negb _); [apply emitsM_fail|]; apply emitsM_bind; [apply zero_emits|intros]; apply emitsM_bind; [apply zero_emits|intros; apply emitsM_ret]|intros l].
    unfold reshare_auth. apply emitsM_bind; [apply on_aby_emits|intros; apply emitsM_bind; [apply vq_push_emits|intros; apply emitsM_ret]].
    unfold reshare_pairs. apply emitsM_bind; [apply emitsM_lift, iters_emits|intros; apply emitsM_ret].
Qed.
(** Honest runs meet the hypotheses of C63_programs, and open what the plain program computes. *)
Theorem C63_met : forall G H K i r g vs X cs n p y (s : pid -> sst G), In K widths -> 3 <= K -> (forall x, bytes (hfun H x)) ->
  let U := verif_width K in
  spdz_inv G U r g s -> (forall p, s_vq G (s p) = []) -> vec_shared (auth_shared U r) X vs -> forallb ring_call cs = true ->
  eval K cs (Mem (map (fun v => v mod 2 ^ K) vs) [] [] []) = Some p -> nth_error (areg p) n = Some y ->
  arith_shared U (fun p => s_mac G (s p)) r /\ next_prf G (j_prf G (s_j G (s (next i)))) = my_prf G (j_prf G (s_j G (s i))) /\
  exists s' t' l, duo_trace i (run_open G H K i cs n (X i)) (run_open G H K (next i) cs n (X (next i))) (s i) (s (next i)) s' t' y y l.
Proof.
  intros G H K i r g vs X cs n p y s HK HK3 HH U Hs HQ HX Hc HE EN. apply vec_RL in HX. pose proof Hs as (Hj & Hk & _).
  split; [exact Hk|]. split; [pose proof (proj1 Hj (next i)) as Hs0; cbn beta in Hs0; replace (prev (next i)) with i in Hs0 by (destruct i; reflexivity); exact Hs0|].
  assert (HM : mem_shared (spdz_shared K r) aby3_bit (fun q => Mem (X q) [] [] []) (Mem (map (fun v => v mod 2 ^ K) vs) [] [] [])).
  { split; [|split; [apply RL_nil'|split; reflexivity]]. cbn [areg]. clear -HX. induction HX as [X E|X Y X' v vs E HA R IH]; [apply RL_nil, E|].
    cbn [map]. eapply (RL_cons _ X Y X'); [exact E| |exact IH]. exists v. split; [exact HA|reflexivity]. }
  assert (W : wpM (fun q => run_open G H K q cs n (X q)) s (fun s' v => forall q, v q = y)).
  { unfold run_open. wbind. eapply wpM_mono; [|apply (exec_ok _ _ _ _ _ (spdz_api_ok G H K r HK HK3) cs _ _ _ s (ex_intro _ g Hs) HM HE)]. cbn beta. intros s1 m [(g1 & Hs1) (HA & _)].
    destruct (RL_nth_error _ _ _ n y HA EN) as (Y & HY & AY). eapply wpM_need_bind; [exact HY|]. eapply wpM_mono; [|apply (spdz_open_ok G H K r HK Y y g1 s1 Hs1 AY)]. cbn beta. intros s2 v [_ Hv]. exact Hv. }
  destruct W as (R & HR & HV).
  pose proof (honest_duo i (fun q => run_open G H K q cs n (X q)) s R HR) as HD. cbn beta in HD. rewrite !HV in HD.
  assert (EM : emitsM (run_open G H K (prev i) cs n (X (prev i)))).
  { unfold run_open. apply emitsM_bind; [apply ring_exec_emits; assumption|intros m]. apply emitsM_bind; [destruct (nth_error (areg m) n); [apply emitsM_ret|apply emitsM_fail]|intros x].
    unfold spdz_open. apply emitsM_bind; [apply vq_push_emits|intros]. apply emitsM_bind; [apply verify_macs_emits, HH|intros].
    apply emitsM_bind; [apply on_aby_emits; unfold open; apply emitsM_bind; [apply emitsM_lift, sar_emits|intros; apply emitsM_ret]|intros; apply emitsM_ret]. }
  destruct (duo_run_trace i _ _ _ _ _ _ _ _ (HD EM)) as [l HT]. eauto.
Qed.
Print Assumptions C63_met.
