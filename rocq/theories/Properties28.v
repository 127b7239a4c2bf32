(** Property C62: what is opened on the SPDZ-wise engine when one party is malicious. *)
From Verif Require Import Base Ring RingProofs Prog Sched Conc Rng Rel Net BinTrait BitArith BinProofs AddProofs IrisSpec MpcSpec Aby3 ShareSpec Aby3Proofs Jmp JmpProofs Session SessionProofs Aby3Mal Aby3MalProofs Aby3MalProofs2
  SacrificeProofs PropLemmas PropLemmas2 SpecProofs Duo DuoProofs PropLemmas5 MacSpec MacProofs Client ClientProofs Emits TripleMalMet Properties4 Properties7 Properties22
  Aby3Proofs2 SlicedProofs ProgMalSpec ProgMalDuo ProgMalMet Spdz TripleSpec SpdzProofs2 SpdzProofs3 SpdzProofs4 SpdzProofs5 MacCount ProgMalBin ProgMalBin2 ProgMalBin3 ProgMalBin4 ProgMalBin5 TripleMalDuo OpenMal.
From Coq Require Import ZifyBool ZifyNat.

(** C62 is false of the code: whatever honest state the engine is in, whatever x is shared and whatever d is, the
    third party can make everybody accept, i+1 obtain x and i obtain x + d.  (The engine checks the MACs and then
    opens with the semi-honest engine, protocol.rs:869-900.) *)
Theorem C62_open_refuted : forall G H K r i x d g (s : pid -> sst G) X, In K widths -> (forall x, bytes (hfun H x)) ->
  spdz_inv G (verif_width K) r g s -> spdz_shared K r X x ->
  exists s' t', duo_run i (spdz_open G H i K (X i)) (spdz_open G H (next i) K (X (next i))) (s i) (s (next i)) s' t' ((x + d) mod 2 ^ K) x.
Proof.
  intros G H K r i x d g s X HK HH Hs HX.
  destruct (open_off_runs G H K r HK (prev i) X x d g s Hs HX) as (R & HE & E1 & E2).
  assert (EM : emitsM (if pid_eqb (prev i) (prev i) then open_off G H (prev i) K (X (prev i)) d else spdz_open G H (prev i) K (X (prev i)))).
  { replace (pid_eqb (prev i) (prev i)) with true by (destruct i; reflexivity). unfold open_off.
    apply emitsM_bind; [apply vq_push_emits|intros _]. apply emitsM_bind; [apply verify_macs_emits, HH|intros _].
    apply emitsM_bind; [apply on_aby_emits; unfold open; apply emitsM_bind; [apply emitsM_lift, sar_emits|intros; apply emitsM_ret]|intros; apply emitsM_ret]. }
  pose proof (honest_duo i (fun p => if pid_eqb p (prev i) then open_off G H (prev i) K (X p) d else spdz_open G H p K (X p)) s R HE EM) as HD. cbn beta in HD.
  exists (fst (R i)), (fst (R (next i))).
  replace (next (prev i)) with i in E2 by (destruct i; reflexivity). replace (prev (prev i)) with (next i) in E1 by (destruct i; reflexivity).
  replace (pid_eqb i (prev i)) with false in HD by (destruct i; reflexivity). replace (pid_eqb (next i) (prev i)) with false in HD by (destruct i; reflexivity).
  rewrite E1, E2 in HD. exact HD.
Qed.
Print Assumptions C62_open_refuted.

Lemma duoR_ret {A B} i (a : A) (b : B) (Q : list msg -> A -> B -> Prop) : Q [] a b -> duoR i (Ret a) (Ret b) [] [] Q.
Proof.
  intros HQ ti a' tj b' xi yi xj yj L1 L2 B1 B2 E1 E2. apply lrun_ret in L1, L2. destruct L1 as [-> ->], L2 as [-> ->]. cbn in *. auto.
Qed.
(** The shares to be opened are queued with those waiting for the MAC check. *)
Definition with_opened (G : rng) (s : sst G) (l : list ashare) : sst G := SSt G (s_j G s) (s_mac G s) (s_vq G s ++ l) (s_prec G s) (s_tb G s).

Lemma relation_duo G H U i V M key xs ds es r (s t : sst G) : mac_case G U i V M key xs ds es r s t ->
  duoR i (verify_macs G H i U s) (verify_macs G H (next i) U t) [] [] (fun l x y =>
    exists e0 e1 e2, third_off U i V M key (length xs) (mac_randoms G U (length xs) i s t) l e0 e1 e2 /\
      (hash_collision G H (s_j G (fst x)) (s_j G (fst y)) \/ mac_relation U r (coef (length xs) (mac_randoms G U (length xs) i s t)) ds es e0 e1 e2)).
Proof.
  intros [HU Hx Ld Le HV HM HK V1 M1 K1 V2 M2 K2 Hs].
  assert (Lv : length (map2 (fun x d => (x + d) mod 2 ^ U) xs ds) = length xs) by (apply map2_length_eq; auto).
  assert (Lm : length (map2 (fun x e => (x * r + e) mod 2 ^ U) xs es) = length xs) by (apply map2_length_eq; auto).
  assert (Hv : map2 (fun x d => (x + d) mod 2 ^ U) xs ds <> []) by (intros E; rewrite E in Lv; destruct xs; [congruence|discriminate]).
  pose proof (mac_check_duo G H U HU i V M key _ _ r s t (vec_RL _ _ _ HV) (vec_RL _ _ _ HM) HK Hv ltac:(congruence) V1 V2 M1 M2 K1 K2 Hs) as D.
  eapply duoR_mono; [|exact D]. cbn beta. intros l [s' []] [t' []] (m1 & m2 & rest & W0 & W1 & W2 & E & E1 & E2 & HR). cbn [fst snd] in *.
  unfold third_error0, third_error1, third_error2, mac_draws in HR. rewrite Lv in HR.
  do 3 eexists. split; [exists m1, m2, rest, W0, W1, W2; repeat (split; [eassumption || reflexivity|]); reflexivity|].
  destruct HR as [HR|HR]; [left; exact HR|right]. unfold mac_relation. fold (mac_randoms G U (length xs) i s t) in HR. set (d := mac_randoms G U (length xs) i s t) in *.
  erewrite mac_relation_eq in HR; [exact HR| | | |reflexivity|reflexivity]. all: unfold coef, sum3.
  all: assert (LD : forall p, length (d p) = (length xs + 3)%nat) by (intros p; unfold d, mac_randoms, by_pid; destruct (pid_eqb p i); [|destruct (pid_eqb p (next i))]; apply rnd_length).
  all: rewrite !map2_length_eq; rewrite ?map2_length_eq, ?firstn_length_le; rewrite ?LD; lia || (rewrite !firstn_length_le; rewrite ?LD; lia).
Qed.

(** What does hold.  i and i+1 are honest; the queue they check - its last item is the one opened - holds values off
    by ds with MACs off by es, as in C26.  If both finish, then C26's relation holds (or the hash collides), i+1
    obtains the value that the shares stand for, and i obtains that value changed by what the third party added
    to the last word it sent. *)
Theorem C62_open_partial : forall G H K i V M key xs ds es r (s t s' t' : sst G) X Y x y l, In K widths ->
  let U := verif_width K in
  mac_case G U i V M key xs ds es r (with_opened G s [X]) (with_opened G t [Y]) ->
  duo_trace i (spdz_open G H i K X) (spdz_open G H (next i) K Y) s t s' t' x y l ->
  (exists e0 e1 e2, third_off U i V M key (length xs) (mac_randoms G U (length xs) i s t) l e0 e1 e2 /\
    (hash_collision G H (s_j G s') (s_j G t') \/ mac_relation U r (coef (length xs) (mac_randoms G U (length xs) i s t)) ds es e0 e1 e2)) /\
  let v := last xs 0 + last ds 0 in
  y = v mod 2 ^ K /\ exists w, from_bytes U (last l []) = Ok w /\ x = (v + (w - sa (av Y))) mod 2 ^ K.
Proof.
  intros G H K i V M key xs ds es r s t s' t' X Y x y l HK U HC HR.
  pose proof (relation_duo G H U i V M key xs ds es r _ _ HC) as D.
  destruct HC as [HU Hx Ld Le HV HM HKey V1 M1 K1 V2 M2 K2 Hs].
  assert (HKU : K <= U) by (unfold U; clear -HK; cbn in HK; unfold verif_width; intuition subst; cbn; lia).
  assert (HU0 : 0 <= U) by (apply in_widths_pos in HU; lia). assert (HK0 : 0 <= K) by (apply in_widths_pos in HK; lia).
  assert (RL1 : exists A, arith_shared U A ((last xs 0 + last ds 0) mod 2 ^ U) /\ A i = av X /\ A (next i) = av Y).
  { cbn [with_opened s_vq] in V1, V2. rewrite map_app in V1, V2. cbn [map] in V1, V2. destruct HV as [LV HV].
    assert (Ln : forall A B (l : list A) (l' : list B) f (a : A) (b : B), l <> [] -> length l' = length l -> nth_error (map2 (f : A -> B -> Z) l l') (length l - 1) = Some (f (last l a) (last l' b))).
    { clear. intros A B l l' f a b. revert l'. induction l as [|x [|x' l] IH]; intros [|y [|y' l']] Hl E; try discriminate; try congruence; try reflexivity.
      specialize (IH (y' :: l') ltac:(discriminate) ltac:(cbn in *; lia)). cbn [map2 length] in IH |- *. replace (S (S (length l)) - 1)%nat with (S (S (length l) - 1)) by lia. exact IH. }
    destruct (HV _ _ (Ln _ _ xs ds (fun x d => (x + d) mod 2 ^ U) 0 0 Hx Ld)) as (A & HA & HS).
    assert (LL : length (map2 (fun x d => (x + d) mod 2 ^ U) xs ds) = length xs) by (apply map2_length_eq; auto).
    assert (Le' : forall q X p, map av q ++ [av X] = V p -> A p = av X).
    { intros q Z p E. specialize (HA p). specialize (LV p). rewrite <- E in HA, LV. rewrite LL, app_length in LV. cbn [length] in LV.
      rewrite nth_error_app2 in HA by lia. replace (length xs - 1 - length (map av q))%nat with 0%nat in HA by lia. cbn in HA. congruence. }
    exists A. split; [exact HS|]. split; eapply Le'; eassumption. }
  clear HV HM V1 V2 M1 M2. destruct RL1 as (A & (A1 & A2 & A3) & AX & AY).
  unfold spdz_open in HR. fold U in HR.
  refine (duo_trace_sound i _ _ s t s' t' x y l (fun l x y =>
    (exists e0 e1 e2, third_off U i V M key (length xs) (mac_randoms G U (length xs) i s t) l e0 e1 e2 /\
      (hash_collision G H (s_j G (fst x)) (s_j G (fst y)) \/ mac_relation U r (coef (length xs) (mac_randoms G U (length xs) i s t)) ds es e0 e1 e2)) /\
    snd y = (last xs 0 + last ds 0) mod 2 ^ K /\ exists w, from_bytes U (last l []) = Ok w /\ snd x = (last xs 0 + last ds 0 + (w - sa (av Y))) mod 2 ^ K) _ HR). clear HR.
  unfold vq_push, bindM, getM, putM. cbn [bind].
  apply duoR_bind. eapply duoR_mono; [|exact D]. cbn beta. intros l1 [s1 []] [t1 []] (e0 & e1 & e2 & (m1 & m2 & rest & W0 & W1 & W2 & -> & T) & HR). cbn [fst snd] in HR |- *.
  unfold on_aby, on_j, on_prf, zoom, open, send_and_receive_value, send_and_receive, liftM, bindM, retM. cbn [bind].
  apply duoR_send_next. apply duoR_r_send_next. apply duoR_recv_prev. intros m Bm. cbn [app]. apply duoR_r_recv_prev. cbn [bind].
  assert (RX : inr U (sb (av X))) by (rewrite <- AX, A2; apply A1). rewrite (from_to_bytes U _ HU RX). cbn [of_res bind].
  destruct (from_bytes U m) as [w|e] eqn:EM; [|apply duoR_fail_l]. cbn [of_res bind].
  apply duoR_ret. cbn [fst snd s_j]. split; [|split].
  - exists e0, e1, e2. split; [exists m1, m2, (rest ++ [m]), W0, W1, W2; split; [reflexivity|exact T]|]. exact HR.
  - unfold from_verif, radd. rewrite <- AX, <- AY, !A2. rewrite !mod_mod_pow by lia. rewrite Zplus_mod, mod_mod_pow, <- Zplus_mod by lia.
    rewrite <- (mod_mod_pow (last xs 0 + last ds 0) K U) by lia. rewrite A3, mod_mod_pow by lia. f_equal. clear. destruct i; cbn [next prev]; ring.
  - exists w. split.
    + replace (m1 :: m2 :: rest ++ [m]) with ((m1 :: m2 :: rest) ++ [m]) by reflexivity. rewrite last_last. exact EM.
    + unfold from_verif, radd. rewrite <- AX, <- AY, !A2. rewrite !mod_mod_pow by lia. rewrite Zplus_mod, mod_mod_pow, <- Zplus_mod by lia.
      rewrite (Zplus_mod (last xs 0 + last ds 0)), <- (mod_mod_pow (last xs 0 + last ds 0) K U) by lia. rewrite A3, mod_mod_pow, <- Zplus_mod by lia.
      f_equal. clear. destruct i; cbn [next prev]; ring.
Qed.
Print Assumptions C62_open_partial.
(** Honest runs are such cases, with errors zero: the hypotheses of C62_open_partial are met. *)
Theorem C62_open_met : forall G H K r i x g (s : pid -> sst G) X, In K widths -> (forall x, bytes (hfun H x)) ->
  spdz_inv G (verif_width K) r g s -> spdz_shared K r X x ->
  exists V M key xs ds es s' t' l, mac_case G (verif_width K) i V M key xs ds es r (with_opened G (s i) [X i]) (with_opened G (s (next i)) [X (next i)]) /\
    duo_trace i (spdz_open G H i K (X i)) (spdz_open G H (next i) K (X (next i))) (s i) (s (next i)) s' t' x x l.
Proof.
  intros G H K r i x g s X HK HH Hs HX.
  destruct (C62_open_refuted G H K r i x 0 g s X HK HH Hs HX) as (s' & t' & HR). destruct (duo_run_trace i _ _ _ _ _ _ _ _ HR) as [l HT].
  assert (EX : (x + 0) mod 2 ^ K = x). { destruct HX as (v & _ & ->). rewrite Z.add_0_r. apply Zmod_mod. } rewrite EX in HT. clear HR EX.
  destruct HX as (v & HV & ->). destruct Hs as (Hj & Hk & (vs & Hvs) & _).
  assert (HU : In (verif_width K) widths) by (clear -HK; cbn in HK; unfold verif_width; cbn; intuition subst; cbn; auto 10).
  set (U := verif_width K) in *. assert (HU0 : 0 <= U) by (apply in_widths_pos in HU; lia).
  assert (HQ : RL (auth_shared U r) (fun p => s_vq G (s p) ++ [X p]) (vs ++ [v])) by (apply RL_app; [exact Hvs|apply RL_cons'; [exact HV|apply RL_nil']]).
  pose proof (auth_av _ _ _ _ HQ) as QV. pose proof (auth_am _ _ _ _ HQ) as QM.
  assert (RG : Forall (inr U) (vs ++ [v])). { clear -QV HU0. remember (fun p => map av (s_vq G (s p) ++ [X p])) as W eqn:E. clear E. induction QV as [|W Y W' y ys E (_ & _ & ->) R IH]; constructor; [apply inr_mod, HU0|exact IH]. }
  assert (EV : map2 (fun x d => (x + d) mod 2 ^ U) (vs ++ [v]) (repeat 0 (length (vs ++ [v]))) = vs ++ [v]).
  { clear -RG. induction RG as [|a l Ha R IH]; [reflexivity|]. cbn [length repeat map2]. rewrite IH, Z.add_0_r, Z.mod_small by exact Ha. reflexivity. }
  assert (EM : map2 (fun x e => (x * r + e) mod 2 ^ U) (vs ++ [v]) (repeat 0 (length (vs ++ [v]))) = map (fun v => (v * r) mod 2 ^ U) (vs ++ [v])).
  { clear. generalize (vs ++ [v]) as q. induction q as [|a q IH]; [reflexivity|]. cbn [length repeat map2 map]. rewrite IH, Z.add_0_r. reflexivity. }
  do 9 eexists. split; [|exact HT].
  apply (Build_mac_case G U i (fun p => map av (s_vq G (s p) ++ [X p])) (fun p => map am (s_vq G (s p) ++ [X p])) (fun p => s_mac G (s p)) (vs ++ [v]) (repeat 0 (length (vs ++ [v]))) (repeat 0 (length (vs ++ [v]))) r); try reflexivity.
  - exact HU.
  - intros E. apply app_eq_nil in E. destruct E. discriminate.
  - apply repeat_length.
  - apply repeat_length.
  - rewrite EV. apply RL_vec. exact QV.
  - rewrite EM. apply RL_vec. exact QM.
  - exact Hk.
  - pose proof (proj1 Hj (next i)) as Hs0. cbn beta in Hs0. replace (prev (next i)) with i in Hs0 by (destruct i; reflexivity). exact Hs0.
Qed.
Print Assumptions C62_open_met.

(** ** Bits *)
Section D.
  Variables (G : rng) (H : hasher) (i : pid).
  Notation j := (next i).
  Lemma open_bit_duo (s t : jst G) X bit : bin_shared 1 X (Z.b2z bit) ->
    duoM i (mal_open_bit G H i (X i)) (mal_open_bit G H j (X j)) s t (fun s' u t' v => hash_collision G H s' t' \/ (u = bit /\ v = bit)).
  Proof.
    intros HX. pose proof HX as (R1 & A2 & _). assert (R1b : forall p, inr 1 (sb (X p))) by (intros p; rewrite A2; apply R1). unfold mal_open_bit.
    dbind. apply jmp_verify_duo. intros V1. dbind. apply jsr_duo; [left; reflexivity|apply R1b|]. intros c Hc. dbind. apply jmp_verify_duo. cbn [verified j_prf j_rcv j_snd j_log app]. intros V2.
    apply duoM_ret. cbn [verified j_prf j_rcv j_snd j_log app] in *.
    destruct V1 as [_|C1]; [|left; eapply coll_grows; [exact C1|reflexivity|reflexivity]]. destruct V2 as [C2|C2]; [right|left; exact C2].
    apply bts_inj in C2; [|left; reflexivity|reflexivity|repeat constructor; apply Hc|repeat constructor; apply R1]. injection C2 as ->.
    destruct (open_of_RLb i 1 (fun p => [X p]) [Z.b2z bit]) as [O1 O2]; [apply RL_cons'; [split; [left; reflexivity|exact HX]|apply RL_nil']|]. cbn in O1, O2. injection O1 as O1. injection O2 as O2.
    split.
    - replace (rxor (rxor (sa (X i)) (sb (X i))) (sa (X j))) with (rxor (rxor (sa (X j)) (sa (X i))) (sb (X i))) by (unfold rxor; bitsolve). rewrite O1. destruct bit; reflexivity.
    - replace (rxor (rxor (sa (X j)) (sb (X j))) (sb (X i))) with (rxor (rxor (sb (X i)) (sa (X j))) (sb (X j))) by (unfold rxor; bitsolve). rewrite O2. destruct bit; reflexivity.
  Qed.
  Lemma open_bit_many_duo (s t : jst G) X bits : RL (bin_shared 1) X (map Z.b2z bits) ->
    duoM i (mal_open_bit_many G H i (X i)) (mal_open_bit_many G H j (X j)) s t (fun s' u t' v => hash_collision G H s' t' \/ (u = bits /\ v = bits)).
  Proof.
    intros HX. destruct (brel_cols 1 _ _ HX) as (J1 & J2 & J3).
    assert (HB : RL (brel 1) X (map Z.b2z bits)) by (eapply RL_mono; [|exact HX]; intros Y y HY; split; [left; reflexivity|exact HY]).
    assert (X2 : Forall (inr 1) (map sb (X i))) by (rewrite J2; apply J1). pose proof (J1 j) as Y1.
    assert (L : length (X i) = length (X j)) by (rewrite !J3; reflexivity).
    unfold mal_open_bit_many.
    dbind. apply jmp_verify_duo. intros V1. dbind. apply jsrm_duo; [left; reflexivity|exact X2|rewrite !map_length; exact L|]. intros c Hc Lc. rewrite map_length in Lc. dbind. apply jmp_verify_duo. cbn [verified j_prf j_rcv j_snd j_log app]. intros V2.
    apply duoM_ret. cbn [verified j_prf j_rcv j_snd j_log app] in *.
    destruct V1 as [_|C1]; [|left; eapply coll_grows; [exact C1|reflexivity|reflexivity]]. destruct V2 as [C2|C2]; [right|left; exact C2].
    apply bts_inj in C2; [|left; reflexivity|rewrite map_length; congruence|exact Hc|exact Y1]. subst c.
    destruct (open_of_RLb i 1 X _ HB) as [O1 O2]. split; apply map2_eqb1; assumption.
  Qed.
End D.

(** Bits are opened with a jmp and its verification before and after, so there the engine is as safe as malicious
    ABY3: whatever the third party sends, who finishes has the bit, unless the hash collides.  No assumption on the
    states, in particular none that the earlier opened values were right. *)
Theorem C62_open_bit : forall G H i X (b : bool) (s t s' t' : sst G) x y, bin_shared 1 X (Z.b2z b) ->
  duo_run i (spdz_open_bit G H i (X i)) (spdz_open_bit G H (next i) (X (next i))) s t s' t' x y ->
  hash_collision G H (s_j G s') (s_j G t') \/ (x = b /\ y = b).
Proof.
  intros G H i X b s t s' t' x y HX HR.
  refine (duo_run_sound _ _ _ _ _ _ _ _ _ (fun s' x t' y => hash_collision G H (s_j G s') (s_j G t') \/ (x = b /\ y = b)) _ HR).
  unfold spdz_open_bit. apply duoM_on_j. apply open_bit_duo, HX.
Qed.
Print Assumptions C62_open_bit.
Theorem C62_open_bit_many : forall G H i X bits (s t s' t' : sst G) x y, vec_shared (bin_shared 1) X (map Z.b2z bits) ->
  duo_run i (spdz_open_bit_many G H i (X i)) (spdz_open_bit_many G H (next i) (X (next i))) s t s' t' x y ->
  hash_collision G H (s_j G s') (s_j G t') \/ (x = bits /\ y = bits).
Proof.
  intros G H i X bits s t s' t' x y HX HR.
  refine (duo_run_sound _ _ _ _ _ _ _ _ _ (fun s' x t' y => hash_collision G H (s_j G s') (s_j G t') \/ (x = bits /\ y = bits)) _ HR).
  unfold spdz_open_bit_many. apply duoM_on_j. apply open_bit_many_duo, vec_RL, HX.
Qed.
Print Assumptions C62_open_bit_many.
Theorem C62_open_bit_met : forall G H i K r g (s : pid -> sst G) X (b : bool), (forall x, bytes (hfun H x)) -> spdz_inv G (verif_width K) r g s -> bin_shared 1 X (Z.b2z b) ->
  exists s' t', duo_run i (spdz_open_bit G H i (X i)) (spdz_open_bit G H (next i) (X (next i))) (s i) (s (next i)) s' t' b b.
Proof.
  intros G H i K r g s X b HH Hs HX. destruct (spdz_open_bit_ok G H K r X b g s Hs HX) as (R & HE & _ & HR).
  assert (EM : emitsM (spdz_open_bit G H (prev i) (X (prev i)))).
  { unfold spdz_open_bit, on_j. apply emitsM_zoom. unfold mal_open_bit. apply emitsM_bind; [apply jmp_verify_emits, HH|intros]. apply emitsM_bind; [apply jsr_emits|intros]. apply emitsM_bind; [apply jmp_verify_emits, HH|intros]. apply emitsM_ret. }
  pose proof (honest_duo i (fun q => spdz_open_bit G H q (X q)) s R HE EM) as HD. rewrite !HR in HD. eauto.
Qed.
Print Assumptions C62_open_bit_met.
(** States and shares as C62_open_refuted and C62_open_met need them: three new engines, set up with a shared MAC
    key, after an input. *)
Theorem C62_reachable : forall G K r (f : pid -> prf G) seeds key p (v : pid -> option Z) x, In K widths -> inr K x -> v p = Some x ->
  (forall i, length (seeds i) = 32%nat) -> arith_shared (verif_width K) (fun i => am (key i)) r ->
  let start i := bindM (spdz_preprocess G i (seeds i)) (fun _ => set_mac_key G (key i)) in
  honest_run (fun i => bindM (start i) (fun _ => spdz_input G i K (v i) (pid_num p))) (fun i => spdz_new G (f i))
    (fun s X => spdz_inv G (verif_width K) r (0%nat, 0) s /\ spdz_shared K r X x).
Proof.
  intros G K r f seeds key p v x HK Hx Hv HL Hk start. apply wpM_honest. wbind. eapply wpM_mono; [|apply (start_ok G K r f seeds key HL Hk)].
  cbn beta. intros s1 _ Hs1. exact (spdz_input_ok G K r HK v p x _ s1 Hx Hv Hs1).
Qed.
Print Assumptions C62_reachable.
