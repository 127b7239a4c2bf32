(** Swift3's verify with one malicious party: what the two honest ones have checked. *)
From Verif Require Import Base Ring RingProofs Prog Sched Conc Duo CheatSpec Rng Rel Net Aby3 Jmp JmpProofs Aby3MalProofs2 Gf2 Poly Dzkp Swift3 Swift3Setup Swift3SetupProofs Swift3Verify Swift3VerifyProofs.
Local Open Scope list_scope.

Lemma res_run {S A} (r : res A) (s : S) tr s1 a : lrun (resM r s) tr (Ret (s1, a)) -> tr = [] /\ r = Ok a /\ s1 = s.
Proof.
  unfold resM, liftM. destruct r as [a0|e]; cbn; intros L; inversion L; subst; auto.
Qed.

Section Kind.
  Context {A : Type}.
  Variables (O : rops A) (red : A -> res A) (eqb : A -> A -> bool).
  Variable n : nat.
  Variable cf : forall B : Type, rops B -> list B -> B.
  Variables (enc : A -> list Z) (dec : list Z -> res (A * list Z)).
  Variables (G : rng) (H : hasher).
  Variable draw_el : rstate G -> rstate G * A.
  Variable again : A -> bool.
  Variable fuel : nat.
  Variables (l m : nat) (lag : list (list A)) (coords : list A).
  Notation thetas := (v_thetas G draw_el l).
  Notation coin_betas := (coin_weights G draw_el m).
  Notation coin_point := (CheatSpec.coin_point G draw_el again fuel m).

  (** What a party that finishes has sent, received and checked. *)
  Lemma dz_local i (V Vp Vn : list (list A)) (ent : rstate G) (s : sst G) tr x :
    lrun (dz_verify O red eqb n cf enc dec G H draw_el again fuel i l m lag coords V Vp Vn ent s) tr (Ret x) ->
    exists pr, prove_rng O red n cf G draw_el l m V (thetas (w_p G s) i) lag ent = Ok pr /\
    let cs := snd (draw_bytes G 32 (fst pr)) in let cr := snd (draw_bytes G 32 (fst (draw_bytes G 32 (fst pr)))) in
    exists m1 c1 o1 sh m2 c2 o2 p1 coin sp sn rcv,
      rcvd_from (prev i) tr = [m1; c1; o1; sh] /\ rcvd_from (next i) tr = [m2; c2; o2] /\
      sent_to (next i) tr = [proof_enc enc (snd (snd pr)); c_comm (commit_with_rand H 8 cs cr); ring_slice_to_bytes 8 cs ++ cr; share_enc enc sp] /\
      sent_to (prev i) tr = [fst (snd pr); c_comm (commit_with_rand H 8 cs cr); ring_slice_to_bytes 8 cs ++ cr] /\
      o_verify H 8 (Opening (firstn 32 o1) (skipn 32 o1)) c1 = true /\ o_verify H 8 (Opening (firstn 32 o2) (skipn 32 o2)) c2 = true /\
      coin = map2 Z.lxor (map2 Z.lxor cs (firstn 32 o1)) (firstn 32 o2) /\
      proof_dec dec m1 = Ok p1 /\
      verify_pi O red n l m (coin_betas coin (prev i)) (coin_point coin (prev i)) lag coords Vp p1 = Ok sp /\
      verify_pi O red n l m (coin_betas coin (next i)) (coin_point coin (next i)) lag coords Vn (proof_from_seed n G draw_el l m m2) = Ok sn /\
      share_dec dec sh = Ok rcv /\ combine_verifications O red eqb n cf l (thetas (w_p G s) (next i)) rcv sn = Ok tt.
  Proof.
    intros L. unfold dz_verify, bindM at 1 in L. apply lrun_bind in L. destruct L as (t1 & [s1 x1] & t2 & L1 & L2 & ->). cbn [fst snd] in L2.
    destruct x as [s' []]. apply res_run in L2. destruct L2 as (-> & D & _).
    unfold dz_exchange in L1. unfold bindM at 1 in L1. unfold gen_seed in L1.
    assert (ET : thetas (w_p G s) = snd (draw_three G draw_el l (rseed G (snd (draw_bytes G 32 (w_p G s)))))) by reflexivity.
    destruct (draw_bytes G 32 (w_p G s)) as [q0 seed] eqn:Es. cbn [bind fst snd] in L1, ET. rewrite <- ET in L1.
    unfold bindM at 1 in L1. apply lrun_bind in L1. destruct L1 as (u1 & [a1 pr] & u2 & R1 & L1 & ->). apply res_run in R1. destruct R1 as (-> & Epr & ->). cbn [fst snd] in L1, Epr.
    exists pr. split; [exact Epr|]. cbv zeta.
    unfold bindM at 1 in L1. apply lrun_bind in L1. destruct L1 as (u3 & [a2 ps] & u4 & R2 & L1 & ->). cbn [fst snd] in L1.
    (* the exchange of proofs *)
    assert (X : exists m1 p1 m2, rcvd_from (prev i) u3 = [m1] /\ rcvd_from (next i) u3 = [m2] /\ sent_to (next i) u3 = [proof_enc enc (snd (snd pr))] /\ sent_to (prev i) u3 = [fst (snd pr)] /\
      proof_dec dec m1 = Ok p1 /\ ps = (p1, proof_from_seed n G draw_el l m m2)).
    { unfold exchange_proofs, bindM, liftM in R2. cbn [bind fst snd] in R2. inversion R2 as [|? ? ? v1 ? K1|]; subst. inversion K1 as [|? ? ? v2 ? K2|]; subst.
      inversion K2 as [| |? ? m1 v3 ? K3]; subst. cbn [bind fst snd] in K3. unfold resM, liftM in K3. destruct (proof_dec dec m1) as [p1|] eqn:Ep; [|cbn in K3; inversion K3]. cbn [of_res bind fst snd] in K3.
      inversion K3 as [| |? ? m2 v4 ? K4]; subst. cbn [bind fst snd] in K4. destruct (negb (length m2 =? length (fst (snd pr)))%nat); [inversion K4|]. inversion K4; subst.
      exists m1, p1, m2. destruct i; cbn; auto 10. }
    destruct X as (m1 & p1 & m2 & X1 & X2 & X3 & X4 & X5 & ->). cbn [fst snd] in L1. clear R2.
    pose proof (draw_bytes_length G 32 (fst pr)) as Lc. destruct (draw_bytes G 32 (fst pr)) as [q1 cs]. cbn [fst snd] in *.
    pose proof (draw_bytes_length G 32 q1) as Lr. destruct (draw_bytes G 32 q1) as [q2 cr]. cbn [fst snd] in *.
    unfold bindM at 1 in L1. apply lrun_bind in L1. destruct L1 as (u5 & [a3 coin] & u6 & R3 & L1 & ->). cbn [fst snd] in L1.
    destruct (w_coin_checked G H i cs cr a2 u5 a3 coin Lc Lr R3) as (c0 & o0 & c1 & o1 & Y1 & Y2 & Y3 & Y4 & _ & _ & Y5 & Y6 & Y7).
    assert (Y : exists cp op cn on, rcvd_from (prev i) u5 = [cp; op] /\ rcvd_from (next i) u5 = [cn; on] /\
      sent_to (prev i) u5 = [c_comm (commit_with_rand H 8 cs cr); ring_slice_to_bytes 8 cs ++ cr] /\ sent_to (next i) u5 = [c_comm (commit_with_rand H 8 cs cr); ring_slice_to_bytes 8 cs ++ cr] /\
      o_verify H 8 (Opening (firstn 32 op) (skipn 32 op)) cp = true /\ o_verify H 8 (Opening (firstn 32 on) (skipn 32 on)) cn = true /\
      coin = map2 Z.lxor (map2 Z.lxor cs (firstn 32 op)) (firstn 32 on)).
    { assert (E : forall a b c : list Z, map2 Z.lxor (map2 Z.lxor a b) c = map2 Z.lxor (map2 Z.lxor a c) b).
      { clear. induction a as [|x a IH]; intros [|y b] [|z c]; cbn; try reflexivity; try (destruct (map2 Z.lxor a b); reflexivity); try (destruct (map2 Z.lxor a c); reflexivity).
        rewrite IH. f_equal. rewrite !Z.lxor_assoc, (Z.lxor_comm y). reflexivity. }
      destruct i; cbn [other0 other1 prev next] in *.
      - exists c1, o1, c0, o0. rewrite E in Y7. auto 10.
      - exists c0, o0, c1, o1. auto 10.
      - exists c1, o1, c0, o0. rewrite E in Y7. auto 10. }
    clear c0 o0 c1 o1 Y1 Y2 Y3 Y4 Y5 Y6 Y7 R3. destruct Y as (cp & op & cn & on & Y1 & Y2 & Y3 & Y4 & Y5 & Y6 & Y7).
    unfold coin_weights, CheatSpec.coin_point. destruct (draw_three G draw_el m (rseed G coin)) as [q3 betas] eqn:Eb.
    cbn [fst snd]. 
    unfold bindM at 1 in L1. apply lrun_bind in L1. destruct L1 as (u7 & [a4 sp] & u8 & R4 & L1 & ->). apply res_run in R4. destruct R4 as (-> & Esp & ->). cbn [fst snd] in L1, Esp.
    unfold bindM at 1 in L1. apply lrun_bind in L1. destruct L1 as (u9 & [a5 sn] & u10 & R5 & L1 & ->). apply res_run in R5. destruct R5 as (-> & Esn & ->). cbn [fst snd] in L1, Esn.
    unfold bindM at 1, liftM in L1. cbn [bind fst snd] in L1. inversion L1 as [|? ? ? v1 ? K1|]; subst. inversion K1 as [| |? ? sh v2 ? K2]; subst. cbn [bind fst snd] in K2.
    unfold bindM, resM, liftM in K2. destruct (share_dec dec sh) as [rcv|] eqn:Er; [|cbn in K2; inversion K2]. cbn [of_res bind fst snd] in K2. unfold retM in K2. inversion K2; subst.
    exists m1, cp, op, sh, m2, cn, on, p1, (map2 Z.lxor (map2 Z.lxor cs (firstn 32 op)) (firstn 32 on)), sp, sn, rcv.
    rewrite Eb. cbn [fst snd].
    repeat rewrite ?rcvd_app, ?sent_app. rewrite X1, X2, X3, X4, Y1, Y2, Y3, Y4. cbn [app rcvd_from sent_to].
    replace (pid_eqb (prev i) (prev i)) with true by (destruct i; reflexivity). replace (pid_eqb (prev i) (next i)) with false by (destruct i; reflexivity).
    replace (pid_eqb (next i) (next i)) with true by (destruct i; reflexivity). replace (pid_eqb (next i) (prev i)) with false by (destruct i; reflexivity).
    cbn [app]. rewrite ?app_nil_r. repeat split; try assumption; try reflexivity.
  Qed.

  (** Nobody reveals its coin share before it has the proofs and the commitments of both others. *)
  Lemma coin_order i cs cr (s : sst G) tr q k : k <> i -> lrun (w_coin G H i cs cr s) tr q -> (2 <= length (sent_to k tr))%nat ->
    (1 <= length (rcvd_from (prev i) tr) /\ 1 <= length (rcvd_from (next i) tr))%nat.
  Proof.
    intros Hk L. unfold w_coin, bindM, liftM, broadcast in L.
    destruct i; cbn [send_all recv_all pid_eqb bind] in L; inversion L as [|? ? ? v1 ? K1|]; subst; try (cbn; lia);
      inversion K1 as [|? ? ? v2 ? K2|]; subst; try (destruct k; cbn; lia);
      inversion K2 as [| |? ? x1 v3 ? K3]; subst; try (destruct k; cbn; lia);
      inversion K3 as [| |? ? x2 v4 ? K4]; subst; try (destruct k; cbn; lia);
      intros _; cbn; lia.
  Qed.
  Lemma coin_done i cs cr (s : sst G) tr x : length cs = 32%nat -> length cr = 32%nat -> lrun (w_coin G H i cs cr s) tr (Ret x) ->
    length (rcvd_from (prev i) tr) = 2%nat /\ length (rcvd_from (next i) tr) = 2%nat.
  Proof.
    intros Lc Lr L. destruct x as [s1 c]. destruct (w_coin_checked G H i cs cr s tr s1 c Lc Lr L) as (c0 & o0 & c1 & o1 & Y1 & Y2 & _).
    destruct i; cbn [other0 other1 prev next] in *; rewrite Y1, Y2; auto.
  Qed.
  Lemma dz_order i (V Vp Vn : list (list A)) (ent : rstate G) (s : sst G) tr q k : k <> i ->
    lrun (dz_verify O red eqb n cf enc dec G H draw_el again fuel i l m lag coords V Vp Vn ent s) tr q -> (3 <= length (sent_to k tr))%nat ->
    (2 <= length (rcvd_from (prev i) tr) /\ 2 <= length (rcvd_from (next i) tr))%nat.
  Proof.
    intros Hk L HL. assert (L' : exists tr' tr2 q', tr = tr' ++ tr2 /\ lrun (dz_exchange O red n cf enc dec G H draw_el again fuel i l m lag coords V Vp Vn ent s) tr' q' /\ (tr2 = [])).
    { unfold dz_verify, bindM at 1 in L. apply lrun_bind_any in L. destruct L as [(p' & L & _)|(t1 & [s1 x1] & t2 & L1 & L2 & ->)].
      - exists tr, [], p'. rewrite app_nil_r. auto.
      - exists t1, t2, (Ret (s1, x1)). split; [reflexivity|]. split; [exact L1|]. cbn [fst snd] in L2. unfold resM, liftM in L2.
        destruct (dz_decide O red eqb n cf l x1); cbn in L2; inversion L2; reflexivity. }
    destruct L' as (tr' & tr2 & q' & -> & L1 & ->). rewrite app_nil_r in *. clear L q.
    unfold dz_exchange in L1. unfold bindM at 1 in L1. unfold gen_seed in L1. destruct (draw_bytes G 32 (w_p G s)) as [q0 seed] eqn:Es. cbn [bind fst snd] in L1.
    unfold bindM at 1 in L1. unfold resM at 1, liftM at 1 in L1. destruct (prove_rng _ _ _ _ _ _ _ _ _ _ _ _) as [pr|e]; [|cbn in L1; inversion L1; subst; cbn in HL; lia]. cbn [of_res bind fst snd] in L1.
    unfold bindM at 1 in L1. apply lrun_bind_any in L1. destruct L1 as [(p' & R & _)|(t1 & [s1 ps] & t2 & R2 & L1 & ->)].
    { exfalso. unfold exchange_proofs, bindM, liftM in R. cbn [bind fst snd] in R. inversion R as [|? ? ? v1 ? K1|]; subst; [cbn in HL; lia|]. inversion K1 as [|? ? ? v2 ? K2|]; subst; [destruct i, k; cbn in HL; lia|].
      assert (sent_to k v2 = []). 2:{ cbn [sent_to] in HL. rewrite H0 in HL. destruct i, k; cbn in HL; lia. }
      inversion K2 as [| |? ? m1 v3 ? K3]; subst; [reflexivity|]. cbn [bind fst snd sent_to] in K3 |- *. unfold resM, liftM in K3. destruct (proof_dec dec m1) as [p1|] eqn:Ep; [|cbn in K3; inversion K3; reflexivity]. cbn [of_res bind fst snd] in K3.
      inversion K3 as [| |? ? m2 v4 ? K4]; subst; [reflexivity|]. cbn [bind fst snd sent_to] in K4 |- *. destruct (negb (length m2 =? length (fst (snd pr)))%nat); inversion K4; reflexivity. }
    assert (X : length (rcvd_from (prev i) t1) = 1%nat /\ length (rcvd_from (next i) t1) = 1%nat /\ (length (sent_to k t1) <= 1)%nat).
    { unfold exchange_proofs, bindM, liftM in R2. cbn [bind fst snd] in R2. inversion R2 as [|? ? ? v1 ? K1|]; subst. inversion K1 as [|? ? ? v2 ? K2|]; subst.
      inversion K2 as [| |? ? m1 v3 ? K3]; subst. cbn [bind fst snd] in K3. unfold resM, liftM in K3. destruct (proof_dec dec m1) as [p1|] eqn:Ep; [|cbn in K3; inversion K3]. cbn [of_res bind fst snd] in K3.
      inversion K3 as [| |? ? m2 v4 ? K4]; subst. cbn [bind fst snd] in K4. destruct (negb (length m2 =? length (fst (snd pr)))%nat); [inversion K4|]. inversion K4; subst.
      destruct i, k; cbn; lia. }
    destruct X as (X1 & X2 & X3). rewrite !rcvd_app, !app_length, X1, X2. rewrite sent_app, app_length in HL. cbn [fst snd] in L1.
    pose proof (draw_bytes_length G 32 (fst pr)) as Lc. destruct (draw_bytes G 32 (fst pr)) as [q1 cs]. cbn [fst snd] in *.
    pose proof (draw_bytes_length G 32 q1) as Lr. destruct (draw_bytes G 32 q1) as [q2 cr]. cbn [fst snd] in *.
    unfold bindM at 1 in L1. apply lrun_bind_any in L1. destruct L1 as [(p' & R & _)|(t3 & x & t4 & R3 & _ & ->)].
    - destruct (coin_order i cs cr s1 t2 p' k Hk R) as [C1 C2]; lia.
    - destruct (coin_done i cs cr s1 t3 x Lc Lr R3) as [C1 C2]. rewrite !rcvd_app, !app_length, C1, C2. lia.
  Qed.

  (** ** Two honest parties, i and its successor *)
  Variable good : A -> Prop.
  Hypothesis HC : codec good enc dec.
  Hypothesis Hdec : forall bs a rest, bytes bs -> dec bs = Ok (a, rest) -> good a /\ bytes rest.
  Lemma bytes_cut k bs : bytes bs -> bytes (firstn k bs) /\ bytes (skipn k bs).
  Proof using. intros HB. apply Forall_app. rewrite firstn_skipn. exact HB. Qed.
  Lemma bc_elems_good k : forall bs x rest, bytes bs -> bc_elems dec k bs = Ok (x, rest) -> Forall good x /\ bytes rest.
  Proof using Hdec.
    induction k as [|k IH]; intros bs x rest HB E; cbn in E; [injection E as <- <-; auto|].
    destruct (dec bs) as [[a r1]|] eqn:E1; [|discriminate]. cbn [rbind fst snd] in E. destruct (Hdec _ _ _ HB E1) as [Ga Br].
    destruct (bc_elems dec k r1) as [[x2 r2]|] eqn:E2; [|discriminate]. cbn in E. injection E as <- <-. destruct (IH _ _ _ Br E2). auto.
  Qed.
  Lemma bc_list_good bs x rest : bytes bs -> bc_list dec bs = Ok (x, rest) -> Forall good x /\ bytes rest.
  Proof using Hdec.
    intros HB. unfold bc_list, bc_take. destruct (Nat.ltb (length bs) 8); [discriminate|]. cbn [rbind fst snd]. destruct (_ <? _); [discriminate|]. apply bc_elems_good. apply bytes_cut, HB.
  Qed.
  Lemma proof_dec_good bs p : bytes bs -> proof_dec dec bs = Ok p -> Forall good (dp_w p) /\ Forall good (dp_a p).
  Proof using Hdec.
    intros HB. unfold proof_dec. destruct (bc_list dec bs) as [[w r]|] eqn:E1; [|discriminate]. cbn [rbind fst snd]. destruct (bc_list_good _ _ _ HB E1) as [Gw Br].
    destruct (bc_list dec r) as [[a r2]|] eqn:E2; [|discriminate]. cbn [rbind fst snd]. intros E. injection E as <-. cbn. split; [exact Gw|]. apply (bc_list_good _ _ _ Br E2).
  Qed.

  Lemma xor_rot (a b c : list Z) : length a = length b -> map2 Z.lxor (map2 Z.lxor a b) c = map2 Z.lxor (map2 Z.lxor b a) c.
  Proof using.
    intros L. f_equal. revert b L. induction a as [|x a IH]; intros [|y b] L; try discriminate; [reflexivity|]. cbn. rewrite Z.lxor_comm, IH by (injection L; auto). reflexivity.
  Qed.
  Lemma xor_swap (a b c : list Z) : map2 Z.lxor (map2 Z.lxor a b) c = map2 Z.lxor (map2 Z.lxor a c) b.
  Proof using.
    revert b c. induction a as [|x a IH]; intros [|y b] [|z c]; cbn; try reflexivity; try (destruct (map2 Z.lxor a b); reflexivity); try (destruct (map2 Z.lxor a c); reflexivity).
    rewrite IH. f_equal. rewrite !Z.lxor_assoc, (Z.lxor_comm y). reflexivity.
  Qed.
  Definition own_coin (V : list (list A)) (j : pid) (q0 : rstate G) (ent : rstate G) : list Z :=
    match prove_rng O red n cf G draw_el l m V (thetas q0 j) lag ent with Ok pr => snd (draw_bytes G 32 (fst pr)) | Err _ => [] end.
  Definition both_coins i (Vi Vj : list (list A)) (q0 ei ej : rstate G) : list Z := map2 Z.lxor (own_coin Vi i q0 ei) (own_coin Vj (next i) q0 ej).
  Theorem dz_duo i Vi Vpi Vni Vj Vpj Vnj ei ej (s t : sst G) tr :
    w_p G t = w_p G s ->
    (forall p betas r sp, Forall good (dp_w p) -> Forall good (dp_a p) -> length betas = m -> Forall good betas -> good r -> verify_pi O red n l m betas r lag coords Vpi p = Ok sp -> good_share good sp) ->
    (forall q, good (snd (draw_el q))) ->
    both_end i (dz_verify O red eqb n cf enc dec G H draw_el again fuel i l m lag coords Vi Vpi Vni ei s)
      (dz_verify O red eqb n cf enc dec G H draw_el again fuel (next i) l m lag coords Vj Vpj Vnj ej t) tr ->
    exists m1 c1 o1 r1 m2 c2 o2 r2 p1,
      sent_to i (tr (prev i)) = m1 :: c1 :: o1 :: r1 /\ sent_to (next i) (tr (prev i)) = m2 :: c2 :: o2 :: r2 /\ fits H o1 c1 /\ fits H o2 c2 /\
      proof_dec dec m1 = Ok p1 /\ Forall good (dp_w p1) /\ Forall good (dp_a p1) /\
      let h := honest_coin i tr in h = both_coins i Vi Vj (w_p G s) ei ej /\
      exists s1 s2, verify_pi O red n l m (coin_betas (coin_of h o1) (prev i)) (coin_point (coin_of h o1) (prev i)) lag coords Vpi p1 = Ok s1 /\
        verify_pi O red n l m (coin_betas (coin_of h o2) (prev i)) (coin_point (coin_of h o2) (prev i)) lag coords Vnj (proof_from_seed n G draw_el l m m2) = Ok s2 /\
        combine_verifications O red eqb n cf l (thetas (w_p G s) (prev i)) s1 s2 = Ok tt.
  Proof.
    intros Hp HG HD ((x & Li) & (y & Lj) & Q & HB).
    destruct (dz_local _ _ _ _ _ _ _ _ Li) as (pri & Epi & m1 & c1 & o1 & sh1 & m2 & c2 & o2 & p1 & coin1 & sp1 & sn1 & rcv1 & A1 & A2 & A3 & A4 & A5 & A6 & A7 & A8 & A9 & A10 & A11 & A12).
    destruct (dz_local _ _ _ _ _ _ _ _ Lj) as (prj & Epj & n1 & d1 & u1 & sh2 & n2 & d2 & u2 & p2 & coin2 & sp2 & sn2 & rcv2 & B1 & B2 & B3 & B4 & B5 & B6 & B7 & B8 & B9 & B10 & B11 & B12).
    rewrite Hp in Epj, B12. replace (prev (next i)) with i in * by (destruct i; reflexivity). replace (next (next i)) with (prev i) in * by (destruct i; reflexivity).
    destruct (Q (next i) i ltac:(destruct i; discriminate) ltac:(destruct i; discriminate)) as (? & Q1). rewrite A2, B4 in Q1. cbn [app] in Q1. pose proof (f_equal (fun x => nth 2 x []) Q1) as E3. cbn [nth] in E3. clear Q1.
    destruct (Q i (next i) ltac:(destruct i; discriminate) ltac:(destruct i; discriminate)) as (? & Q2). rewrite B1, A3 in Q2. cbn [app] in Q2. pose proof (f_equal (fun x => nth 2 x []) Q2) as F3. pose proof (f_equal (fun x => nth 3 x []) Q2) as F4. cbn [nth] in F3, F4. clear Q2.
    destruct (Q (prev i) i ltac:(destruct i; discriminate) ltac:(destruct i; discriminate)) as (? & Q3). rewrite A1 in Q3. destruct (Q (prev i) (next i) ltac:(destruct i; discriminate) ltac:(destruct i; discriminate)) as (? & Q4). rewrite B2 in Q4. cbn [app] in Q3, Q4.
    exists m1, c1, o1. eexists. exists n2, d2, u2. eexists. exists p1.
    split; [symmetry; exact Q3|]. split; [symmetry; exact Q4|]. split; [exact A5|]. split; [exact B6|]. split; [exact A8|].
    pose proof (HB i) as Bi. rewrite <- Q3 in Bi. apply Forall_inv in Bi. rename Bi into Bm1.
    destruct (proof_dec_good _ _ Bm1 A8) as [Gw Ga]. split; [exact Gw|]. split; [exact Ga|]. cbv zeta.
    assert (L8 : forall q z, firstn 32 (ring_slice_to_bytes 8 (snd (draw_bytes G 32 q)) ++ z) = snd (draw_bytes G 32 q)).
    { intros q z. rewrite bytes_id by apply draw_bytes_range. rewrite firstn_app, draw_bytes_length, Nat.sub_diag, firstn_O, app_nil_r, firstn_all2 by (rewrite draw_bytes_length; lia). reflexivity. }
    pose proof (draw_bytes_length G 32 (fst pri)) as Lci. pose proof (draw_bytes_length G 32 (fst prj)) as Lcj.
    assert (C1 : coin1 = map2 Z.lxor (map2 Z.lxor (snd (draw_bytes G 32 (fst pri))) (snd (draw_bytes G 32 (fst prj)))) (firstn 32 o1)).
    { rewrite A7, E3, L8. apply xor_swap. }
    assert (C2 : coin2 = map2 Z.lxor (map2 Z.lxor (snd (draw_bytes G 32 (fst pri))) (snd (draw_bytes G 32 (fst prj)))) (firstn 32 u2)).
    { rewrite B7, F3, L8. apply xor_rot. congruence. }
    assert (EH : honest_coin i tr = map2 Z.lxor (snd (draw_bytes G 32 (fst pri))) (snd (draw_bytes G 32 (fst prj)))).
    { unfold honest_coin, opened. rewrite A4, B3. cbn [nth]. rewrite !L8. reflexivity. }
    split; [unfold both_coins, own_coin; rewrite Epi, Epj; exact EH|].
    exists sp1, sn2. unfold coin_of. rewrite EH, <- C1, <- C2. split; [exact A9|]. split; [exact B10|].
    assert (GS : good_share good sp1).
    { apply (HG p1 (coin_betas coin1 (prev i)) (coin_point coin1 (prev i)) sp1); [exact Gw|exact Ga|apply (draw_three_ok G draw_el good HD)|apply (draw_three_ok G draw_el good HD)|apply (draw_points_ok G draw_el again fuel good HD)|exact A9]. }
    pose proof (share_dec_enc enc dec good HC sp1 GS) as SD. rewrite <- F4, B11 in SD. injection SD as ->. exact B12.
  Qed.
End Kind.
