(** Honest runs of Swift3's set-up and coin; what a finished set-up or coin has checked. *)
From Verif Require Import Base Ring RingProofs Prog Sched Conc Rng Rel Net BitArith Aby3 ShareSpec Aby3Proofs Aby3Proofs2 Jmp JmpProofs Aby3Mal Aby3MalProofs Aby3MalProofs2
  AddProofs Swift3 Swift3Spec Swift3Proofs Swift3Setup.

Lemma wp_swap_others (m0 m1 : pid -> msg) (Q : (pid -> msg * msg) -> Prop) :
  Q (fun i => match i with P0 => (m0 P1, m0 P2) | P1 => (m0 P0, m1 P2) | P2 => (m1 P0, m1 P1) end) ->
  wp (fun i => swap_others i (m0 i) (m1 i)) Q.
Proof.
  intros HQ. apply wp_cwp. unfold swap_others. cbn [other0 other1]. crun. eapply cwp_ret; [..|exact HQ]; reflexivity.
Qed.
Lemma cut_0 n (a b : list Z) : length a = n -> cut 0 n (a ++ b) = a.
Proof. intros <-. unfold cut. cbn [skipn]. apply firstn_length_app. Qed.
Lemma cut_skip n m k (a b : list Z) : length a = n -> cut (n + m) k (a ++ b) = cut m k b.
Proof. intros <-. unfold cut. rewrite skipn_app, skipn_all2 by lia. cbn [app]. f_equal. f_equal. lia. Qed.
Lemma cut_all n (a : list Z) : length a = n -> cut 0 n a = a.
Proof. intros <-. unfold cut. cbn [skipn]. apply firstn_all. Qed.

(** The keys the parties derive: [to i j] is the seed i chose for j. *)
Definition seed_for (sd1 sd2 : pid -> list Z) (i j : pid) : list Z := if pid_eqb j (other0 i) then sd1 i else sd2 i.

Lemma xor_swap a b : map2 (fun x y => rxor y x) a b = map2 Z.lxor a b.
Proof. revert b. induction a as [|x a IH]; intros [|y b]; cbn; try reflexivity. rewrite IH, (Z.lxor_comm y x : rxor y x = _). reflexivity. Qed.
Lemma lxor_list_comm a b : map2 Z.lxor a b = map2 Z.lxor b a.
Proof. revert b. induction a as [|x a IH]; intros [|y b]; cbn; try reflexivity. rewrite IH, Z.lxor_comm. reflexivity. Qed.
Lemma xor3_eq a b c : map2 (fun x yz => rxor (rxor (fst yz) x) (snd yz)) a (combine b c) = map2 Z.lxor (map2 Z.lxor a b) c.
Proof.
  revert b c. induction a as [|x a IH]; intros [|y b] [|z c]; cbn; try reflexivity. rewrite IH. f_equal. unfold rxor.
  rewrite (Z.lxor_comm y x). reflexivity.
Qed.
Lemma xor3_eq' a b c : map2 (fun x yz => rxor x (rxor (fst yz) (snd yz))) a (combine b c) = map2 Z.lxor (map2 Z.lxor a b) c.
Proof.
  revert b c. induction a as [|x a IH]; intros [|y b] [|z c]; cbn; try reflexivity. rewrite IH. f_equal. unfold rxor.
  rewrite Z.lxor_assoc. reflexivity.
Qed.
Lemma xor3_rot a b c : map2 Z.lxor (map2 Z.lxor b a) c = map2 Z.lxor (map2 Z.lxor a b) c.
Proof. rewrite (lxor_list_comm b a). reflexivity. Qed.
Lemma xor3_rot2 a b c : map2 Z.lxor (map2 Z.lxor c a) b = map2 Z.lxor (map2 Z.lxor a b) c.
Proof.
  revert b c. induction a as [|x a IH]; intros [|y b] [|z c]; cbn; try reflexivity. rewrite IH. f_equal.
  rewrite (Z.lxor_comm z x), !Z.lxor_assoc. f_equal. apply Z.lxor_comm.
Qed.

Section Setup.
  Variables (G : rng) (H : hasher) (KU : Z).
  Notation ST := (sst G).

  Definition wquiet (s : pid -> ST) : Prop :=
    (forall i, w_sn G (s (prev i)) = w_rp G (s i)) /\ (forall i, w_sp G (s (next i)) = w_rn G (s i)) /\
    and_shared (fun i => w_and G (s i)) /\ mul_shared KU (fun i => w_mul G (s i)) /\ dot_shared KU (fun i => w_dot G (s i)).

  Lemma w_setup_prf_ok (sd1 sd2 sd3 rd1 rd2 rd3 : pid -> list Z) (s : pid -> ST) :
    (forall i, length (sd1 i) = 32%nat /\ length (sd2 i) = 32%nat /\ length (sd3 i) = 32%nat /\
               length (rd1 i) = 32%nat /\ length (rd2 i) = 32%nat /\ length (rd3 i) = 32%nat) ->
    (forall i, Forall (inr 8) (sd1 i) /\ Forall (inr 8) (sd2 i) /\ Forall (inr 8) (sd3 i)) ->
    wquiet s ->
    wpM (fun i => w_setup_prf G H i (sd1 i) (sd2 i) (sd3 i) (rd1 i) (rd2 i) (rd3 i)) s
      (fun s' _ => winv G KU s' /\
         (forall i, my_prf G (w_prf G (s' i)) = rseed G (map2 Z.lxor (seed_for sd1 sd2 i (next i)) (seed_for sd1 sd2 (next i) i))) /\
         (forall i, w_p G (s' i) = rseed G (map2 Z.lxor (map2 Z.lxor (sd3 P0) (sd3 P1)) (sd3 P2)))).
  Proof using.
    intros HL HR (Hq1 & Hq2 & HA & HM & HD). unfold w_setup_prf.
    assert (L1 : forall i, length (sd1 i) = 32%nat) by (intros; apply HL). assert (L2 : forall i, length (sd2 i) = 32%nat) by (intros; apply HL).
    assert (L3 : forall i, length (sd3 i) = 32%nat) by (intros; apply HL).
    assert (L4 : forall i, length (rd1 i) = 32%nat) by (intros; apply HL). assert (L5 : forall i, length (rd2 i) = 32%nat) by (intros; apply HL).
    assert (L6 : forall i, length (rd3 i) = 32%nat) by (intros; apply HL).
    assert (B1 : forall i, ring_slice_to_bytes 8 (sd1 i) = sd1 i) by (intros; apply bytes_id, HR).
    assert (B2 : forall i, ring_slice_to_bytes 8 (sd2 i) = sd2 i) by (intros; apply bytes_id, HR).
    assert (B3 : forall i, ring_slice_to_bytes 8 (sd3 i) = sd3 i) by (intros; apply bytes_id, HR).
    clear HL HR. cbn [c_open commit_with_rand o_values o_rand c_values c_rand c_comm].
    wbind. apply wpM_lift. apply (wp_swap_others (fun i => hfun H (ring_slice_to_bytes 8 (sd1 i) ++ rd1 i) ++ hfun H (ring_slice_to_bytes 8 (sd3 i) ++ rd3 i))
       (fun i => hfun H (ring_slice_to_bytes 8 (sd2 i) ++ rd2 i) ++ hfun H (ring_slice_to_bytes 8 (sd3 i) ++ rd3 i))).
    match goal with |- wpM (fun i => if @?C i then _ else bindM (@?P i) (@?F i)) _ _ => apply (wpM_ext (fun i => bindM (P i) (F i))) end.
    { intros [| |]; cbn [fst snd]; rewrite !app_length, !(hlen H); reflexivity. }
    wbind. apply wpM_lift.
    apply (wp_swap_others (fun i => (ring_slice_to_bytes 8 (sd1 i) ++ rd1 i) ++ ring_slice_to_bytes 8 (sd3 i) ++ rd3 i)
       (fun i => (ring_slice_to_bytes 8 (sd2 i) ++ rd2 i) ++ ring_slice_to_bytes 8 (sd3 i) ++ rd3 i)).
    apply (wpM_ext (fun i => bindM getM (fun t => putM (w_set_p G (w_set_prf G t
       (prf_new G (map2 Z.lxor (seed_for sd1 sd2 i (next i)) (seed_for sd1 sd2 (next i) i)) (map2 Z.lxor (seed_for sd1 sd2 i (prev i)) (seed_for sd1 sd2 (prev i) i))))
       (rseed G (map2 Z.lxor (map2 Z.lxor (sd3 P0) (sd3 P1)) (sd3 P2))))))).
    { intros i. rewrite !B1, !B2, !B3.
      assert (HC : forall (a b c d : list Z), length a = 32%nat -> length b = 32%nat -> length c = 32%nat -> length d = 32%nat ->
        length ((a ++ b) ++ c ++ d) = 128%nat /\ cut 0 32 ((a ++ b) ++ c ++ d) = a /\ cut 32 32 ((a ++ b) ++ c ++ d) = b /\
        cut 64 32 ((a ++ b) ++ c ++ d) = c /\ cut 96 32 ((a ++ b) ++ c ++ d) = d).
      { intros a b c d Ha Hb Hc Hd. rewrite !app_length, Ha, Hb, Hc, Hd. split; [reflexivity|]. rewrite <- app_assoc.
        split; [apply cut_0, Ha|]. split; [rewrite (cut_skip 32 0 32 a) by exact Ha; apply cut_0, Hb|].
        split; [rewrite (cut_skip 32 32 32 a) by exact Ha; rewrite (cut_skip 32 0 32 b) by exact Hb; apply cut_0, Hc|].
        rewrite (cut_skip 32 64 32 a) by exact Ha; rewrite (cut_skip 32 32 32 b) by exact Hb; rewrite (cut_skip 32 0 32 c) by exact Hc. apply cut_all, Hd. }
      assert (HF : forall a b, firstn 64 (hfun H a ++ hfun H b) = hfun H a) by (intros a b; rewrite <- (hlen H a) at 1; apply firstn_length_app).
      assert (HS : forall a b, skipn 64 (hfun H a ++ hfun H b) = hfun H b) by (intros a b; rewrite <- (hlen H a) at 1; apply skipn_length_app).
      destruct i; cbn [fst snd other0 other1 next prev seed_for pid_eqb];
      rewrite !L1; change (2 * (32 + 32))%nat with 128%nat; change (32 + 32)%nat with 64%nat; change (2 * 32 + 32)%nat with 96%nat;
      repeat match goal with |- context [((?a ++ ?b) ++ ?c ++ ?d)] =>
        let E := fresh in destruct (HC a b c d) as (E & ? & ? & ? & ?); auto; rewrite E; clear E;
        repeat match goal with E : cut _ _ _ = _ |- _ => rewrite !E; clear E end end.
      all: cbn [Nat.eqb negb orb]; unfold verify_commitment, o_verify; cbn [o_values o_rand]; rewrite !HF, !HS, ?B1, ?B2, ?B3, !bytes_eqb_refl; cbn [negb orb].
      all: unfold seed_for; cbn [other0 pid_eqb]; rewrite !xor_swap, !xor3_eq.
      - reflexivity.
      - rewrite (xor3_rot (sd3 P0) (sd3 P1)). reflexivity.
      - rewrite (xor3_rot2 (sd3 P0) (sd3 P1)). reflexivity. }
    wbind. apply wpM_get.
    apply (wpM_put s (fun i => w_set_p G (w_set_prf G (s i)
       (prf_new G (map2 Z.lxor (seed_for sd1 sd2 i (next i)) (seed_for sd1 sd2 (next i) i)) (map2 Z.lxor (seed_for sd1 sd2 i (prev i)) (seed_for sd1 sd2 (prev i) i))))
       (rseed G (map2 Z.lxor (map2 Z.lxor (sd3 P0) (sd3 P1)) (sd3 P2))))).
    split; [|split; [intros i; reflexivity|intros i; reflexivity]].
    split; [|split; [intros i; reflexivity|split; [exact Hq1|split; [exact Hq2|auto]]]].
    intros i. cbn. f_equal. rewrite lxor_list_comm. destruct i; reflexivity.
  Qed.

  Lemma w_coin_ok (sd rd : pid -> list Z) (s : pid -> ST) :
    (forall i, length (sd i) = 32%nat /\ length (rd i) = 32%nat /\ Forall (inr 8) (sd i)) ->
    wpM (fun i => w_coin G H i (sd i) (rd i)) s
      (fun s' c => s' = s /\ forall i, c i = map2 Z.lxor (map2 Z.lxor (sd P0) (sd P1)) (sd P2)).
  Proof using.
    intros HL. unfold w_coin.
    assert (L1 : forall i, length (sd i) = 32%nat) by (intros; apply HL). assert (L2 : forall i, length (rd i) = 32%nat) by (intros; apply HL).
    assert (B1 : forall i, ring_slice_to_bytes 8 (sd i) = sd i) by (intros; apply bytes_id, HL).
    clear HL. cbn [c_open commit_with_rand o_values o_rand c_values c_rand c_comm].
    wbind. apply wpM_lift. apply (wp_broadcast (fun i => hfun H (ring_slice_to_bytes 8 (sd i) ++ rd i))).
    match goal with |- wpM (fun i => if @?C i then _ else bindM (@?P i) (@?F i)) _ _ => apply (wpM_ext (fun i => bindM (P i) (F i))) end.
    { intros [| |]; cbv [other0 other1 pid_num Z.to_nat Pos.to_nat Pos.iter_op Init.Nat.add]; cbn [nth]; rewrite !(hlen H); reflexivity. }
    wbind. apply wpM_lift. apply (wp_broadcast (fun i => ring_slice_to_bytes 8 (sd i) ++ rd i)).
    apply (wpM_ext (fun i => retM (map2 Z.lxor (map2 Z.lxor (sd P0) (sd P1)) (sd P2)))).
    { assert (HC : forall (a b : list Z), length a = 32%nat -> length b = 32%nat ->
        length (a ++ b) = 64%nat /\ cut 0 32 (a ++ b) = a /\ cut 32 32 (a ++ b) = b).
      { intros a b Ha Hb. rewrite !app_length, Ha, Hb. split; [reflexivity|].
        split; [apply cut_0, Ha|]. rewrite (cut_skip 32 0 32 a) by exact Ha; apply cut_all, Hb. }
      intros i. rewrite !L1. rewrite !B1.
      destruct i; cbv [other0 other1 pid_num Z.to_nat Pos.to_nat Pos.iter_op Init.Nat.add]; cbn [nth];
      repeat match goal with |- context [length (?a ++ ?b)] => rewrite (proj1 (HC a b ltac:(auto) ltac:(auto))) end;
      cbn [Nat.eqb negb orb];
      repeat match goal with |- context [cut 0 32 (?a ++ ?b)] => rewrite (proj1 (proj2 (HC a b ltac:(auto) ltac:(auto)))) end;
      repeat match goal with |- context [cut 32 32 (?a ++ ?b)] => rewrite (proj2 (proj2 (HC a b ltac:(auto) ltac:(auto)))) end;
      unfold verify_commitment, o_verify; cbn [o_values o_rand]; rewrite !B1, !bytes_eqb_refl; cbn [negb]; rewrite xor3_eq'.
      - reflexivity.
      - rewrite (xor3_rot (sd P0) (sd P1)). reflexivity.
      - rewrite (xor3_rot2 (sd P0) (sd P1)). reflexivity. }
    apply wpM_ret. auto.
  Qed.
End Setup.

(** *** One party against any others *)
Ltac lrun_steps := repeat match goal with
    | X : lrun (Send _ _ _) _ _ |- _ => inversion X; clear X; subst
    | X : lrun (Recv _ _) _ _ |- _ => inversion X; clear X; subst; cbn [bind fst snd] in *
    end.
Ltac lrun_if E := match goal with X : lrun ((if ?b then _ else _) _) _ _ |- _ => destruct b eqn:E; [inversion X|]; cbn in X end.

Lemma cut_firstn n l : cut 0 n l = firstn n l.
Proof. reflexivity. Qed.
Lemma cut_rest n k l : length l = (n + k)%nat -> cut n k l = skipn n l.
Proof. intros E. unfold cut. apply firstn_all2. rewrite skipn_length. lia. Qed.
Local Opaque cut.
Lemma w_coin_checked G H i sd rd (s : sst G) tr s' c : length sd = 32%nat -> length rd = 32%nat ->
  lrun (w_coin G H i sd rd s) tr (Ret (s', c)) ->
  exists c0 o0 c1 o1,
    rcvd_from (other0 i) tr = [c0; o0] /\ rcvd_from (other1 i) tr = [c1; o1] /\
    sent_to (other0 i) tr = [c_comm (commit_with_rand H 8 sd rd); ring_slice_to_bytes 8 sd ++ rd] /\
    sent_to (other1 i) tr = [c_comm (commit_with_rand H 8 sd rd); ring_slice_to_bytes 8 sd ++ rd] /\
    length o0 = 64%nat /\ length o1 = 64%nat /\
    o_verify H 8 (Opening (firstn 32 o0) (skipn 32 o0)) c0 = true /\
    o_verify H 8 (Opening (firstn 32 o1) (skipn 32 o1)) c1 = true /\
    c = map2 Z.lxor (map2 Z.lxor sd (firstn 32 o0)) (firstn 32 o1).
Proof.
  intros Ls Lr L. unfold w_coin in L. rewrite Ls in L. unfold bindM, liftM, broadcast in L.
  destruct i; cbn [send_all recv_all pid_eqb bind other0 other1] in L;
  lrun_steps; cbv [pid_num Z.to_nat Pos.to_nat Pos.iter_op Init.Nat.add] in *; cbn [nth] in *.
  all: lrun_if E1; cbn [send_all recv_all pid_eqb bind other0 other1] in *; lrun_steps; cbv [pid_num Z.to_nat Pos.to_nat Pos.iter_op Init.Nat.add] in *; cbn [nth] in *.
  all: lrun_if E2; lrun_if E3; lrun_if E4.
  all: match goal with X : lrun (retM _ _) _ _ |- _ => unfold retM in X; apply lrun_ret in X; destruct X as [-> X]; injection X as <- <- end.
  all: apply negb_false_iff in E3, E4; apply orb_false_elim in E2; destruct E2 as [E2 E2']; apply negb_false_iff in E2, E2'; apply Nat.eqb_eq in E2, E2'; cbn in E2, E2'.
  all: unfold verify_commitment in *; rewrite cut_firstn, cut_rest in E3, E4 by assumption.
  all: do 4 eexists; cbn [other0 other1 rcvd_from sent_to pid_eqb].
  all: split; [reflexivity|]; split; [reflexivity|]; split; [reflexivity|]; split; [reflexivity|].
  all: split; [exact E2|]; split; [exact E2'|]; split; [exact E3|]; split; [exact E4|]; rewrite !cut_firstn; apply xor3_eq'.
Qed.
Lemma w_setup_checked G H i s1 s2 s3 r1 r2 r3 (s : sst G) tr s' u : length s1 = 32%nat ->
  lrun (w_setup_prf G H i s1 s2 s3 r1 r2 r3 s) tr (Ret (s', u)) ->
  exists m0 n0 m1 n1,
    rcvd_from (other0 i) tr = [m0; n0] /\ rcvd_from (other1 i) tr = [m1; n1] /\
    sent_to (other0 i) tr = [c_comm (commit_with_rand H 8 s1 r1) ++ c_comm (commit_with_rand H 8 s3 r3);
                             (ring_slice_to_bytes 8 s1 ++ r1) ++ ring_slice_to_bytes 8 s3 ++ r3] /\
    sent_to (other1 i) tr = [c_comm (commit_with_rand H 8 s2 r2) ++ c_comm (commit_with_rand H 8 s3 r3);
                             (ring_slice_to_bytes 8 s2 ++ r2) ++ ring_slice_to_bytes 8 s3 ++ r3] /\
    length m0 = 128%nat /\ length m1 = 128%nat /\ length n0 = 128%nat /\ length n1 = 128%nat /\
    o_verify H 8 (Opening (cut 0 32 n0) (cut 32 32 n0)) (firstn 64 m0) = true /\
    o_verify H 8 (Opening (cut 64 32 n0) (cut 96 32 n0)) (skipn 64 m0) = true /\
    o_verify H 8 (Opening (cut 0 32 n1) (cut 32 32 n1)) (firstn 64 m1) = true /\
    o_verify H 8 (Opening (cut 64 32 n1) (cut 96 32 n1)) (skipn 64 m1) = true /\
    w_prf G s' = (let k1 := map2 Z.lxor s1 (cut 0 32 n0) in let k2 := map2 Z.lxor s2 (cut 0 32 n1) in
                  if pid_eqb i P1 then prf_new G k2 k1 else prf_new G k1 k2) /\
    w_p G s' = rseed G (map2 Z.lxor (map2 Z.lxor s3 (cut 64 32 n0)) (cut 64 32 n1)).
Proof.
  intros Ls L. unfold w_setup_prf in L. rewrite Ls in L. change (2 * (32 + 32))%nat with 128%nat in L. change (32 + 32)%nat with 64%nat in L.
  change (2 * 32 + 32)%nat with 96%nat in L. unfold bindM, liftM, swap_others in L. cbn [bind] in L. lrun_steps.
  match goal with X : lrun ((if ?b then _ else _) _) _ _ |- _ => destruct b eqn:E1; [inversion X|]; cbn [bind] in X end. lrun_steps.
  match goal with X : lrun ((if ?b then _ else _) _) _ _ |- _ => destruct b eqn:E2; [inversion X|] end.
  match goal with X : lrun ((if ?b then _ else _) _) _ _ |- _ => destruct b eqn:E3; [inversion X|] end.
  match goal with X : lrun ((if ?b then _ else _) _) _ _ |- _ => destruct b eqn:E4; [inversion X|] end.
  match goal with X : lrun _ _ _ |- _ => unfold getM, putM in X; cbn [bind] in X; apply lrun_ret in X; destruct X as [-> X]; injection X as <- <- end.
  apply orb_false_elim in E1, E2, E3, E4. destruct E1 as [E1 E1'], E2 as [E2 E2'], E3 as [E3 E3'], E4 as [E4 E4'].
  apply negb_false_iff in E1, E1', E2, E2', E3, E3', E4, E4'. apply Nat.eqb_eq in E1, E1', E2, E2'. unfold verify_commitment in *. cbn [fst snd] in *.
  do 4 eexists. cbn [rcvd_from sent_to].
  repeat match goal with |- context [pid_eqb ?a ?b] => first [replace (pid_eqb a b) with true by (destruct i; reflexivity) | replace (pid_eqb a b) with false by (destruct i; reflexivity)] end.
  split; [reflexivity|]. split; [reflexivity|]. split; [reflexivity|]. split; [reflexivity|].
  split; [exact E1|]. split; [exact E1'|]. split; [exact E2|]. split; [exact E2'|].
  split; [exact E3|]. split; [exact E3'|]. split; [exact E4|]. split; [exact E4'|].
  cbn [w_prf w_p w_set_p w_set_prf]. rewrite xor3_eq, !xor_swap. split; [destruct i; reflexivity|reflexivity].
Qed.

(** *** A third party that commits to different seeds towards the two honest parties *)
Definition two_faced {A} (H : hasher) (sA rA sB rB : list Z) (r : A) : prog A :=
  Send P0 (c_comm (commit_with_rand H 8 sA rA)) (Send P1 (c_comm (commit_with_rand H 8 sB rB))
  (Recv P0 (fun _ => Recv P1 (fun _ =>
   Send P0 (ring_slice_to_bytes 8 sA ++ rA) (Send P1 (ring_slice_to_bytes 8 sB ++ rB)
  (Recv P0 (fun _ => Recv P1 (fun _ => Ret r)))))))).
Lemma two_faced_coin G H sd0 rd0 sd1 rd1 sA rA sB rB (s t u : sst G) :
  Forall (fun l => length l = 32%nat /\ Forall (inr 8) l) [sd0; rd0; sd1; rd1; sA; rA; sB; rB] ->
  evals (fun i => match i with P0 => w_coin G H P0 sd0 rd0 s | P1 => w_coin G H P1 sd1 rd1 t | P2 => two_faced H sA rA sB rB (u, []) end)
    (fun i => match i with P0 => (s, map2 Z.lxor (map2 Z.lxor sd0 sd1) sA) | P1 => (t, map2 Z.lxor (map2 Z.lxor sd1 sd0) sB) | P2 => (u, []) end).
Proof.
  intros HF.
  assert (HL : forall l, In l [sd0; rd0; sd1; rd1; sA; rA; sB; rB] -> length l = 32%nat /\ ring_slice_to_bytes 8 l = l).
  { intros l Hl. rewrite Forall_forall in HF. destruct (HF l Hl). split; [assumption|]. apply bytes_id; assumption. }
  destruct (HL sd0 ltac:(cbn; tauto)) as [L0 B0], (HL sd1 ltac:(cbn; tauto)) as [L1 B1], (HL sA ltac:(cbn; tauto)) as [L2 B2], (HL sB ltac:(cbn; tauto)) as [L3 B3].
  destruct (HL rd0 ltac:(cbn; tauto)) as [L4 _], (HL rd1 ltac:(cbn; tauto)) as [L5 _], (HL rA ltac:(cbn; tauto)) as [L6 _], (HL rB ltac:(cbn; tauto)) as [L7 _]. clear HF HL.
  assert (HC : forall (a b : list Z), length a = 32%nat -> length b = 32%nat ->
        length (a ++ b) = 64%nat /\ cut 0 32 (a ++ b) = a /\ cut 32 32 (a ++ b) = b).
  { intros a b Ha Hb. rewrite !app_length, Ha, Hb. split; [reflexivity|].
    split; [apply cut_0, Ha|]. rewrite (cut_skip 32 0 32 a) by exact Ha; apply cut_all, Hb. }
  enough (HW : wp (fun i => match i with P0 => w_coin G H P0 sd0 rd0 s | P1 => w_coin G H P1 sd1 rd1 t | P2 => two_faced H sA rA sB rB (u, []) end)
    (fun R => forall i, R i = match i with P0 => (s, map2 Z.lxor (map2 Z.lxor sd0 sd1) sA) | P1 => (t, map2 Z.lxor (map2 Z.lxor sd1 sd0) sB) | P2 => (u, []) end)).
  { destruct HW as (R & (sc & HS) & E). exists sc. unfold finished in *. unfold tabulate in *. rewrite !E in HS. exact HS. }
  apply wp_cwp. unfold w_coin, two_faced. rewrite L0, L1. unfold bindM, liftM, broadcast. cbn [commit_with_rand c_comm c_values c_rand send_all recv_all pid_eqb bind other0 other1].
  rewrite B0, B1, B2, B3.
  do 12 (cstep; qnorm; cbv beta; cbn [bind fst snd]).
  cbv [pid_num Z.to_nat Pos.to_nat Pos.iter_op Init.Nat.add]; cbn [nth].
  rewrite !(hlen H). change (64 =? 64)%nat with true. cbn [negb orb bind send_all recv_all pid_eqb].
  do 12 (cstep; qnorm; cbv beta; cbn [bind fst snd]). cbn [nth].
  repeat match goal with |- context [length (?a ++ ?b)] => rewrite (proj1 (HC a b ltac:(auto) ltac:(auto))) end. change (64 =? 64)%nat with true. cbn [negb orb].
  repeat match goal with |- context [cut 0 32 (?a ++ ?b)] => rewrite (proj1 (proj2 (HC a b ltac:(auto) ltac:(auto)))) end.
  repeat match goal with |- context [cut 32 32 (?a ++ ?b)] => rewrite (proj2 (proj2 (HC a b ltac:(auto) ltac:(auto)))) end.
  unfold verify_commitment, o_verify; cbn [o_values o_rand]. rewrite ?B0, ?B1, ?B2, ?B3, !bytes_eqb_refl; cbn [negb]; rewrite !xor3_eq'.
  unfold retM. eapply (cwp_ret _ _ _ _ (fun i => match i with P0 => _ | P1 => _ | P2 => _ end)); [reflexivity..|intros [| |]; reflexivity].
Qed.
