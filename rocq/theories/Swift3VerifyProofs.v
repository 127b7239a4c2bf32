(** Honest runs of Swift3's verification: encoding, and one generic exchange of proofs. *)
From Verif Require Import Base Ring RingProofs Prog Sched Conc Rng Net AddProofs Jmp JmpProofs Gf2 Poly Swift3 Swift3Proofs Swift3Setup Swift3SetupProofs Dzkp DzkpSpec GaloisSpec Swift3Verify.

(** ** Encoding *)
Lemma from_le_to_le k v : 0 <= v < 256 ^ Z.of_nat k -> from_le (to_le k v) = v.
Proof.
  revert v. induction k as [|k IH]; intros v Hv.
  - change (256 ^ Z.of_nat 0) with 1 in Hv. cbn. lia.
  - unfold to_le in *. cbn [to_be]. rewrite rev_app_distr. cbn [rev app]. unfold from_le in *. cbn [fold_right]. rewrite IH.
    + pose proof (Z.div_mod v 256 ltac:(lia)). lia.
    + rewrite Nat2Z.inj_succ, Z.pow_succ_r in Hv by lia. pose proof (Z.pow_pos_nonneg 256 (Z.of_nat k) ltac:(lia) ltac:(lia)).
      split; [apply Z.div_pos; lia|]. apply Z.div_lt_upper_bound; lia.
Qed.
Lemma to_le_len k v : length (to_le k v) = k.
Proof. unfold to_le. rewrite rev_length. revert v. induction k as [|k IH]; intros v; [reflexivity|]. cbn [to_be]. rewrite app_length, IH. cbn. lia. Qed.
Lemma bc_take_uint k v rest : 0 <= v < 256 ^ Z.of_nat k -> bc_take k (bc_uint k v ++ rest) = Ok (v, rest).
Proof.
  intros Hv. unfold bc_take, bc_uint. rewrite app_length, to_le_len.
  destruct (Nat.ltb_spec (k + length rest) k); [lia|]. rewrite <- (to_le_len k v) at 1 3. rewrite firstn_length_app, skipn_length_app, from_le_to_le by exact Hv. reflexivity.
Qed.
Definition codec {A} (good : A -> Prop) (enc : A -> list Z) (dec : list Z -> res (A * list Z)) : Prop :=
  forall a rest, good a -> dec (enc a ++ rest) = Ok (a, rest) /\ (0 < length (enc a))%nat.
Lemma bc_elems_ok {A} (good : A -> Prop) enc dec (l : list A) rest : codec good enc dec -> Forall good l ->
  bc_elems dec (length l) (flat_map enc l ++ rest) = Ok (l, rest).
Proof.
  intros HC. induction 1 as [|a l Ha Hl IH]; [reflexivity|]. cbn [length bc_elems flat_map]. rewrite <- app_assoc. rewrite (proj1 (HC a _ Ha)). cbn [rbind fst snd]. rewrite IH. reflexivity.
Qed.
Lemma flat_map_long {A} (good : A -> Prop) enc dec (l : list A) : codec good enc dec -> Forall good l -> (length l <= length (flat_map enc l))%nat.
Proof. intros HC. induction 1 as [|a l Ha Hl IH]; [reflexivity|]. cbn [length flat_map]. rewrite app_length. pose proof (proj2 (HC a [] Ha)). lia. Qed.
Definition short {A} (l : list A) : Prop := Z.of_nat (length l) < 2 ^ 64.
Lemma bc_list_ok {A} (good : A -> Prop) enc dec (l : list A) rest : codec good enc dec -> Forall good l -> short l ->
  bc_list dec (bc_vec enc l ++ rest) = Ok (l, rest).
Proof.
  intros HC Hl HS. unfold bc_list, bc_vec. rewrite <- app_assoc. unfold short in HS.
  rewrite bc_take_uint by (change (256 ^ Z.of_nat 8) with (2 ^ 64); lia). cbn [rbind fst snd].
  pose proof (flat_map_long _ _ _ _ HC Hl). rewrite app_length.
  destruct (Z.ltb_spec (Z.of_nat (length (flat_map enc l) + length rest)) (Z.of_nat (length l))); [lia|].
  rewrite Nat2Z.id. apply (bc_elems_ok good); assumption.
Qed.
Lemma bc_vec_long {A} enc (l : list A) : (0 < length (bc_vec enc l))%nat.
Proof. unfold bc_vec, bc_uint. rewrite app_length, to_le_len. lia. Qed.
Lemma gf_codec : codec u64 gf_enc gf_dec.
Proof.
  intros x rest Hx. unfold u64 in Hx. split; [|unfold gf_enc, bc_uint; rewrite to_le_len; lia]. unfold gf_dec, gf_enc. rewrite bc_take_uint.
  - cbn. rewrite N2Z.id. reflexivity.
  - change (256 ^ Z.of_nat 8) with (2 ^ 64). change (2 ^ 64) with (Z.of_N (2 ^ 64)). lia.
Qed.
Definition good_poly (K : Z) (p : list Z) : Prop := Forall (inr K) p /\ short p.
Lemma uint_codec K : 0 < K -> codec (inr K) (bc_uint (nbytes K)) (bc_take (nbytes K)).
Proof.
  intros HK v rest Hv. assert (L : (0 < nbytes K)%nat). { unfold nbytes. assert (1 <= (K + 7) / 8) by (apply Z.div_le_lower_bound; lia). lia. }
  split; [|unfold bc_uint; rewrite to_le_len; exact L]. apply bc_take_uint. unfold inr in Hv. split; [apply Hv|]. eapply Z.lt_le_trans; [apply Hv|].
  unfold nbytes. rewrite Z2Nat.id by (apply Z.div_pos; lia). change 256 with (2 ^ 8). rewrite <- Z.pow_mul_r by (try apply Z.div_pos; lia). apply Z.pow_le_mono_r; [lia|].
  pose proof (Z.mod_pos_bound (K + 7) 8 ltac:(lia)). pose proof (Z.div_mod (K + 7) 8 ltac:(lia)). lia.
Qed.
Lemma poly_codec K : 0 < K -> codec (good_poly K) (poly_enc K) (poly_dec K).
Proof.
  intros HK p rest [Wp Lp]. split; [|apply bc_vec_long]. unfold poly_enc, poly_dec. apply (bc_list_ok (inr K)); [apply uint_codec, HK|exact Wp|exact Lp].
Qed.

(** ** One kind of proof *)
Section Kind.
  Context {A : Type}.
  Variables (O : rops A) (red : A -> res A) (eqb : A -> A -> bool).
  Variable n : nat.
  Variable cf : forall B : Type, rops B -> list B -> B.
  Variables (enc : A -> list Z) (dec : list Z -> res (A * list Z)).
  Variables (G : rng) (H : hasher).
  Variable draw_el : rstate G -> rstate G * A.
  Variable again : A -> bool.
  Variable fuel : nat.
  Variable good : A -> Prop.
  Hypothesis HC : codec good enc dec.
  Hypothesis HD : forall s, good (snd (draw_el s)).

  Lemma draw_els_ok k s : length (snd (draw_els G draw_el k s)) = k /\ Forall good (snd (draw_els G draw_el k s)).
  Proof using HD.
    revert s. induction k as [|k IH]; intros s; [split; constructor|]. cbn [draw_els]. pose proof (HD s) as Hs. destruct (draw_el s) as [s1 v]. specialize (IH s1).
    destruct (draw_els G draw_el k s1) as [s2 vs]. cbn in *. split; [f_equal; apply IH|constructor; [exact Hs|apply IH]].
  Qed.
  Lemma draw_three_ok k s j : length (snd (draw_three G draw_el k s) j) = k /\ Forall good (snd (draw_three G draw_el k s) j).
  Proof using HD.
    unfold draw_three. pose proof (draw_els_ok k s) as X0. destruct (draw_els G draw_el k s) as [s0 v0]. pose proof (draw_els_ok k s0) as X1. destruct (draw_els G draw_el k s0) as [s1 v1].
    pose proof (draw_els_ok k s1) as X2. destruct (draw_els G draw_el k s1) as [s2 v2]. destruct j; assumption.
  Qed.
  Lemma redraw_ok f : forall s v, good v -> good (snd (redraw G draw_el again f s v)).
  Proof using HD. induction f as [|f IH]; intros s v Hv; [exact Hv|]. cbn. destruct (again v); [|exact Hv]. pose proof (HD s). destruct (draw_el s) as [s1 v1]. apply IH. assumption. Qed.
  Lemma draw_points_ok s j : good (snd (draw_points G draw_el again fuel s) j).
  Proof using HD.
    unfold draw_points. pose proof (HD s) as X0. destruct (draw_el s) as [s0 v0]. pose proof (HD s0) as X1. destruct (draw_el s0) as [s1 v1]. pose proof (HD s1) as X2. destruct (draw_el s1) as [s2 v2].
    pose proof (redraw_ok fuel s2 v0 X0) as Y0. destruct (redraw G draw_el again fuel s2 v0) as [s3 r0]. pose proof (redraw_ok fuel s3 v1 X1) as Y1. destruct (redraw G draw_el again fuel s3 v1) as [s4 r1].
    pose proof (redraw_ok fuel s4 v2 X2) as Y2. destruct (redraw G draw_el again fuel s4 v2) as [s5 r2]. destruct j; assumption.
  Qed.
  Definition good_list (l : list A) : Prop := Forall good l /\ short l.
  Definition good_proof (p : dproof A) : Prop := good_list (dp_w p) /\ good_list (dp_a p).
  Definition good_share (s : dshare A) : Prop := good_list (ds_f s) /\ good (ds_pr s) /\ good (ds_b s).
  Lemma proof_dec_enc p : good_proof p -> proof_dec dec (proof_enc enc p) = Ok p.
  Proof using HC.
    intros ((W1 & L1) & (W2 & L2)). unfold proof_dec, proof_enc. rewrite (bc_list_ok good) by assumption. cbn [rbind snd]. rewrite <- (app_nil_r (bc_vec enc (dp_a p))).
    rewrite (bc_list_ok good) by assumption. cbn. destruct p; reflexivity.
  Qed.
  Lemma share_dec_enc p : good_share p -> share_dec dec (share_enc enc p) = Ok p.
  Proof using HC.
    intros ((W1 & L1) & W2 & W3). unfold share_dec, share_enc. rewrite (bc_list_ok good) by assumption. cbn [rbind snd]. rewrite (proj1 (HC _ _ W2)). cbn [rbind snd].
    rewrite <- (app_nil_r (enc (ds_b p))). rewrite (proj1 (HC _ _ W3)). cbn. destruct p; reflexivity.
  Qed.

  Lemma gen_seed_ok (s : pid -> sst G) : (forall i, w_p G (s i) = w_p G (s P0)) ->
    wpM (fun _ => gen_seed G) s (fun s' W => s' = (fun i => w_set_p G (s i) (fst (draw_bytes G 32 (w_p G (s P0))))) /\ forall i, W i = snd (draw_bytes G 32 (w_p G (s P0)))).
  Proof using.
    intros Hp. unfold wpM. apply (wp_ext (fun i => Ret (w_set_p G (s i) (fst (draw_bytes G 32 (w_p G (s P0)))), snd (draw_bytes G 32 (w_p G (s P0)))))).
    { intros i. unfold gen_seed. rewrite (Hp i). destruct (draw_bytes G 32 (w_p G (s P0))). reflexivity. }
    apply wp_ret. split; reflexivity.
  Qed.
  Lemma exchange_ok l m (sd : pid -> list Z) (pf : pid -> dproof A) (s : pid -> sst G) :
    (forall i, good_proof (pf i)) -> (forall i, length (sd i) = 32%nat) ->
    wpM (fun i => exchange_proofs n enc dec G draw_el i l m (sd i) (pf i)) s
      (fun s' W => s' = s /\ forall i, W i = (pf (prev i), proof_from_seed n G draw_el l m (sd (next i)))).
  Proof using HC.
    intros Hp Hs. unfold wpM. apply wp_cwp. unfold exchange_proofs, bindM, liftM, resM, retM, liftM. cbn [bind next prev fst snd].
    do 6 (cstep; qnorm; cbv beta). 
    do 6 (cstep; qnorm; cbv beta; rewrite ?proof_dec_enc by apply Hp; cbn [of_res bind fst snd]; rewrite ?Hs; cbn [Nat.eqb negb bind of_res fst snd]; unfold retM; cbn [bind]).
    eapply (cwp_ret _ _ _ _ (fun i => (s i, (pf (prev i), proof_from_seed n G draw_el l m (sd (next i)))))); [reflexivity..|]. split; reflexivity.
  Qed.

  (** What one run computes, from the registered gates, the common generator and the parties' entropy. *)
  Variables (l m : nat) (lag : list (list A)) (coords : list A) (P Vp Vn : pid -> list (list A)) (ent : pid -> rstate G) (p0 : rstate G).
  Definition v_thetas : pid -> list A := snd (draw_three G draw_el l (rseed G (snd (draw_bytes G 32 p0)))).
  Definition v_prove (j : pid) : res (rstate G * (list Z * dproof A)) := prove_rng O red n cf G draw_el l m (P j) (v_thetas j) lag (ent j).
  Definition v_coin (x : pid -> rstate G * (list Z * dproof A)) : list Z :=
    let cseed k := snd (draw_bytes G 32 (fst (x k))) in map2 Z.lxor (map2 Z.lxor (cseed P0) (cseed P1)) (cseed P2).
  Definition v_betas (x : pid -> rstate G * (list Z * dproof A)) : pid -> list A := snd (draw_three G draw_el m (rseed G (v_coin x))).
  Definition v_points (x : pid -> rstate G * (list Z * dproof A)) : pid -> A := snd (draw_points G draw_el again fuel (fst (draw_three G draw_el m (rseed G (v_coin x))))).
  (** The outcome of the proof of party j: the text of C35, with these values. *)
  Definition dz_verdict (j : pid) : res unit :=
    rbind (v_prove P0) (fun x0 => rbind (v_prove P1) (fun x1 => rbind (v_prove P2) (fun x2 =>
    let x k := match k with P0 => x0 | P1 => x1 | P2 => x2 end in
    rbind (verify_pi O red n l m (v_betas x j) (v_points x j) lag coords (Vp (next j)) (snd (snd (x j)))) (fun s1 =>
    rbind (verify_pi O red n l m (v_betas x j) (v_points x j) lag coords (Vn (prev j)) (proof_from_seed n G draw_el l m (fst (snd (x j))))) (fun s2 =>
    combine_verifications O red eqb n cf l (v_thetas j) s1 s2))))).

  Definition provable : Prop := forall j thetas st, length thetas = l -> Forall good thetas ->
    exists x, prove_rng O red n cf G draw_el l m (P j) thetas lag st = Ok x /\ good_proof (snd (snd x)) /\ length (fst (snd x)) = 32%nat /\
      forall betas r, length betas = m -> Forall good betas -> good r ->
      exists s1 s2, verify_pi O red n l m betas r lag coords (Vp (next j)) (snd (snd x)) = Ok s1 /\ good_share s1 /\
        verify_pi O red n l m betas r lag coords (Vn (prev j)) (proof_from_seed n G draw_el l m (fst (snd x))) = Ok s2.
  Theorem dz_exchange_ok (s : pid -> sst G) : provable -> (forall i, w_p G (s i) = p0) ->
    wpM (fun i => dz_exchange O red n cf enc dec G H draw_el again fuel i l m lag coords (P i) (Vp i) (Vn i) (ent i)) s
      (fun s' W => s' = (fun i => w_set_p G (s i) (fst (draw_bytes G 32 p0))) /\ forall i, dz_decide O red eqb n cf l (W i) = dz_verdict (next i)).
  Proof using HC HD.
    intros HP Hp. unfold dz_exchange. wbind.
    eapply wpM_mono; [|apply gen_seed_ok; intros i; rewrite !Hp; reflexivity]. intros s1 seed [Hs1 Hseed]. rewrite Hp in Hs1, Hseed.
    assert (HT : forall j, length (v_thetas j) = l /\ Forall good (v_thetas j)) by (intros j; apply draw_three_ok).
    destruct (HP P0 (v_thetas P0) (ent P0) (proj1 (HT P0)) (proj2 (HT P0))) as (x0 & E0 & X0).
    destruct (HP P1 (v_thetas P1) (ent P1) (proj1 (HT P1)) (proj2 (HT P1))) as (x1 & E1 & X1).
    destruct (HP P2 (v_thetas P2) (ent P2) (proj1 (HT P2)) (proj2 (HT P2))) as (x2 & E2 & X2).
    pose (x := fun k => match k with P0 => x0 | P1 => x1 | P2 => x2 end).
    assert (EX : forall k, v_prove k = Ok (x k)) by (intros []; assumption).
    assert (GX : forall k, good_proof (snd (snd (x k)))) by (intros []; [apply X0|apply X1|apply X2]).
    assert (LX : forall k, length (fst (snd (x k))) = 32%nat) by (intros []; [apply X0|apply X1|apply X2]).
    assert (HV : forall j betas r, length betas = m -> Forall good betas -> good r ->
      exists s1 s2, verify_pi O red n l m betas r lag coords (Vp (next j)) (snd (snd (x j))) = Ok s1 /\ good_share s1 /\
        verify_pi O red n l m betas r lag coords (Vn (prev j)) (proof_from_seed n G draw_el l m (fst (snd (x j)))) = Ok s2).
    { intros []; [apply X0|apply X1|apply X2]. }
    clear X0 X1 X2 HP.
    assert (HB : forall j, length (v_betas x j) = m /\ Forall good (v_betas x j)) by (intros j; apply draw_three_ok).
    assert (HR : forall j, good (v_points x j)) by (intros j; apply draw_points_ok).
    assert (HS : exists S1 S2, forall j, verify_pi O red n l m (v_betas x j) (v_points x j) lag coords (Vp (next j)) (snd (snd (x j))) = Ok (S1 j) /\ good_share (S1 j) /\
        verify_pi O red n l m (v_betas x j) (v_points x j) lag coords (Vn (prev j)) (proof_from_seed n G draw_el l m (fst (snd (x j)))) = Ok (S2 j)).
    { destruct (HV P0 _ _ (proj1 (HB P0)) (proj2 (HB P0)) (HR P0)) as (a0 & b0 & Y0). destruct (HV P1 _ _ (proj1 (HB P1)) (proj2 (HB P1)) (HR P1)) as (a1 & b1 & Y1).
      destruct (HV P2 _ _ (proj1 (HB P2)) (proj2 (HB P2)) (HR P2)) as (a2 & b2 & Y2).
      exists (fun k => match k with P0 => a0 | P1 => a1 | P2 => a2 end), (fun k => match k with P0 => b0 | P1 => b1 | P2 => b2 end). intros []; assumption. }
    destruct HS as (S1 & S2 & HS). clear HV.
    assert (EV : forall j, dz_verdict j = combine_verifications O red eqb n cf l (v_thetas j) (S1 j) (S2 j)).
    { intros j. unfold dz_verdict. unfold v_prove. rewrite E0, E1, E2. cbn [rbind]. cbv zeta. change (fun k => match k with P0 => x0 | P1 => x1 | P2 => x2 end) with x.
      change (match j with P0 => x0 | P1 => x1 | P2 => x2 end) with (x j). destruct (HS j) as (A1 & _ & A2). rewrite A1. cbn [rbind]. rewrite A2. reflexivity. }
    wbind. apply (wpM_res _ x). { intros i. rewrite Hseed. apply EX. }
    wbind. eapply wpM_mono; [|apply (exchange_ok l m (fun i => fst (snd (x i))) (fun i => snd (snd (x i))) s1 GX LX)]. intros s2 ps [-> Hps].
    pose (D1 := fun i => draw_bytes G 32 (fst (x i))). pose (D2 := fun i => draw_bytes G 32 (fst (D1 i))).
    match goal with |- wpM ?PP _ _ => eapply (wpM_ext (fun i => bindM (w_coin G H i (snd (D1 i)) (snd (D2 i))) (fun coin => _))) end.
    { intros i. unfold D2, D1. destruct (draw_bytes G 32 (fst (x i))) as [t1 c1]. cbn [fst snd]. destruct (draw_bytes G 32 t1) as [t2 c2]. cbn [snd]. reflexivity. }
    wbind. eapply wpM_mono; [|apply w_coin_ok].
    2:{ intros i. split; [apply draw_bytes_length|]. split; [apply draw_bytes_length|apply draw_bytes_range]. }
    intros s2 coin [-> Hcoin].
    assert (Ec : forall i, coin i = v_coin x) by (intros i; rewrite Hcoin; reflexivity).
    match goal with |- wpM ?PP _ _ => eapply (wpM_ext (fun i => bindM (resM (Ok (S1 (prev i)))) (fun sp => bindM (resM (Ok (S2 (next i)))) (fun sn =>
       bindM (liftM (Send (next i) (share_enc enc sp) (Recv (prev i) Ret))) (fun b => bindM (resM (share_dec dec b)) (fun rcv => retM (v_thetas (next i), rcv, sn))))))) end.
    { intros i. rewrite Ec, Hps, Hseed. cbn [fst snd]. destruct (HS (prev i)) as (A1 & _ & _). destruct (HS (next i)) as (_ & _ & A2). rewrite next_prev in A1. rewrite prev_next in A2.
      unfold v_betas, v_points in A1, A2. destruct (draw_three G draw_el m (rseed G (v_coin x))) as [t b]. cbn [fst snd] in A1, A2. rewrite A1, A2. reflexivity. }
    wbind. apply (wpM_res _ (fun i => S1 (prev i))); [reflexivity|]. wbind. apply (wpM_res _ (fun i => S2 (next i))); [reflexivity|]. wbind.
    apply wpM_lift. apply (wp_send_and_receive (fun i => share_enc enc (S1 (prev i)))). wbind.
    apply (wpM_res _ (fun i => S1 (next i))). { intros i. rewrite share_dec_enc by apply HS. do 2 f_equal. destruct i; reflexivity. }
    apply wpM_ret. split; [exact Hs1|]. intros i. unfold dz_decide. rewrite EV. reflexivity.
  Qed.
End Kind.
