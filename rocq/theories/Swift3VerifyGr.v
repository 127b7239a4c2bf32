(** Honest runs of mul_verify and dot_verify. *)
From Coq Require Import Ring Setoid Morphisms.
From Verif Require Import Base Ring RingProofs Prog Sched Rng Net Rel Aby3Proofs Jmp JmpProofs FailProofs IrisProofs SlicedProofs ShareSpec MpcSpec Gf2 GfRing Poly PolyProofs PolyDiv Galois GaloisSpec GaloisPoints GaloisDzkp GaloisMul GaloisGates
  Swift3 Swift3Spec Swift3Proofs Swift3Setup Swift3SetupProofs Dzkp DzkpProofs DzkpSpec DzkpAnd Swift3Verify Swift3VerifyProofs Swift3VerifyKinds Swift3VerifyRun OutcomeSpec OutcomeProofs.
Local Open Scope list_scope.

(** ** Lengths of reduced polynomials *)
Lemma ldiv_len K low vinv : forall n d, length (snd (ldiv K n low vinv d)) = (length d - n)%nat.
Proof.
  induction n as [|n IH]; intros d; [cbn; lia|]. destruct d as [|top rest]; [reflexivity|]. cbn [ldiv]. specialize (IH (sub_prefix K (rmul K top vinv) low rest)).
  destruct (ldiv K n low vinv (sub_prefix K (rmul K top vinv) low rest)) as [q r]. cbn [snd] in *. rewrite IH, sub_prefix_len. cbn. lia.
Qed.
Lemma rem_len K p f r : p_rem K p f = Ok r -> (length r <= Nat.max 1 (length f))%nat.
Proof.
  unfold p_rem, long_division. destruct (nth_error f _) as [lead|]; [|discriminate]. destruct (inverse K lead) as [[vinv|]|]; [|discriminate..].
  pose proof (ldiv_len K (tl (rev f)) vinv (length p + 1 - length f) (rev p)) as L. destruct (ldiv K _ _ vinv (rev p)) as [q r0]. cbn [snd] in L. intros E. injection E as <-.
  pose proof (shrink_len K (rev r0)) as L1. rewrite rev_length in *. lia.
Qed.
Definition sh64 (p : list Z) : Prop := (length p <= 64)%nat.
Lemma draw_poly_ok G K d s : 0 <= K -> length (snd (draw_poly G K d s)) = d /\ Forall (inr K) (snd (draw_poly G K d s)).
Proof.
  intros HK. revert s. induction d as [|d IH]; intros s; [split; constructor|]. cbn [draw_poly]. pose proof (draw_range G K s HK) as R. destruct (draw G K s) as [s1 v]. specialize (IH s1).
  destruct (draw_poly G K d s1) as [s2 vs]. cbn [snd] in *. split; [cbn; f_equal; apply IH|constructor; [exact R|apply IH]].
Qed.

(** ** A registry whose statements are joined and correct *)
Definition reg_ok {A} (join : A -> A -> A) (ok correct : A -> Prop) (E : pid -> list (entry A)) : Prop :=
  forall j, map e_proof (E j) = map2 join (map e_prev (E (next j))) (map e_next (E (prev j))) /\ Forall ok (map e_prev (E j)) /\ Forall ok (map e_next (E j)) /\ Forall correct (map e_proof (E j)).
Lemma reg_RL {A B} (R : (pid -> entry A) -> B -> Prop) (join : A -> A -> A) ok correct E us :
  (forall Y y, R Y y -> forall i, e_proof (Y i) = join (e_prev (Y (next i))) (e_next (Y (prev i))) /\ ok (e_prev (Y i)) /\ ok (e_next (Y i)) /\ correct (e_proof (Y i))) ->
  RL R E us -> reg_ok join ok correct E.
Proof.
  intros HR. induction 1 as [X HX|X Y X0 y ys HX HY HRL IH]; intros j; rewrite !HX; cbn [map map2].
  - repeat split; constructor.
  - destruct (HR _ _ HY j) as (E1 & O1 & O2 & C1). destruct (IH j) as (E2 & F1 & F2 & F3). rewrite E1, E2. split; [reflexivity|]. split; [constructor; assumption|]. split; [constructor; assumption|].
    constructor; [rewrite <- E1; exact C1|rewrite <- E2; exact F3].
Qed.
Lemma mul_c_correct K g : mul_c g mod 2 ^ K = 0 -> 0 <= K -> mul_correct K g.
Proof.
  unfold mul_c, mul_correct. intros E HK. pose proof (Z.pow_pos_nonneg 2 K ltac:(lia) HK) as Hp. apply Z.mod_divide in E; [|lia]. destruct E as [q E].
  replace (p_s g) with (p_a0 g * p_b0 g + p_a0 g * p_b1 g + p_a1 g * p_b0 g + p_r g + (- q) * 2 ^ K) by lia. apply Z.mod_add. lia.
Qed.
Lemma dot_c_correct K g : dot_c g mod 2 ^ K = 0 -> 0 <= K -> dot_correct K g.
Proof.
  unfold dot_c, dot_correct. intros E HK. pose proof (Z.pow_pos_nonneg 2 K ltac:(lia) HK) as Hp. apply Z.mod_divide in E; [|lia]. destruct E as [q E].
  change zdot with dotp. replace (d_s g) with (dotp (d_a0 g) (d_b0 g) + dotp (d_a0 g) (d_b1 g) + dotp (d_a1 g) (d_b0 g) + d_r g + (- q) * 2 ^ K) by lia. apply Z.mod_add. lia.
Qed.
Lemma mul_reg K E : 0 <= K -> mul_shared K E -> reg_ok (mul_join K) (mul_wf K) (mul_correct K) E.
Proof.
  intros HK (us & HR). refine (reg_RL _ _ _ _ _ _ _ HR). intros Y y HY i. destruct (HY i) as (E1 & C1 & W1 & W2). split; [exact E1|]. split; [exact W1|]. split; [exact W2|]. apply mul_c_correct; assumption.
Qed.
Lemma dot_reg K n E us : 0 <= K -> RL (dot_item K) E us -> Forall (fun k => k = n) us -> reg_ok (dot_join K) (dot_wf K n) (dot_correct K) E.
Proof.
  intros HK HR HF. assert (HR' : RL (fun Y (_ : nat) => dot_item K Y n) E us).
  { induction HR as [X HX|X Y X0 y ys HX HY HRL IH]; [constructor; exact HX|]. inversion_clear HF. subst. econstructor; eauto. }
  refine (reg_RL _ _ _ _ _ _ _ HR'). intros Y y HY i. destruct (HY i) as (_ & W1 & W2 & E1 & C1). split; [exact E1|]. split; [exact W1|]. split; [exact W2|]. apply dot_c_correct; assumption.
Qed.
Lemma pin_zero_wf K : 0 <= K -> mul_wf K pin_zero.
Proof. intros HK. assert (Z0 : inr K 0) by (split; [lia|apply Z.pow_pos_nonneg; lia]). unfold mul_wf, pin_zero. cbn [p_a0 p_a1 p_b0 p_b1 p_r p_s]. repeat (constructor; [exact Z0|]). constructor. Qed.
Lemma pad_mul K k L : 0 <= K -> mul_shared K L -> mul_shared K (fun i => pad_entries k pin_zero (L i)).
Proof.
  intros HK (us & HL). exists (resize k tt us). apply RL_resize; [exact HL|]. intros i. cbn [e_proof e_prev e_next]. split; [|split; [|split]].
  - unfold pin_map2, pin_zero. cbn [p_a0 p_a1 p_b0 p_b1 p_r p_s]. unfold radd. cbn [Z.add]. rewrite Zmod_0_l. reflexivity.
  - apply Zmod_0_l.
  - apply pin_zero_wf, HK.
  - apply pin_zero_wf, HK.
Qed.
Lemma resize_padz size l : (length l <= size)%nat -> resize size 0 l = padz size l.
Proof. intros L. rewrite padz_eq. unfold resize. rewrite firstn_all2 by exact L. reflexivity. Qed.
Lemma pad_din_wf K n size g : 0 <= K -> (n <= size)%nat -> dot_wf K n g -> dot_wf K size (pad_din size g).
Proof.
  intros HK Hn (HF & W). split; [|exact W]. unfold pad_din. cbn [d_a0 d_a1 d_b0 d_b1].
  assert (X : forall v, length v = n /\ Forall (inr K) v -> length (resize size 0 v) = size /\ Forall (inr K) (resize size 0 v)).
  { intros v [L F]. rewrite resize_padz by lia. split; [rewrite padz_len; lia|apply padz_range; assumption]. }
  inversion_clear HF as [|? ? F1 HF1]. inversion_clear HF1 as [|? ? F2 HF2]. inversion_clear HF2 as [|? ? F3 HF3]. inversion_clear HF3 as [|? ? F4 _].
  repeat (constructor; [apply X; assumption|]). constructor.
Qed.
Lemma map2_resize K n size a b : 0 <= K -> length a = n -> length b = n -> (n <= size)%nat -> resize size 0 (map2 (radd K) a b) = map2 (radd K) (resize size 0 a) (resize size 0 b).
Proof.
  intros HK La Lb Hn. rewrite !resize_padz by (rewrite ?map2_length; lia). rewrite !padz_eq, map2_length by lia. rewrite map2_app by lia. f_equal. rewrite La, Lb.
  clear. induction (size - n)%nat as [|k IH]; [reflexivity|]. cbn [repeat map2]. rewrite <- IH. reflexivity.
Qed.
Lemma dot_wf_len K n g : dot_wf K n g -> din_len n g.
Proof. intros (HF & _). inversion_clear HF as [|? ? F1 HF1]. inversion_clear HF1 as [|? ? F2 HF2]. inversion_clear HF2 as [|? ? F3 HF3]. inversion_clear HF3 as [|? ? F4 _]. unfold din_len. tauto. Qed.
Lemma pad_dot_item K n size Y : 0 <= K -> (n <= size)%nat -> dot_item K Y n ->
  dot_item K (fun i => Entry (pad_din size (e_proof (Y i))) (pad_din size (e_prev (Y i))) (pad_din size (e_next (Y i)))) size.
Proof.
  intros HK Hn HY i. destruct (HY i) as ((L1 & L2 & L3 & L4) & W1 & W2 & E & C). cbn [e_proof e_prev e_next]. split; [|split; [|split; [|split]]].
  - unfold din_len, pad_din. cbn [d_a0 d_a1 d_b0 d_b1]. rewrite !resize_len by lia. auto.
  - apply (pad_din_wf K n); assumption.
  - apply (pad_din_wf K n); assumption.
  - rewrite E. destruct (dot_wf_len _ _ _ (proj1 (proj2 (HY (next i))))) as (A1 & A2 & A3 & A4). destruct (dot_wf_len _ _ _ (proj1 (proj2 (proj2 (HY (prev i)))))) as (B1 & B2 & B3 & B4).
    unfold din_add, pad_din. cbn [d_a0 d_a1 d_b0 d_b1 d_r d_s]. rewrite !(map2_resize K n) by assumption. reflexivity.
  - rewrite <- C. f_equal. unfold dot_c, pad_din. cbn [d_a0 d_a1 d_b0 d_b1 d_r d_s]. rewrite !resize_padz by lia. rewrite !padz_dot by congruence. reflexivity.
Qed.
Lemma zero_dot_item K size : 0 <= K -> dot_item K (fun _ => Entry (din_zero size) (din_zero size) (din_zero size)) size.
Proof.
  intros HK i. cbn [e_proof e_prev e_next].
  assert (Z0 : inr K 0) by (split; [lia|apply Z.pow_pos_nonneg; lia]).
  assert (W : dot_wf K size (din_zero size)).
  { split; [|split; exact Z0]. unfold din_zero. cbn [d_a0 d_a1 d_b0 d_b1].
    assert (X : length (repeat 0 size) = size /\ Forall (inr K) (repeat 0 size)) by (split; [apply repeat_length|apply Forall_forall; intros x Hx; apply repeat_spec in Hx; subst x; exact Z0]).
    repeat (constructor; [exact X|]). constructor. }
  split; [apply (dot_wf_len K), W|]. split; [exact W|]. split; [exact W|]. split.
  - unfold din_add, din_zero. cbn [d_a0 d_a1 d_b0 d_b1 d_r d_s]. assert (X : map2 (radd K) (repeat 0 size) (repeat 0 size) = repeat 0 size) by (clear; induction size as [|k IH]; [reflexivity|cbn [repeat map2]; rewrite IH; reflexivity]).
    rewrite X. reflexivity.
  - unfold dot_c, din_zero. cbn [d_a0 d_a1 d_b0 d_b1 d_r d_s]. rewrite dotp_zero. apply Zmod_0_l.
Qed.
Lemma pad_dots_ok K (D : pid -> dotreg) k : 0 <= K -> dot_shared K D -> (length (dr_entries (D P0)) <= k)%nat ->
  exists us, RL (dot_item K) (fun i => pad_dots (D i) k) us /\ Forall (fun n => n = dr_size (D P0)) us /\ length us = k /\ (dr_max (D P0) <= k)%nat.
Proof.
  intros HK (size & mx & ns & HD & HR & HM & HF1 & HF2) Hk. destruct (HD P0) as [S0 M0]. rewrite S0, M0. rewrite (RL_length _ _ _ HR P0) in Hk.
  set (us := resize k size ns).
  assert (HR1 : RL (dot_item K) (fun i => pad_entries k (din_zero size) (dr_entries (D i))) us) by (apply RL_resize; [exact HR|apply zero_dot_item, HK]).
  assert (Lus : length us = k) by (apply resize_len, Hk).
  assert (Eus : us = ns ++ repeat size (k - length ns)) by (unfold us, resize; rewrite firstn_all2 by exact Hk; reflexivity).
  exists (map (fun _ => size) (firstn mx us) ++ skipn mx us). split; [|split; [|split]].
  - eapply RL_ext; [intros i; unfold pad_dots; rewrite (proj1 (HD i)), (proj2 (HD i)); reflexivity|]. apply RL_app; [|apply RL_skipn; exact HR1].
    assert (HR2 : RL (fun Y n => dot_item K Y n /\ (n <= size)%nat) (fun i => firstn mx (pad_entries k (din_zero size) (dr_entries (D i)))) (firstn mx us)).
    { assert (F : Forall (fun n => n <= size)%nat (firstn mx us)).
      { apply Forall_forall. intros n Hn. apply in_firstn in Hn. rewrite Eus in Hn. apply in_app_or in Hn. rewrite Forall_forall in HF1. destruct Hn as [Hn|Hn]; [apply HF1, Hn|apply repeat_spec in Hn; lia]. }
      pose proof (RL_firstn _ _ _ mx HR1) as R. revert F. generalize (firstn mx us) R. clear. intros l R. induction R as [X HX|X Y X0 y ys HX HY HRL IH]; intros F; [constructor; exact HX|].
      inversion_clear F. econstructor; eauto. }
    eapply (RL_map _ (dot_item K) (fun _ e => Entry (pad_din size (e_proof e)) (pad_din size (e_prev e)) (pad_din size (e_next e))) (fun _ => size)); [|exact HR2].
    intros Y n [HY Hn]. apply (pad_dot_item K n); assumption.
  - apply Forall_app. split; [apply Forall_forall; intros n Hn; apply in_map_iff in Hn; destruct Hn as (? & <- & _); reflexivity|].
    rewrite Eus, skipn_app. apply Forall_app. split; [exact HF2|]. replace (mx - length ns)%nat with 0%nat by lia. cbn [skipn]. apply Forall_forall. intros n Hn. apply repeat_spec in Hn. exact Hn.
  - rewrite app_length, map_length, firstn_length, skipn_length. lia.
  - lia.
Qed.

(** ** One proof system over a Galois ring *)
Section Gr.
  Variables (G : rng) (H : hasher) (K : Z) (fuel : nat).
  Hypothesis HS : In K small_widths.
  Variables (m : nat) (f : list Z).
  Notation d := (mod_degree m).
  Hypothesis Hf : irreducible_poly d = Ok f.
  Notation req := (req K d f).
  Notation wf := (Forall (inr K)).
  Notation red := (fun c => p_rem K c f).
  Notation O := (pz_ops K).
  Definition gr_good : list Z -> Prop := good wf sh64.
  Lemma K_pos : 0 < K.
  Proof using HS. destruct HS as [<-|[<-|[<-|[]]]]; reflexivity. Qed.
  Lemma gr_codec : codec gr_good (poly_enc K) (poly_dec K).
  Proof using HS. intros p rest [Wp Lp]. apply (poly_codec K K_pos). split; [exact Wp|]. unfold short, sh64 in *. lia. Qed.
  Lemma gr_draw_good s : gr_good (snd (draw_poly G K d s)).
  Proof using HS Hf.
    destruct (f_split K HS d f Hf) as (_ & _ & _ & _ & _ & R). pose proof K_pos. destruct (draw_poly_ok G K d s) as [L W]; [lia|]. split; [exact W|]. unfold sh64. rewrite L. clear - R. lia.
  Qed.
  Lemma gr_red_sh a b : red a = Ok b -> sh64 b.
  Proof using HS Hf.
    intros E. apply rem_len in E. destruct (f_split K HS d f Hf) as (Ef & L & _ & _ & _ & R). unfold sh64. rewrite Ef, app_length, L in E. cbn [length] in E. lia.
  Qed.
  Lemma gr_sub_sh a b : sh64 a -> sh64 b -> sh64 (osub O a b).
  Proof using. unfold sh64. intros La Lb. change (osub O a b) with (p_sub (zk_ops K) a b). rewrite p_sub_len. lia. Qed.

  Context {A : Type} (inp : A -> list (list Z)) (join : A -> A -> A) (ok correct : A -> Prop) (n : nat) (cf : forall B : Type, rops B -> list B -> B).
  Variable dflt : A.
  Hypothesis Hn : (0 < n)%nat.
  Hypothesis Hcf : cf_ok O req wf cf.
  Hypothesis Hinp : forall g, ok g -> length (inp g) = n /\ Forall wf (inp g).
  Hypothesis Hjoin : forall g h, ok g -> ok h -> ok (join g h) /\ inp (join g h) = map2 (oadd O) (inp g) (inp h).
  Hypothesis Hcorrect : forall g, ok g -> (req (cf (list Z) O (inp g)) [] <-> correct g).
  Variables (l : nat) (E : pid -> list (entry A)).
  Hypothesis HE : reg_ok join ok correct E.
  Hypothesis LE : forall i, length (E i) = (l * m)%nat.
  Hypothesis Hl : Z.of_nat (n * l) < 2 ^ 64.
  Let Pf i := map (fun e => inp (e_proof e)) (E i).
  Let Vp i := map (fun e => inp (e_prev e)) (E i).
  Let Vn i := map (fun e => inp (e_next e)) (E i).
  Variable lag : list (list (list Z)).
  Hypothesis El : gr_lagrange K (mul_points (m + 1)) f = Ok lag.
  Lemma gr_wfi (h : entry A -> A) i : Forall ok (map h (E i)) -> length (map (fun e => inp (h e)) (E i)) = (l * m)%nat /\ wfi wf (map (fun e => inp (h e)) (E i)).
  Proof using LE Hinp. intros W. split; [rewrite map_length; apply LE|]. rewrite <- (map_map h inp). eapply kind_wfi; eassumption. Qed.
  Lemma gr_provable : provable O red n cf G (draw_poly G K d) gr_good l m lag (mul_points (m + 1)) Pf Vp Vn.
  Proof using HS Hf Hn Hcf Hinp Hjoin Hcorrect HE LE Hl El dflt.
    destruct (gr_lagrange_ok K HS d m f Hf (mod_degree_size m)) as (lag' & El' & HL). rewrite El in El'. injection El' as <-.
    apply (provable_ok O req wf (galois_ok K HS d f) red (rem_ok K HS d f Hf) n Hn cf Hcf (mul_points (m + 1)) lag (points_wf K HS m) HL l m (mul_points_len m) sh64).
    - unfold sh64. cbn. lia.
    - apply gr_sub_sh.
    - apply gr_red_sh.
    - apply gr_draw_good.
    - exact Hl.
    - pose proof (degree_small m f Hf). lia.
    - intros j. apply gr_wfi. destruct (HE j) as (E1 & _). rewrite E1. destruct (HE (next j)) as (_ & W1 & _). destruct (HE (prev j)) as (_ & _ & W2 & _).
      apply (map2_Forall _ ok ok); [|exact W1|exact W2]. intros g h Hg Hh. apply Hjoin; assumption.
    - intros j. apply gr_wfi. apply (HE j).
    - intros j. apply gr_wfi. apply (HE j).
  Qed.
  (** The outcome of the proof of party j: C35 for the values of this run. *)
  Definition verdict_spec (thetas : list (list Z)) (j : pid) (v : res unit) : Prop :=
    exists betas r w g p2 s1 s2, polys K m betas /\ Forall (inr K) r /\ polys K (n * l) w /\ gr_share K n l m p2 /\
      gr_prover K f n cf l m (Pf j) thetas w = Ok g /\
      gr_verdicts K f n l m (Vp (next j)) (Vn (prev j)) betas r (explicit_share O w g p2) p2 = Ok (s1, s2) /\
      v = gr_check K f n cf l m (Vp (next j)) (Vn (prev j)) thetas betas r (explicit_share O w g p2) p2 /\
      (leading (p_add (zk_ops K) (ds_pr s1) (ds_pr s2)) -> v = Ok tt) /\
      (~ leading (p_add (zk_ops K) (ds_pr s1) (ds_pr s2)) -> v = Err EDZKPVerify).
  Lemma gr_verdict ent p0 j : exists thetas, polys K l thetas /\
    verdict_spec thetas j (dz_verdict O red zlist_eqb n cf G (draw_poly G K d) poly_again fuel l m lag (mul_points (m + 1)) Pf Vp Vn ent p0 j).
  Proof using HS Hf Hn Hcf Hinp Hjoin Hcorrect HE LE Hl El dflt.
    destruct (verdict_is O red zlist_eqb n cf G (draw_poly G K d) poly_again fuel gr_good gr_draw_good l m lag (mul_points (m + 1)) Pf Vp Vn ent p0 j gr_provable)
      as (betas & r & w & g & seed & Lb & Gb & Gr & Lw & Gw & Eg & EV). cbv zeta in EV. rewrite EV. clear EV.
    set (thetas := v_thetas G (draw_poly G K d) l p0 j) in *.
    destruct (draw_three_ok G (draw_poly G K d) gr_good gr_draw_good l (rseed G (snd (draw_bytes G 32 p0))) j) as [Lt Gt]. fold (v_thetas G (draw_poly G K d) l p0 j) in Lt, Gt. fold thetas in Lt, Gt.
    assert (W : forall xs, Forall gr_good xs -> Forall wf xs) by (intros xs; apply Forall_impl; intros x [Hx _]; exact Hx).
    exists thetas. split; [split; auto|].
    destruct (from_seed_ok wf n l m sh64 G (draw_poly G K d) gr_draw_good seed) as (L1 & G1 & L2 & G2). set (p2 := proof_from_seed n G (draw_poly G K d) l m seed) in *.
    destruct (HE j) as (E1 & _ & _ & C1). destruct (HE (next j)) as (_ & W1 & _). destruct (HE (prev j)) as (_ & _ & W2 & _).
    destruct (kind_complete K HS m f Hf l inp join ok correct n cf dflt Hn Hcf Hinp Hjoin Hcorrect (map e_proof (E j)) (map e_prev (E (next j))) (map e_next (E (prev j))) thetas w E1 W1 W2
      ltac:(rewrite map_length; apply LE) ltac:(rewrite map_length; apply LE) C1) as (g' & Eg' & HK); [split; auto|split; auto|]. rewrite (map_map e_proof inp) in Eg'. rewrite (map_map e_prev inp), (map_map e_next inp) in HK.
    fold (Pf j) in Eg'. fold (Vp (next j)) in HK. fold (Vn (prev j)) in HK.
    assert (g' = g). { unfold gr_prover in Eg'. rewrite El in Eg'. cbn [rbind] in Eg'. unfold gr_prove in Eg'. rewrite Eg in Eg'. injection Eg' as <-. reflexivity. } subst g'.
    destruct (HK betas r p2) as (s1 & s2 & EV & H1 & H2); [split; auto|apply Gr|split; split; auto|].
    exists betas, r, w, g, p2, s1, s2. split; [split; auto|]. split; [apply Gr|]. split; [split; auto|]. split; [split; split; auto|]. split; [exact Eg'|]. split; [exact EV|].
    assert (EC : rbind (verify_pi O red n l m betas r lag (mul_points (m + 1)) (Vp (next j)) (explicit_share O w g p2)) (fun t1 =>
        rbind (verify_pi O red n l m betas r lag (mul_points (m + 1)) (Vn (prev j)) p2) (fun t2 => combine_verifications O red zlist_eqb n cf l thetas t1 t2)) =
        gr_check K f n cf l m (Vp (next j)) (Vn (prev j)) thetas betas r (explicit_share O w g p2) p2).
    { unfold gr_check, gr_verdicts, gr_verify_pi, gr_combine. rewrite El. cbn [rbind]. destruct (verify_pi _ _ _ _ _ _ _ _ _ (Vp (next j)) _) as [t1|]; [|reflexivity]. cbn [rbind].
      destruct (verify_pi _ _ _ _ _ _ _ _ _ (Vn (prev j)) _) as [t2|]; reflexivity. }
    rewrite EC. split; [reflexivity|]. split; assumption.
  Qed.

  (** The exchange, and the decision. *)
  Theorem gr_exchange_ok s (ent : pid -> rstate G) : (forall i, w_p G (s i) = w_p G (s P0)) ->
    wpM (fun i => dz_exchange O red n cf (poly_enc K) (poly_dec K) G H (draw_poly G K d) poly_again fuel i l m lag (mul_points (m + 1)) (Pf i) (Vp i) (Vn i) (ent i)) s
      (fun s' W => s' = (fun i => w_set_p G (s i) (fst (draw_bytes G 32 (w_p G (s P0))))) /\
         forall i, dz_decide O red zlist_eqb n cf l (W i) = dz_verdict O red zlist_eqb n cf G (draw_poly G K d) poly_again fuel l m lag (mul_points (m + 1)) Pf Vp Vn ent (w_p G (s P0)) (next i)).
  Proof using HS Hf Hn Hcf Hinp Hjoin Hcorrect HE LE Hl El dflt.
    intros Hp. apply (dz_exchange_ok O red zlist_eqb n cf (poly_enc K) (poly_dec K) G H (draw_poly G K d) poly_again fuel gr_good gr_codec gr_draw_good); [apply gr_provable|exact Hp].
  Qed.
  Let after (s : pid -> sst G) i := w_set_p G (s i) (fst (draw_bytes G 32 (w_p G (s P0)))).
  Theorem gr_outs s (ent : pid -> rstate G) : (forall i, w_p G (s i) = w_p G (s P0)) ->
    exists v, outs (fun i => dz_verify O red zlist_eqb n cf (poly_enc K) (poly_dec K) G H (draw_poly G K d) poly_again fuel i l m lag (mul_points (m + 1)) (Pf i) (Vp i) (Vn i) (ent i) (s i))
        (fun i => rbind (v (next i)) (fun u => Ok (after s i, u))) /\
      forall j, exists thetas, polys K l thetas /\ verdict_spec thetas j (v j).
  Proof using HS Hf Hn Hcf Hinp Hjoin Hcorrect HE LE Hl El dflt.
    intros Hp. destruct (gr_exchange_ok s ent Hp) as (R & ER & Es & HR). 
    exists (dz_verdict O red zlist_eqb n cf G (draw_poly G K d) poly_again fuel l m lag (mul_points (m + 1)) Pf Vp Vn ent (w_p G (s P0))).
    split; [|intros j; apply gr_verdict].
    assert (ER' : evals (fun i => dz_exchange O red n cf (poly_enc K) (poly_dec K) G H (draw_poly G K d) poly_again fuel i l m lag (mul_points (m + 1)) (Pf i) (Vp i) (Vn i) (ent i) (s i)) (fun i => (after s i, snd (R i)))).
    { unfold evals in *. destruct ER as [sc Hsc]. exists sc. replace (finished (fun i => (after s i, snd (R i)))) with (finished R); [exact Hsc|]. unfold finished. f_equal.
      apply tri_eta. intros i. rewrite !get_tabulate. f_equal. rewrite (surjective_pairing (R i)) at 1. f_equal. exact (f_equal (fun h => h i) Es). }
    apply (outs_decide (fun i => dz_exchange O red n cf (poly_enc K) (poly_dec K) G H (draw_poly G K d) poly_again fuel i l m lag (mul_points (m + 1)) (Pf i) (Vp i) (Vn i) (ent i)) (dz_decide O red zlist_eqb n cf l)) in ER'. destruct ER' as [sc Hsc]. exists sc.
    match goal with |- steps _ _ ?c => match type of Hsc with steps _ _ ?c' => replace c with c'; [exact Hsc|] end end.
    f_equal. apply tri_eta. intros i. rewrite !get_tabulate. rewrite HR. reflexivity.
  Qed.
  Theorem gr_lax s (ent : pid -> rstate G) : (forall i, w_p G (s i) = w_p G (s P0)) ->
    wpM (fun i => bindM (dz_exchange O red n cf (poly_enc K) (poly_dec K) G H (draw_poly G K d) poly_again fuel i l m lag (mul_points (m + 1)) (Pf i) (Vp i) (Vn i) (ent i)) (fun _ => retM tt)) s
      (fun s' _ => s' = after s).
  Proof using HS Hf Hn Hcf Hinp Hjoin Hcorrect HE LE Hl El dflt.
    intros Hp. wbind. eapply wpM_mono; [|apply (gr_exchange_ok s ent Hp)]. intros s' W [-> _]. apply wpM_ret. reflexivity.
  Qed.
End Gr.
