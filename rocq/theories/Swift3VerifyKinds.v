(** The prover and the verifiers succeed on honest statements: the hypothesis of the exchange, for the three kinds. *)
From Coq Require Import Ring Setoid Morphisms.
From Verif Require Import Base Ring RingProofs Prog Rng Net Jmp JmpProofs IrisProofs SlicedProofs Gf2 GfRing Poly PolyProofs PolyDiv Galois GaloisSpec GaloisPoints GaloisDzkp GaloisMul Swift3 Dzkp DzkpProofs DzkpSpec DzkpAnd
  Swift3Verify Swift3VerifyProofs.
Local Open Scope list_scope.

Lemma Forall_resize {A} (P : A -> Prop) k d l : P d -> Forall P l -> Forall P (resize k d l).
Proof.
  intros Hd Hl. unfold resize. apply Forall_app. split.
  - apply Forall_forall. intros x Hx. rewrite Forall_forall in Hl. apply Hl. exact (in_firstn _ _ _ Hx).
  - apply Forall_forall. intros x Hx. apply repeat_spec in Hx. subst x. exact Hd.
Qed.
Lemma mapM_res_Forall {A B} (P : B -> Prop) (f : A -> res B) l l' : (forall a b, f a = Ok b -> P b) -> mapM_res f l = Ok l' -> Forall P l'.
Proof. intros H E. apply mapM_res_Ok in E. induction E; constructor; eauto. Qed.

Section Kind.
  Context {A : Type} (O : rops A) (req : A -> A -> Prop) (wf : A -> Prop).
  Hypothesis HO : ring_ok O req wf.
  Variable red : A -> res A.
  Hypothesis Hred : forall a, wf a -> exists b, red a = Ok b /\ req a b /\ wf b.
  Variable n : nat.
  Hypothesis Hn : (0 < n)%nat.
  Variable cf : forall B : Type, rops B -> list B -> B.
  Hypothesis Hcf : cf_ok O req wf cf.
  Variables (xs : list A) (lag : list (list A)).
  Hypothesis Hxs : Forall wf xs.
  Hypothesis Hlag : lagrange_ok O req wf xs lag.
  Variables (l m : nat).
  Hypothesis Hm : length xs = (m + 1)%nat.
  (** What can be encoded. *)
  Variable sh : A -> Prop.
  Hypothesis Hsh0 : sh (o0 O).
  Hypothesis Hshsub : forall a b, sh a -> sh b -> sh (osub O a b).
  Hypothesis Hshred : forall a b, red a = Ok b -> sh b.
  Definition good (a : A) : Prop := wf a /\ sh a.
  Variable G : rng.
  Variable draw_el : rstate G -> rstate G * A.
  Hypothesis HD : forall s, good (snd (draw_el s)).
  Hypothesis Hl1 : Z.of_nat (n * l) < 2 ^ 64.
  Hypothesis Hl2 : Z.of_nat (2 * m + 1) < 2 ^ 64.

  Lemma good_wf xs0 : Forall good xs0 -> Forall wf xs0.
  Proof. apply Forall_impl. intros a [Ha _]. exact Ha. Qed.
  Lemma good_both xs0 : Forall wf xs0 -> Forall sh xs0 -> Forall good xs0.
  Proof. intros H1. induction H1; intros H2; inversion_clear H2; constructor; [split|]; auto. Qed.
  Lemma from_seed_ok sd : let p := proof_from_seed n G draw_el l m sd in
    length (dp_w p) = (n * l)%nat /\ Forall good (dp_w p) /\ length (dp_a p) = (2 * m + 1)%nat /\ Forall good (dp_a p).
  Proof using HD.
    cbv zeta. unfold proof_from_seed. pose proof (draw_els_ok G draw_el good HD (n * l) (rseed G sd)) as X. destruct (draw_els G draw_el (n * l) (rseed G sd)) as [s1 w].
    pose proof (draw_els_ok G draw_el good HD (2 * m + 1) s1) as Y. destruct (draw_els G draw_el (2 * m + 1) s1) as [s2 a]. cbn [dp_w dp_a snd] in *. tauto.
  Qed.
  Lemma prove_sh V thetas w g : prove O red n cf l m V thetas lag w = Ok g -> Forall sh g.
  Proof using Hsh0 Hshred.
    unfold prove. destruct (_ || _ || _); [discriminate|]. destruct (mapM_res _ (rows n l)) as [f|]; [|discriminate]. cbn [rbind].
    destruct (mapM_res red _) as [g'|] eqn:E; [|discriminate]. cbn [rbind]. intros H. injection H as <-. apply Forall_resize; [exact Hsh0|]. exact (mapM_res_Forall sh red _ _ Hshred E).
  Qed.
  Lemma verify_sh betas r V p s : verify_pi O red n l m betas r lag xs V p = Ok s -> Forall sh (ds_f s) /\ sh (ds_pr s) /\ sh (ds_b s).
  Proof using Hshred.
    unfold verify_pi. destruct (_ || _ || _ || _); [discriminate|]. destruct (_ || _); [discriminate|].
    destruct (mapM_res _ (rows n l)) as [f|] eqn:Ef; [|discriminate]. cbn [rbind]. destruct (red _) as [pr|] eqn:Epr; [|discriminate]. cbn [rbind].
    destruct (red (fold_left _ _ _)) as [b|] eqn:Eb; [|discriminate]. cbn [rbind]. intros H. injection H as <-. cbn [ds_f ds_pr ds_b]. split; [|split; eauto].
    refine (mapM_res_Forall sh _ _ _ _ Ef). intros ji v Hv. cbn beta in Hv. destruct (interpolate _ _ _) as [q|]; [|discriminate]. exact (Hshred _ _ Hv).
  Qed.
  Lemma verify_good betas r V p : length betas = m -> Forall good betas -> good r -> length V = (m * l)%nat -> wfi wf V ->
    length (dp_w p) = (n * l)%nat -> Forall good (dp_w p) -> length (dp_a p) = (2 * m + 1)%nat -> Forall good (dp_a p) ->
    exists s, verify_pi O red n l m betas r lag xs V p = Ok s /\ good_share good s.
  Proof using HO Hred Hn Hxs Hlag Hm Hshred Hl1.
    intros Lb Gb Gr LV WV Lw Gw La Ga.
    destruct (verify_pi_ok O req wf HO red Hred n Hn xs lag Hxs Hlag l m Hm betas r V p Lb LV (good_wf _ Gb) (proj1 Gr) WV (good_wf _ Gw) (good_wf _ Ga) Lw La)
      as (s & u & v & E & L1 & W1 & _ & (Wu & Ru & _) & (Wv & Rv & _)).
    exists s. split; [exact E|]. destruct (verify_sh _ _ _ _ _ E) as (S1 & S2 & S3). split; [split; [apply good_both; assumption|unfold short; rewrite L1; exact Hl1]|].
    split; split; auto; [destruct (Hred u Wu) as (b & Eb & _ & Wb)|destruct (Hred v Wv) as (b & Eb & _ & Wb)]; congruence.
  Qed.
  Theorem provable_ok (P Vp Vn : pid -> list (list A)) :
    (forall j, length (P j) = (l * m)%nat /\ wfi wf (P j)) -> (forall j, length (Vp j) = (l * m)%nat /\ wfi wf (Vp j)) -> (forall j, length (Vn j) = (l * m)%nat /\ wfi wf (Vn j)) ->
    provable O red n cf G draw_el good l m lag xs P Vp Vn.
  Proof.
    intros HP HVp HVn j thetas st Lt Gt. unfold prove_rng. pose proof (draw_els_ok G draw_el good HD (n * l) st) as [Lw Gw]. destruct (draw_els G draw_el (n * l) st) as [s1 w]. cbn [snd] in Lw, Gw.
    destruct (prove_ok O req wf HO red Hred n Hn cf Hcf xs lag Hlag l m Hm (P j) thetas w Lt (good_wf _ Gt) (proj1 (HP j)) (proj2 (HP j)) (good_wf _ Gw)) as (g & Eg & Lg & Wg & _).
    pose proof (prove_sh _ _ _ _ Eg) as Sg. pose proof (good_both g Wg Sg) as Gg. rewrite Eg. cbn [rbind].
    pose proof (draw_bytes_length G 32 s1) as L32. destruct (draw_bytes G 32 s1) as [s2 sd]. cbn [snd] in L32.
    destruct (from_seed_ok sd) as (L1 & G1 & L2 & G2). set (p2 := proof_from_seed n G draw_el l m sd) in *.
    assert (Gs : forall a b, good a -> good b -> good (osub O a b)) by (intros a b [Wa Sa] [Wb Sb]; split; [apply (rk_wfsub _ _ _ HO); assumption|auto]).
    assert (M1 : length (dp_w (explicit_share O w g p2)) = (n * l)%nat) by (cbn; rewrite map2_length by lia; lia).
    assert (M2 : length (dp_a (explicit_share O w g p2)) = (2 * m + 1)%nat) by (cbn; rewrite map2_length by lia; lia).
    assert (F1 : Forall good (dp_w (explicit_share O w g p2))) by (apply (map2_Forall _ good good good); auto).
    assert (F2 : Forall good (dp_a (explicit_share O w g p2))) by (apply (map2_Forall _ good good good); auto).
    eexists. split; [reflexivity|]. cbn [fst snd]. split; [|split].
    - split; (split; [assumption|unfold short]); [rewrite M1; exact Hl1|rewrite M2; exact Hl2].
    - exact L32.
    - intros betas r Lb Gb Gr.
      destruct (verify_good betas r (Vp (next j)) (explicit_share O w g p2) Lb Gb Gr) as (t1 & E1 & H1); [rewrite (proj1 (HVp _)); lia|apply HVp|assumption..|].
      destruct (verify_good betas r (Vn (prev j)) p2 Lb Gb Gr) as (t2 & E2 & _); [rewrite (proj1 (HVn _)); lia|apply HVn|assumption..|].
      exists t1, t2. auto.
  Qed.
End Kind.

(** The outcome of a proof is the check of C35 on the values of this run. *)
Section Verdict.
  Context {A : Type} (O : rops A) (red : A -> res A) (eqb : A -> A -> bool) (n : nat) (cf : forall B : Type, rops B -> list B -> B).
  Variables (G : rng) (draw_el : rstate G -> rstate G * A) (again : A -> bool) (fuel : nat) (good : A -> Prop).
  Hypothesis HD : forall s, good (snd (draw_el s)).
  Variables (l m : nat) (lag : list (list A)) (coords : list A) (P Vp Vn : pid -> list (list A)) (ent : pid -> rstate G) (p0 : rstate G).
  Lemma verdict_is j : provable O red n cf G draw_el good l m lag coords P Vp Vn ->
    exists betas r w g seed, length betas = m /\ Forall good betas /\ good r /\ length w = (n * l)%nat /\ Forall good w /\
      prove O red n cf l m (P j) (v_thetas G draw_el l p0 j) lag w = Ok g /\
      let p2 := proof_from_seed n G draw_el l m seed in
      dz_verdict O red eqb n cf G draw_el again fuel l m lag coords P Vp Vn ent p0 j =
        rbind (verify_pi O red n l m betas r lag coords (Vp (next j)) (explicit_share O w g p2)) (fun s1 =>
        rbind (verify_pi O red n l m betas r lag coords (Vn (prev j)) p2) (fun s2 =>
        combine_verifications O red eqb n cf l (v_thetas G draw_el l p0 j) s1 s2)).
  Proof using HD.
    intros HP. unfold dz_verdict, v_prove.
    assert (HT : forall k, length (v_thetas G draw_el l p0 k) = l /\ Forall good (v_thetas G draw_el l p0 k)) by (intros k; apply (draw_three_ok G draw_el good HD)).
    destruct (HP P0 _ (ent P0) (proj1 (HT P0)) (proj2 (HT P0))) as (x0 & E0 & _). destruct (HP P1 _ (ent P1) (proj1 (HT P1)) (proj2 (HT P1))) as (x1 & E1 & _).
    destruct (HP P2 _ (ent P2) (proj1 (HT P2)) (proj2 (HT P2))) as (x2 & E2 & _). rewrite E0, E1, E2. cbn [rbind]. cbv zeta.
    set (x := fun k => match k with P0 => x0 | P1 => x1 | P2 => x2 end). change (match j with P0 => x0 | P1 => x1 | P2 => x2 end) with (x j).
    assert (Ej : prove_rng O red n cf G draw_el l m (P j) (v_thetas G draw_el l p0 j) lag (ent j) = Ok (x j)) by (destruct j; assumption).
    exists (v_betas G draw_el m x j), (v_points G draw_el again fuel m x j). unfold prove_rng in Ej.
    pose proof (draw_els_ok G draw_el good HD (n * l) (ent j)) as [Lw Gw]. destruct (draw_els G draw_el (n * l) (ent j)) as [s1 w]. cbn [snd] in Lw, Gw.
    destruct (prove O red n cf l m (P j) (v_thetas G draw_el l p0 j) lag w) as [g|] eqn:Eg; [|discriminate]. cbn [rbind] in Ej.
    destruct (draw_bytes G 32 s1) as [s2 sd]. injection Ej as Ej. exists w, g, sd.
    split; [apply (draw_three_ok G draw_el good HD)|]. split; [apply (draw_three_ok G draw_el good HD)|]. split; [apply (draw_points_ok G draw_el again fuel good HD)|].
    split; [exact Lw|]. split; [exact Gw|]. split; [exact Eg|]. rewrite <- Ej. cbn [fst snd]. reflexivity.
  Qed.
End Verdict.

(** ** Parameters *)
Lemma ceil_sqrt_ok x : let c := ceil_sqrt x in (x <= c * c /\ c <= x /\ (0 < x -> 0 < c))%nat.
Proof.
  cbv zeta. unfold ceil_sqrt. pose proof (Nat.sqrt_spec x (Nat.le_0_l x)) as H. cbv zeta in H. set (s := Nat.sqrt x) in *. clearbody s.
  destruct (Nat.eqb_spec (s * s) x); repeat split; try lia; nia.
Qed.
Lemma ceil_div_ok x y : (0 < y)%nat -> let c := ceil_div x y in (x <= y * c /\ y * c <= x + y - 1 /\ (0 < x -> 0 < c))%nat.
Proof.
  intros Hy. cbv zeta. unfold ceil_div. pose proof (Nat.div_mod (x + y - 1) y ltac:(lia)) as H. pose proof (Nat.mod_upper_bound (x + y - 1) y ltac:(lia)) as H1.
  set (q := ((x + y - 1) / y)%nat) in *. set (r := ((x + y - 1) mod y)%nat) in *. clearbody q r. repeat split; [lia|lia|]. intros Hx. destruct q; lia.
Qed.
Lemma calc_params_ok x l m : (0 < x)%nat -> calc_params x = (l, m) -> (x <= l * m /\ 0 < m /\ 0 < l /\ l <= 2 * (m * m))%nat.
Proof.
  intros Hx E. unfold calc_params in E. cbv zeta in E. injection E as <- <-. destruct (ceil_sqrt_ok x) as (H1 & H2 & H3). specialize (H3 Hx). set (l := ceil_sqrt x) in *.
  destruct (ceil_div_ok x l H3) as (D1 & D2 & D3). specialize (D3 Hx). set (m := ceil_div x l) in *. assert (Hl : (l * l <= 2 * x + 1)%nat \/ (l <= 2)%nat).
  { unfold l, ceil_sqrt. pose proof (Nat.sqrt_spec x (Nat.le_0_l x)) as H. cbv zeta in H. set (s := Nat.sqrt x) in *. clearbody s. destruct (Nat.eqb_spec (s * s) x); [left; lia|].
    destruct (Nat.le_gt_cases s 1); [right; lia|left; nia]. }
  clearbody l m. repeat split; try assumption. nia.
Qed.
Lemma dot_params_ok dot x l m : (0 < x)%nat -> dot_params dot x = (l, m) -> (x <= l * m /\ 0 < m /\ 0 < l /\ (4 * dot + 2) * l <= m + m * m)%nat.
Proof.
  intros Hx E. unfold dot_params in E. cbv zeta in E. set (c := (4 * dot + 2)%nat) in *. assert (Hc : (2 <= c)%nat) by (unfold c; lia). clearbody c. injection E as <- <-.
  destruct (ceil_sqrt_ok (c * x)) as (H1 & H2 & H3). specialize (H3 ltac:(nia)). set (m := ceil_sqrt (c * x)) in *.
  destruct (ceil_div_ok x m H3) as (D1 & D2 & D3). specialize (D3 Hx). set (l := ceil_div x m) in *. clearbody l m. repeat split; try assumption; try lia.
  assert (X1 : (c * (m * l) <= c * (x + m))%nat) by (apply Nat.mul_le_mono_l; lia).
  assert (X2 : (m * (c * l) <= m * (m + c))%nat).
  { replace (m * (c * l))%nat with (c * (m * l))%nat by ring. rewrite !Nat.mul_add_distr_l in *. rewrite (Nat.mul_comm m c). clear D1 D2. lia. }
  assert (X3 : (c * l <= m + c)%nat) by (apply (Nat.mul_le_mono_pos_l _ _ m); assumption).
  assert (X4 : (c * 1 <= c * x)%nat) by (apply Nat.mul_le_mono_l; exact Hx).
  clear D1 D2 X1 X2. lia.
Qed.
Lemma secure_small m : and_secure m = true -> Z.of_nat m < 2 ^ 23.
Proof. unfold and_secure. intros H. apply Z.ltb_lt in H. lia. Qed.
Lemma degree_small m f : irreducible_poly (mod_degree m) = Ok f -> Z.of_nat m <= 2 ^ 22.
Proof.
  unfold irreducible_poly, irreducible. destruct (Nat.ltb (mod_degree m) 40); [discriminate|]. destruct (nth_error irreducibles (mod_degree m - 40)) eqn:E; [|discriminate]. intros _.
  assert (Hd : (mod_degree m - 40 < 24)%nat) by (apply (proj1 (nth_error_Some irreducibles _)); rewrite E; discriminate). unfold mod_degree in Hd. clear E.
  destruct m as [|m]; [lia|]. assert (H : (2 * S m <= 2 ^ Nat.log2_up (2 * S m))%nat) by (apply Nat.log2_up_spec; lia). set (k := Nat.log2_up (2 * S m)) in *. clearbody k.
  assert (Hk : (k <= 23)%nat) by lia. apply inj_le in H. rewrite Nat2Z.inj_pow in H. assert (X : Z.of_nat 2 ^ Z.of_nat k <= 2 ^ 23) by (apply Z.pow_le_mono_r; lia). lia.
Qed.
