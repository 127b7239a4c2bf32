(** The proofs of multiplications and of inner products. *)
From Coq Require Import Ring Setoid Morphisms Nnat.
From Verif Require Import Base Ring RingProofs Poly PolyProofs PolyRing PolyDiv PolyRem PolyPar Galois GaloisSpec GaloisPoints GaloisDzkp GaloisSound GaloisGates Swift3 Dzkp DzkpProofs DzkpCircuits DzkpSound DzkpSpec IrisProofs Aby3Proofs.
Local Open Scope list_scope.

Lemma radd_inr K a b : In K small_widths -> inr K (radd K a b).
Proof. intros HS. apply (mod_inr K HS). Qed.
(** ** Statements as inputs *)
Lemma mul_joined_map K gates gates1 gates2 : mul_joined K gates gates1 gates2 -> gates = map2 (mul_join K) gates1 gates2.
Proof.
  intros (_ & _ & L1 & L2 & E). apply nth_ext with (d := pin_zero) (d' := mul_join K pin_zero pin_zero); [rewrite map2_length by lia; lia|].
  intros k Hk. rewrite E by exact Hk. rewrite (map2_nth (mul_join K) gates1 gates2 k pin_zero pin_zero (mul_join K pin_zero pin_zero)) by (try reflexivity; lia). reflexivity.
Qed.
Lemma dot_joined_map K dot gates gates1 gates2 : dot_joined K dot gates gates1 gates2 -> gates = map2 (dot_join K) gates1 gates2.
Proof.
  intros (_ & _ & L1 & L2 & E). apply nth_ext with (d := din_nil) (d' := dot_join K din_nil din_nil); [rewrite map2_length by lia; lia|].
  intros k Hk. rewrite E by exact Hk. rewrite (map2_nth (dot_join K) gates1 gates2 k din_nil din_nil (dot_join K din_nil din_nil)) by (try reflexivity; lia). reflexivity.
Qed.
Lemma mul_inputs_join K g h : mul_inputs (mul_join K g h) = map2 (oadd (pz_ops K)) (mul_inputs g) (mul_inputs h). Proof. reflexivity. Qed.
Lemma const_map2 K a b : map const (map2 (radd K) a b) = map2 (oadd (pz_ops K)) (map const a) (map const b).
Proof. revert b. induction a as [|x a IH]; intros [|y b]; try reflexivity. cbn [map2 map]. rewrite IH. reflexivity. Qed.
Lemma map2_app {A B C} (h : A -> B -> C) a a' b b' : length a = length b -> map2 h (a ++ a') (b ++ b') = map2 h a b ++ map2 h a' b'.
Proof. revert b. induction a as [|x a IH]; intros [|y b] L; try discriminate; [reflexivity|]. cbn [app map2]. rewrite IH by (cbn in L; lia). reflexivity. Qed.
Lemma dot_inputs_join K dot g h : dot_wf K dot g -> dot_wf K dot h -> dot_inputs (dot_join K g h) = map2 (oadd (pz_ops K)) (dot_inputs g) (dot_inputs h).
Proof.
  intros (HG & _) (HH & _). inversion_clear HG as [|? ? [A1 _] HG1]. inversion_clear HG1 as [|? ? [A2 _] HG2]. inversion_clear HG2 as [|? ? [A3 _] HG3]. inversion_clear HG3 as [|? ? [A4 _] _].
  inversion_clear HH as [|? ? [B1 _] HH1]. inversion_clear HH1 as [|? ? [B2 _] HH2]. inversion_clear HH2 as [|? ? [B3 _] HH3]. inversion_clear HH3 as [|? ? [B4 _] _].
  unfold dot_inputs, dot_join. cbn [d_a0 d_a1 d_b0 d_b1 d_r d_s]. rewrite !map_app, !const_map2. rewrite !map2_app by (rewrite !map_length; congruence). reflexivity.
Qed.
Lemma inputs_add {A} (inp : A -> list (list Z)) (join : A -> A -> A) (ok : A -> Prop) K gates1 gates2 :
  (forall g h, ok g -> ok h -> inp (join g h) = map2 (oadd (pz_ops K)) (inp g) (inp h)) -> Forall ok gates1 -> Forall ok gates2 ->
  add_inputs (pz_ops K) (map inp gates1) (map inp gates2) = map inp (map2 join gates1 gates2).
Proof.
  intros H W1. revert gates2. unfold add_inputs. induction W1 as [|g gs Hg _ IH]; intros gates2 W2; [reflexivity|]. destruct W2 as [|h hs Hh W2]; [reflexivity|]. cbn [map map2]. rewrite H, (IH hs W2) by assumption. reflexivity.
Qed.
Lemma refl_inputs {A} (rq : A -> A -> Prop) (V : list (list A)) : (forall a, rq a a) -> Forall2 (Forall2 rq) V V.
Proof. intros H. induction V as [|v V IH]; constructor; [|exact IH]. induction v; constructor; auto. Qed.

Section GM.
  Variable K : Z.
  Hypothesis HS : In K small_widths.
  Variables (m : nat) (f : list Z).
  Notation d := (mod_degree m).
  Hypothesis Hf : irreducible_poly d = Ok f.
  Notation req := (req K d f).
  Notation wf := (Forall (inr K)).
  Notation G := (galois_ok K HS d f).
  Notation O := (pz_ops K).
  Variable l : nat.
  (** Gates of one kind. *)
  Section Kind.
    Context {A : Type} (inp : A -> list (list Z)) (join : A -> A -> A) (ok correct : A -> Prop) (n : nat) (cf : forall B : Type, rops B -> list B -> B) (dflt : A).
    Hypothesis Hn : (0 < n)%nat.
    Hypothesis Hcf : cf_ok O req wf cf.
    Hypothesis Hinp : forall g, ok g -> length (inp g) = n /\ Forall wf (inp g).
    Hypothesis Hjoin : forall g h, ok g -> ok h -> ok (join g h) /\ inp (join g h) = map2 (oadd O) (inp g) (inp h).
    Hypothesis Hcorrect : forall g, ok g -> (req (cf (list Z) O (inp g)) [] <-> correct g).
    Lemma kind_shape gates : Forall ok gates -> length gates = (l * m)%nat -> shape n l m (map inp gates).
    Proof using Hinp.
      intros W L. split; [rewrite map_length, L; apply Nat.mul_comm|]. apply Forall_forall. intros v Hv. apply in_map_iff in Hv. destruct Hv as (g & <- & Hg). rewrite Forall_forall in W. apply Hinp, W, Hg.
    Qed.
    Lemma kind_wfi gates : Forall ok gates -> wfi wf (map inp gates).
    Proof using Hinp. intros W. apply Forall_forall. intros v Hv. apply in_map_iff in Hv. destruct Hv as (g & <- & Hg). rewrite Forall_forall in W. apply Hinp, W, Hg. Qed.
    Lemma kind_join_ok gates1 gates2 : Forall ok gates1 -> Forall ok gates2 -> Forall ok (map2 join gates1 gates2).
    Proof using Hjoin. intros W1 W2. apply (map2_Forall _ ok ok); [|exact W1|exact W2]. intros g h Hg Hh. apply Hjoin; assumption. Qed.
    Lemma kind_add gates1 gates2 : Forall ok gates1 -> Forall ok gates2 -> add_inputs O (map inp gates1) (map inp gates2) = map inp (map2 join gates1 gates2).
    Proof using Hjoin. intros W1 W2. apply (inputs_add inp join ok K); [|exact W1|exact W2]. intros g h Hg Hh. apply Hjoin; assumption. Qed.
    Theorem kind_complete gates gates1 gates2 thetas w :
      gates = map2 join gates1 gates2 -> Forall ok gates1 -> Forall ok gates2 -> length gates1 = (l * m)%nat -> length gates2 = (l * m)%nat -> Forall correct gates ->
      polys K l thetas -> polys K (n * l) w ->
      exists g, gr_prover K f n cf l m (map inp gates) thetas w = Ok g /\
        forall betas r p2, polys K m betas -> wf r -> gr_share K n l m p2 ->
        exists s1 s2, gr_verdicts K f n l m (map inp gates1) (map inp gates2) betas r (explicit_share O w g p2) p2 = Ok (s1, s2) /\
          (leading (p_add (zk_ops K) (ds_pr s1) (ds_pr s2)) -> gr_check K f n cf l m (map inp gates1) (map inp gates2) thetas betas r (explicit_share O w g p2) p2 = Ok tt) /\
          (~ leading (p_add (zk_ops K) (ds_pr s1) (ds_pr s2)) -> gr_check K f n cf l m (map inp gates1) (map inp gates2) thetas betas r (explicit_share O w g p2) p2 = Err EDZKPVerify).
    Proof using All.
      intros E W1 W2 L1 L2 HC Ht Hw. pose proof (kind_join_ok gates1 gates2 W1 W2) as W. rewrite <- E in W. assert (L : length gates = (l * m)%nat) by (rewrite E, map2_length; lia).
      destruct (galois_complete K HS m f Hf n Hn cf Hcf l (map inp gates) (map inp gates1) (map inp gates2) thetas w) as (g & Eg & H); [| |exact Ht|exact Hw|].
      - split; [apply kind_shape; assumption|]. split; [apply kind_shape; assumption|]. split; [apply kind_shape; assumption|]. split; [apply kind_wfi; assumption|]. split; [apply kind_wfi; assumption|]. split; [apply kind_wfi; assumption|].
        rewrite kind_add by assumption. rewrite <- E. apply refl_inputs. intros a. apply (rk_equiv _ _ _ G).
      - apply (columns_ok O req wf G n Hn cf (mul_points (m + 1)) l m (mul_points_len m) thetas _ (kind_shape gates W L)).
        apply Forall_forall. intros v Hv. apply in_map_iff in Hv. destruct Hv as (g & <- & Hg). rewrite Forall_forall in HC, W. apply Hcorrect; auto.
      - exists g. split; [exact Eg|]. intros betas r p2 Hb Hr Hp. destruct (H betas r p2 Hb Hr Hp) as (s1 & s2 & EV & EC). exists s1, s2. split; [exact EV|]. cbv zeta in EC. rewrite EC.
        destruct (zlist_eqb (p_shrink (zk_ops K) (p_add (zk_ops K) (ds_pr s1) (ds_pr s2))) (p_add (zk_ops K) (ds_pr s1) (ds_pr s2))) eqn:Ez; split; intros HL; try reflexivity; exfalso.
        + apply HL. apply (shrink_leading K), zlist_eqb_eq, Ez.
        + apply (shrink_leading K) in HL. apply zlist_eqb_eq in HL. congruence.
    Qed.
    Theorem kind_sound gates gates1 gates2 thetas j k :
      gates = map2 join gates1 gates2 -> Forall ok gates1 -> Forall ok gates2 -> length gates1 = (l * m)%nat -> length gates2 = (l * m)%nat ->
      polys K l thetas -> (j < l)%nat -> (k < m)%nat -> ~ correct (nth (j * m + k) gates dflt) ->
      exists bad, forall theta, element K d theta -> ~ same_mod2 theta bad ->
      forall p1 p2, gr_share K n l m p1 -> gr_share K n l m p2 ->
      let accepted betas r := elements K d m betas /\ element K d r /\ gr_check K f n cf l m (map inp gates1) (map inp gates2) (replaced j theta thetas) betas r p1 p2 = Ok tt in
      (forall rs, different_mod2 rs -> (forall r, In r rs -> exists betas, accepted betas r) -> (length rs <= 2 * m)%nat) \/
      (forall betas b b' r r', length betas = m -> accepted (replaced k b betas) r -> accepted (replaced k b' betas) r' -> same_mod2 b b').
    Proof using HS Hf Hn Hcf Hinp Hjoin Hcorrect.
      intros E W1 W2 L1 L2 Ht Hj Hk Hbad. pose proof (kind_join_ok gates1 gates2 W1 W2) as W. rewrite <- E in W. assert (L : length gates = (l * m)%nat) by (rewrite E, map2_length; lia).
      assert (Hin : (j * m + k < length gates)%nat) by (rewrite L; assert (j * m + m <= l * m)%nat by nia; lia).
      apply (galois_sound K HS m f Hf n Hn cf Hcf l (map inp gates1) (map inp gates2) thetas j k); auto using kind_shape, kind_wfi.
      rewrite kind_add by assumption. rewrite <- E. rewrite (nth_indep _ [] (inp dflt)) by (rewrite map_length; exact Hin). rewrite map_nth. intros X. apply Hbad. apply Hcorrect; [|exact X].
      rewrite Forall_forall in W. apply W, nth_In, Hin.
    Qed.
  End Kind.

  Lemma mul_inp g : mul_wf K g -> length (mul_inputs g) = 6%nat /\ Forall wf (mul_inputs g).
  Proof using. intros W. split; [reflexivity|]. unfold mul_inputs, mul_wf in *. clear - W. induction W; cbn; constructor; auto. Qed.
  Lemma mul_joins g h : mul_wf K g -> mul_wf K h -> mul_wf K (mul_join K g h) /\ mul_inputs (mul_join K g h) = map2 (oadd O) (mul_inputs g) (mul_inputs h).
  Proof using HS. intros _ _. split; [|reflexivity]. unfold mul_wf, mul_join. cbn [p_a0 p_a1 p_b0 p_b1 p_r p_s]. repeat constructor; apply (mod_inr K HS). Qed.
  Lemma dot_inp dot g : dot_wf K dot g -> length (dot_inputs g) = (4 * dot + 2)%nat /\ Forall wf (dot_inputs g).
  Proof using.
    intros (HL & Wr & Ws). inversion_clear HL as [|? ? [L1 W1] HL1]. inversion_clear HL1 as [|? ? [L2 W2] HL2]. inversion_clear HL2 as [|? ? [L3 W3] HL3]. inversion_clear HL3 as [|? ? [L4 W4] _].
    unfold dot_inputs. split; [rewrite map_length, !app_length, L1, L2, L3, L4; cbn; clear; lia|].
    assert (W : wf (d_a0 g ++ d_a1 g ++ d_b0 g ++ d_b1 g ++ [d_r g; d_s g])) by (do 4 (apply Forall_app; split; [assumption|]); constructor; [exact Wr|constructor; [exact Ws|constructor]]).
    clear - W. induction W; cbn; constructor; auto.
  Qed.
  Lemma dot_joins dot g h : dot_wf K dot g -> dot_wf K dot h -> dot_wf K dot (dot_join K g h) /\ dot_inputs (dot_join K g h) = map2 (oadd O) (dot_inputs g) (dot_inputs h).
  Proof using HS.
    intros Hg Hh. split; [|apply (dot_inputs_join K dot); assumption]. destruct Hg as (HG & _ & _), Hh as (HH & _ & _).
    inversion_clear HG as [|? ? [A1 V1] HG1]. inversion_clear HG1 as [|? ? [A2 V2] HG2]. inversion_clear HG2 as [|? ? [A3 V3] HG3]. inversion_clear HG3 as [|? ? [A4 V4] _].
    inversion_clear HH as [|? ? [B1 U1] HH1]. inversion_clear HH1 as [|? ? [B2 U2] HH2]. inversion_clear HH2 as [|? ? [B3 U3] HH3]. inversion_clear HH3 as [|? ? [B4 U4] _].
    assert (X : forall a b, length a = dot -> length b = dot -> wf a -> wf b -> length (map2 (radd K) a b) = dot /\ wf (map2 (radd K) a b)).
    { intros a b La Lb Wa Wb. split; [rewrite map2_length; congruence|]. apply (map2_Forall _ (inr K) (inr K) (inr K)); auto. intros; apply (mod_inr K HS). }
    split; [|split; apply (mod_inr K HS)]. unfold dot_join. cbn [d_a0 d_a1 d_b0 d_b1]. repeat (constructor; [apply X; assumption|]). constructor.
  Qed.
  Definition mul_cf : cf_ok O req wf c_mul := c_mul_ok O req wf G.
  Definition dot_cf dot : cf_ok O req wf (c_dot dot) := c_dot_ok O req wf G dot.
End GM.
