(** The proofs over Galois rings: completeness up to the final comparison, soundness. *)
From Coq Require Import Ring Setoid Morphisms Nnat.
From Verif Require Import Base Ring RingProofs Gf2 Gf2Proofs Gf2Field Poly PolyProofs PolyRing PolyDiv PolyRem PolyPar Galois GaloisSpec GaloisPoints Swift3 Dzkp DzkpProofs DzkpSound DzkpSpec DzkpAnd.
Local Open Scope list_scope.

Lemma zlist_eqb_eq p q : zlist_eqb p q = true <-> p = q.
Proof.
  revert q. induction p as [|a p IH]; intros [|b q]; cbn [zlist_eqb]; [split; reflexivity|split; discriminate|split; discriminate|].
  rewrite andb_true_iff, Z.eqb_eq, IH. split; [intros [-> ->]; reflexivity|intros H; injection H; auto].
Qed.
Lemma shrink_leading K p : p_shrink (zk_ops K) p = p <-> leading p.
Proof.
  induction p as [|a p IH].
  - cbn. split; [discriminate|]. intros (q & c & E & _). destruct q; discriminate.
  - rewrite shrink_cons. destruct (p_iszero (zk_ops K) p) eqn:E.
    + split.
      * intros H. injection H as <-. exists [], a. auto.
      * intros (q & c & H & [Hc|Hc]); [|subst q; cbn in H; injection H as <- ->; reflexivity]. destruct q as [|b q]; [cbn in H; injection H as <- ->; reflexivity|].
        cbn in H. injection H as <- ->. exfalso. apply Hc. pose proof (iszero_nth K _ (length q) E) as X. rewrite app_nth2, Nat.sub_diag in X by lia. exact X.
    + assert (Hp : p <> []) by (intros ->; discriminate). split.
      * intros H. injection H as H. apply IH in H. destruct H as (q & c & -> & Hc). exists (a :: q), c. split; [reflexivity|]. left. destruct Hc as [Hc|Hc]; [exact Hc|]. subst q. cbn in E.
        intros ->. discriminate.
      * intros (q & c & H & Hc). f_equal. apply IH. destruct q as [|b q]; [cbn in H; injection H; intros; contradiction|]. cbn in H. injection H as <- ->. exists q, c. split; [reflexivity|].
        destruct Hc as [Hc|Hc]; [left; exact Hc|discriminate].
Qed.
Lemma mod_degree_size m : (N.size (N.of_nat m) <= N.of_nat (mod_degree m))%N.
Proof.
  apply size_le. unfold mod_degree. destruct m as [|m]; [apply N.neq_0_lt_0, N.pow_nonzero; discriminate|].
  assert (H : (2 * S m <= 2 ^ Nat.log2_up (2 * S m))%nat) by (apply Nat.log2_up_spec; lia).
  set (k := Nat.log2_up (2 * S m)) in *. clearbody k.
  assert (E : (N.of_nat (2 ^ k) = 2 ^ N.of_nat k)%N) by (clear H; induction k as [|k IH]; [reflexivity|]; replace (N.of_nat (S k)) with (N.succ (N.of_nat k)) by lia; rewrite N.pow_succ_r', <- IH, Nat.pow_succ_r' ; lia).
  assert (P : (2 ^ N.of_nat k <= 2 ^ N.of_nat (k + 40))%N) by (apply N.pow_le_mono_r; lia). lia.
Qed.

Section GDzkp.
  Variable K : Z.
  Hypothesis HS : In K small_widths.
  Notation HW := (small_in K HS).
  Notation HK := (widths_pos K HW).
  Variables (m : nat) (f : list Z).
  Notation d := (mod_degree m).
  Hypothesis Hf : irreducible_poly d = Ok f.
  Notation req := (req K d f).
  Notation wf := (Forall (inr K)).
  Notation G := (galois_ok K HS d f).
  Notation O := (pz_ops K).
  Notation red := (fun c => p_rem K c f).
  Variable n : nat.
  Hypothesis Hn : (0 < n)%nat.
  Variable cf : forall B : Type, rops B -> list B -> B.
  Hypothesis Hcf : cf_ok O req wf cf.
  Variable l : nat.
  Local Instance req_equiv8 : Equivalence req := rk_equiv _ _ _ G.

  Theorem galois_complete V V1 V2 thetas w : gates_ok O req wf n l m V V1 V2 -> (forall k, (k < m)%nat -> req (gsem O cf thetas (column l m V k)) []) ->
    polys K l thetas -> polys K (n * l) w ->
    exists g, gr_prover K f n cf l m V thetas w = Ok g /\
      forall betas r p2, polys K m betas -> wf r -> gr_share K n l m p2 ->
      exists s1 s2, gr_verdicts K f n l m V1 V2 betas r (explicit_share O w g p2) p2 = Ok (s1, s2) /\
        let sum := p_add (zk_ops K) (ds_pr s1) (ds_pr s2) in
        gr_check K f n cf l m V1 V2 thetas betas r (explicit_share O w g p2) p2 = (if zlist_eqb (p_shrink (zk_ops K) sum) sum then Ok tt else Err EDZKPVerify).
  Proof using HS Hf Hn Hcf.
    intros HG HC (Lt & Wt) (Lw & Ww). destruct (gr_lagrange_ok K HS d m f Hf (mod_degree_size m)) as (lag & El & Hl).
    assert (HP : forall betas r p2, polys K m betas -> wf r -> gr_share K n l m p2 ->
      exists g s1 s2, gr_prove K f n cf l m V thetas lag w = Ok g /\ gr_verify_pi K f n l m betas r lag (mul_points (m + 1)) V1 (explicit_share O w g p2) = Ok s1 /\
        gr_verify_pi K f n l m betas r lag (mul_points (m + 1)) V2 p2 = Ok s2 /\ let sum := p_add (zk_ops K) (ds_pr s1) (ds_pr s2) in
        gr_combine K f n cf l thetas s1 s2 = (if zlist_eqb (p_shrink (zk_ops K) sum) sum then Ok tt else Err EDZKPVerify)).
    { intros betas r p2 (Lb & Wb) Wr ((Lw2 & Ww2) & (La2 & Wa2)).
      destruct (dzkp_complete O req wf G red (rem_ok K HS d f Hf) n Hn cf Hcf (mul_points (m + 1)) lag (points_wf K HS m) Hl l m (mul_points_len m) zlist_eqb (galois_zero K HS d f Hf)
        V V1 V2 thetas betas r w p2 HG HC Lt Wt Lb Wb Wr Lw Ww Lw2 Ww2 La2 Wa2)
        as (g & s1 & s2 & Eg & _ & E1 & E2 & pr & u & u1 & u2 & Wu & Wu1 & Wu2 & Ru & R1 & R2 & Eq & EC).
      exists g, s1, s2. split; [exact Eg|]. split; [exact E1|]. split; [exact E2|]. cbv zeta. unfold gr_combine. rewrite EC.
      change (oadd O (ds_pr s1) (ds_pr s2)) with (p_add (zk_ops K) (ds_pr s1) (ds_pr s2)).
      destruct (f_split K HS d f Hf) as (Ef & Ll & _ & _ & _ & _).
      destruct (rem_ok K HS d f Hf u Wu) as (u0 & E0 & C0 & W0). cbn beta in Ru. rewrite Ru in E0. injection E0 as <-.
      destruct (rem_ok K HS d f Hf u1 Wu1) as (u0 & E0 & C1 & W1). cbn beta in R1. rewrite R1 in E0. injection E0 as <-.
      destruct (rem_ok K HS d f Hf u2 Wu2) as (u0 & E0 & C2 & W2). cbn beta in R2. rewrite R2 in E0. injection E0 as <-.
      destruct (rem_canonical K HS d f Hf u pr Wu Ru) as (S0 & L0). destruct (rem_canonical K HS d f Hf u1 _ Wu1 R1) as (S1 & L1). destruct (rem_canonical K HS d f Hf u2 _ Wu2 R2) as (S2 & L2).
      replace pr with (p_shrink (zk_ops K) (p_add (zk_ops K) (ds_pr s1) (ds_pr s2))); [reflexivity|]. rewrite <- S0. symmetry. apply (shrink_unique K HK).
      - exact W0.
      - apply (rk_wfadd _ _ _ G); assumption.
      - apply (small_eq K HW (low d f)); [lia|rewrite p_add_len; lia|]. change (geq K (low d f)) with req. transitivity u; [symmetry; exact C0|].
        transitivity (oadd O u1 u2); [exact Eq|]. exact (Radd_ext (rk_ext _ _ _ G) u1 (ds_pr s1) C1 u2 (ds_pr s2) C2). }
    destruct (HP (repeat [] m) [] (DProof (repeat [] (n * l)) (repeat [] (2 * m + 1)))) as (g & _ & _ & Eg & _).
    { split; [apply repeat_length|apply Forall_forall; intros x Hx; apply repeat_spec in Hx; subst x; constructor]. }
    { constructor. }
    { split; (split; [apply repeat_length|apply Forall_forall; intros x Hx; apply repeat_spec in Hx; subst x; constructor]). }
    exists g. split; [unfold gr_prover; rewrite El; exact Eg|]. intros betas r p2 Hb Hr Hp. destruct (HP betas r p2 Hb Hr Hp) as (g' & s1 & s2 & Eg' & E1 & E2 & EC).
    rewrite Eg in Eg'. injection Eg' as <-. exists s1, s2.
    assert (EV : gr_verdicts K f n l m V1 V2 betas r (explicit_share O w g p2) p2 = Ok (s1, s2)) by (unfold gr_verdicts; rewrite El; cbn [rbind]; rewrite E1; cbn [rbind]; rewrite E2; reflexivity).
    split; [exact EV|]. cbv zeta. unfold gr_check. rewrite EV. cbn [rbind fst snd]. exact EC.
  Qed.
End GDzkp.
