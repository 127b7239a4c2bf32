(** The proofs of AND gates, multiplications and inner products disclose nothing to the second verifier. *)
From Coq Require Import Ring Setoid Morphisms Nnat FinFun.
From Verif Require Import Base Ring RingProofs Gf2 Gf2Proofs Gf2Field Poly PolyProofs PolyRing PolyDiv PolyRem PolyPar GfRing Galois GaloisSpec GaloisPoints GaloisDzkp GaloisSound GaloisGates GaloisMul Swift3 Dzkp DzkpProofs DzkpCircuits DzkpSound DzkpSpec DzkpAnd DzkpPrivate PrivacySpec Swift3Verify IrisProofs Aby3Proofs.
Local Open Scope list_scope.

(** ** AND gates *)
Lemma gf_canon a b : gf_wf a -> gf_wf b -> gf_eq a b -> @Ok N a = Ok b.
Proof. intros Wa Wb E. f_equal. apply gf_eq_eq; assumption. Qed.
Lemma tl_points m : tl (and_points (m + 1)) = map N.of_nat (seq 1 m).
Proof. rewrite Nat.add_1_r. reflexivity. Qed.
Lemma and_weight m lag r : (N.of_nat m < 2 ^ 64)%N -> lagrange_ok gf_ops gf_eq gf_wf (and_points (m + 1)) lag -> (N.of_nat m < r)%N -> u64 r ->
  exists b, gf_wf b /\ gf_eq (omul gf_ops (p_eval gf_ops (nth 0 lag []) r) b) (o1 gf_ops).
Proof.
  intros Hm Hl Hr Wr. assert (U : unit gf_ops gf_eq (p_eval gf_ops (nth 0 lag []) r)).
  { apply (lag0_unit gf_ops gf_eq gf_wf GF (and_points (m + 1)) lag r Hl).
    - rewrite and_points_len. lia.
    - rewrite tl_points. apply nodup_spread.
      + apply Forall_forall. intros x Hx. apply in_map_iff in Hx. destruct Hx as (i & <- & Hi). apply in_seq in Hi. unfold gf_wf. lia.
      + apply FinFun.Injective_map_NoDup; [intros x y; lia|apply seq_NoDup].
    - rewrite tl_points. apply Forall_forall. intros x Hx. apply in_map_iff in Hx. destruct Hx as (i & <- & Hi). apply in_seq in Hi.
      apply gf_unit; [apply lxor_lt; [exact Wr|lia]|]. cbn [osub gf_ops]. unfold gf_add. intros E. apply N.lxor_eq in E. lia. }
  set (a := p_eval gf_ops (nth 0 lag []) r) in *.
  assert (Wa : gf_wf a). { apply (wf_p_eval gf_ops gf_eq gf_wf GF); [|exact Wr]. destruct Hl as (_ & _ & Wl & _). destruct (nth_in_or_default 0 lag []) as [H|H]; [rewrite Forall_forall in Wl; apply Wl, H|rewrite H; constructor]. }
  destruct (gf_inverse_ok a Wa) as (b & _ & Wb & Hb).
  - intros E. destruct U as (c & Hc). rewrite E in Hc. cbn [omul gf_ops o1] in Hc.
    assert (X : gf_eq (gf_mul 0 c) 0) by (rewrite gf_mul_cong, clmul_0_l; reflexivity).
    assert (0 = 1)%N; [|discriminate]. apply gf_eq_eq; [reflexivity|reflexivity|]. etransitivity; [symmetry; exact X|exact Hc].
  - exists b. split; [exact Wb|]. change (gf_eq (gf_mul a b) 1%N). rewrite Hb. reflexivity.
Qed.

Theorem and_private l m gates gates' gates1 gates1' gates2 thetas r :
  (N.of_nat m < r)%N -> u64 r -> length gates = (l * m)%nat -> length gates' = (l * m)%nat ->
  gates_joined gates gates1 gates2 -> gates_joined gates' gates1' gates2 -> Forall and_correct gates -> Forall and_correct gates' -> u64s l thetas ->
  exists delta, u64s (6 * l) delta /\ forall betas w p2, u64s m betas -> u64s (6 * l) w -> and_proof_share l m p2 ->
    exists s, and_message l m gates gates1 thetas betas r w p2 = Ok s /\ and_message l m gates' gates1' thetas betas r (map2 N.lxor w delta) p2 = Ok s.
Proof.
  intros Hr Wr Lg Lg' HJ HJ' HC HC' Ht. assert (Hm : (N.of_nat m < 2 ^ 64)%N) by (unfold u64 in Wr; lia).
  destruct (and_lagrange m Hm) as (lag & El & Hl). destruct (and_weight m lag r Hm Hl Hr Wr) as (b & Wb & Hb).
  assert (COL : forall gs, length gs = (l * m)%nat -> Forall and_correct gs -> forall k, (k < m)%nat -> gf_eq (gsem gf_ops c_mul thetas (column l m (map and_inputs gs) k)) (o0 gf_ops)).
  { intros gs L C. apply (columns_ok gf_ops gf_eq gf_wf GF 6 ltac:(lia) c_mul (and_points (m + 1)) l m (and_points_len m) thetas _ (inputs_shape l m _ L)).
    apply Forall_forall. intros v Hv. apply in_map_iff in Hv. destruct Hv as (g & <- & Hg). rewrite Forall_forall in C. rewrite and_err_c, (proj2 (and_err_correct g) (C g Hg)). reflexivity. }
  destruct Ht as (Lt & Wt).
  destruct (hides gf_ops gf_eq gf_wf GF (@Ok N) ok_red gf_canon 6 ltac:(lia) c_mul and_cf (and_points (m + 1)) lag (and_points_wf m Hm) Hl l m (and_points_len m)
    _ _ _ _ _ thetas b r (gates_joined_ok l m _ _ _ Lg HJ) (gates_joined_ok l m _ _ _ Lg' HJ') (COL _ Lg HC) (COL _ Lg' HC') Lt Wt Wr Wb Hb) as (delta & Ld & Wd & _ & HD).
  exists delta. split; [split; assumption|]. intros betas w p2 Hbe Hw Hp.
  destruct (and_complete l m gates gates1 gates2 thetas betas r w p2 Hm Lg HJ (COL _ Lg HC) (conj Lt Wt) Hbe Wr Hw Hp) as (g & Eg & Ec).
  specialize (HD betas w p2 (proj1 Hbe) (proj2 Hbe) (proj1 Hw) (proj2 Hw) (proj1 (proj1 Hp)) (proj2 (proj1 Hp)) (proj1 (proj2 Hp)) (proj2 (proj2 Hp))).
  unfold and_message, and_prover, and_prove, and_verify_pi in *. unfold and_check in Ec. rewrite El in *. cbn [rbind] in *. unfold and_verify_pi in Ec. rewrite Eg in HD |- *. cbn [rbind] in *.
  destruct (verify_pi gf_ops (@Ok N) 6 l m betas r lag (and_points (m + 1)) (map and_inputs gates1) (explicit_share gf_ops w g p2)) as [s|e]; [|discriminate Ec].
  exists s. split; [reflexivity|]. symmetry. exact HD.
Qed.

(** ** Multiplications and inner products *)
Definition fill (d : nat) (p : list Z) : list Z := p ++ repeat 0 (d - length p).
Lemma fill_element K d p : 0 < K -> (length p <= d)%nat -> Forall (inr K) p -> element K d (fill d p).
Proof.
  intros HK L W. split; [unfold fill; rewrite app_length, repeat_length; lia|]. unfold fill. apply Forall_app. split; [exact W|]. apply Forall_forall. intros x Hx. apply repeat_spec in Hx. subst x.
  unfold inr. pose proof (Z.pow_pos_nonneg 2 K). lia.
Qed.
Lemma odd_allowed k z : Nat.odd k = true -> poly_again (point_bits k ++ z) = false.
Proof.
  intros H. assert (O : N.odd (N.of_nat k) = true).
  { rewrite <- N.bit0_odd. change 0%N with (N.of_nat 0). rewrite <- (Nat2N.id k) in H. rewrite <- H, N.bit0_odd. clear H. destruct (N.of_nat k) as [|p]; [reflexivity|]. cbn [N.to_nat N.odd]. destruct p; cbn; try reflexivity.
    - rewrite Pos2Nat.inj_xI. rewrite Nat.odd_succ, Nat.even_mul. reflexivity.
    - rewrite Pos2Nat.inj_xO, Nat.odd_mul. reflexivity. }
  unfold point_bits. destruct (N.of_nat k) as [|[p|p|]]; try discriminate; reflexivity.
Qed.
Section GPriv.
  Variable K : Z.
  Hypothesis HS : In K small_widths.
  Notation HW := (small_in K HS).
  Notation HK := (widths_pos K HW).
  Variables (m : nat) (f : list Z).
  Notation d := (mod_degree m).
  Hypothesis Hf : irreducible_poly d = Ok f.
  Notation req := (req K d f).
  Notation wf := (Forall (inr K)).
  Notation G := (galois_ok K HS d f).
  Notation O := (pz_ops K).
  Notation red := (fun c => p_rem K c f).
  Local Instance req_equiv11 : Equivalence req := rk_equiv _ _ _ G.
  Lemma fill_add p q : length p = d -> wf p -> (length q <= d)%nat -> p_add (zk_ops K) p q = map2 (radd K) p (fill d q).
  Proof using HS.
    generalize d. clear Hf m. intros e L W Hq. unfold fill. revert q e L Hq. induction W as [|a p Ha _ IH]; intros q e L Hq; cbn [length] in L.
    - subst e. destruct q; [reflexivity|cbn in Hq; lia].
    - destruct q as [|b q].
      + cbn [length app]. rewrite Nat.sub_0_r. subst e. cbn [repeat map2]. transitivity (a :: p); [reflexivity|]. f_equal.
        * unfold radd. rewrite Z.add_0_r. symmetry. apply Z.mod_small. exact Ha.
        * specialize (IH [] (length p) eq_refl ltac:(cbn; lia)). cbn [length app] in IH. rewrite Nat.sub_0_r in IH. etransitivity; [|exact IH]. destruct p; reflexivity.
      + cbn [length] in Hq. destruct e as [|e]; [discriminate|]. cbn [length app Nat.sub map2]. rewrite <- (IH q e) by lia. reflexivity.
  Qed.
  Lemma gr_canon a b : wf a -> wf b -> req a b -> red a = red b.
  Proof using HS Hf. intros Wa Wb E. destruct (f_split K HS d f Hf) as (Ef & Ll & _ & _ & _ & R). rewrite Ef. apply (p_rem_unique K HW (low d f)); [lia|exact Wa|exact Wb|exact E]. Qed.
  Lemma point_short k : (k <= m)%nat -> (length (point_bits k) <= d)%nat.
  Proof using. intros Hk. pose proof (point_len k) as L. pose proof (mod_degree_size m) as Z. pose proof (size_mono (N.of_nat k) (N.of_nat m) ltac:(lia)). lia. Qed.
  Lemma sub_unit p q : wf p -> wf q -> (length p <= d)%nat -> (length q <= d)%nat -> par p <> par q -> exists v, wf v /\ req (omul O (osub O p q) v) (o1 O).
  Proof using HS Hf.
    intros Wp Wq Lp Lq H. destruct (mod_inverse_ok K HS d f Hf (p_sub (zk_ops K) p q)) as (v & _ & E & Wv).
    - apply (rk_wfsub _ _ _ G); assumption.
    - rewrite p_sub_len. apply Nat.max_lub; assumption.
    - rewrite (par_sub K HK). intros E. apply H, N.lxor_eq, E.
    - exists v. split; [exact Wv|exact E].
  Qed.
  Lemma tl_mul_points : tl (mul_points (m + 1)) = map point_bits (seq 1 m).
  Proof using. rewrite Nat.add_1_r. reflexivity. Qed.
  Lemma gr_weight lag r : lagrange_ok O req wf (mul_points (m + 1)) lag -> element K d r -> avoids_points m r ->
    exists b, wf b /\ req (omul O (p_eval O (nth 0 lag []) r) b) (o1 O).
  Proof using HS Hf.
    intros Hl (Lr & Wr) Hr. assert (U : unit O req (p_eval O (nth 0 lag []) r)).
    { apply (lag0_unit O req wf G (mul_points (m + 1)) lag r Hl).
      - rewrite mul_points_len. lia.
      - rewrite tl_mul_points. assert (S : forall k n, (k + n <= m + 1)%nat -> spread O req (map point_bits (seq k n))).
        { intros k n. revert k. induction n as [|n IH]; intros k H; cbn [seq map spread]; [exact I|]. split; [|apply IH; lia].
          apply Forall_forall. intros x Hx. apply in_map_iff in Hx. destruct Hx as (i & <- & Hi). apply in_seq in Hi.
          destruct (sub_unit (point_bits i) (point_bits k)) as (v & _ & Hv); [apply point_wf, HK|apply point_wf, HK|apply point_short; lia|apply point_short; lia|rewrite !point_par; lia|]. exists v. exact Hv. }
        apply S. lia.
      - rewrite tl_mul_points. apply Forall_forall. intros x Hx. apply in_map_iff in Hx. destruct Hx as (i & <- & Hi). apply in_seq in Hi.
        destruct (sub_unit r (point_bits i)) as (v & _ & Hv); [exact Wr|apply point_wf, HK|lia|apply point_short; lia|intros E; apply (Hr i ltac:(lia)), same_par, E|]. exists v. exact Hv. }
    assert (Wl0 : wf (p_eval O (nth 0 lag []) r)).
    { apply (wf_p_eval O req wf G); [|exact Wr]. destruct Hl as (_ & _ & Wl & _). destruct (nth_in_or_default 0 lag []) as [H|H]; [rewrite Forall_forall in Wl; apply Wl, H|rewrite H; constructor]. }
    destruct (rem_ok K HS d f Hf _ Wl0) as (a & Ea & Ca & Wa). destruct (rem_canonical K HS d f Hf _ _ Wl0 Ea) as (_ & La).
    destruct U as (c & Hc).
    assert (Pa : par a <> 0%N).
    { intros Z. assert (X : req (omul O a c) (o1 O)) by (etransitivity; [apply (Rmul_ext (rk_ext _ _ _ G)); [symmetry; exact Ca|reflexivity]|exact Hc]).
      apply (par_req K HS d f Hf) in X. cbn [omul pz_ops pops o1] in X. revert X. rewrite (par_mul K HK), Z, clmul_0_l. intros [k Hk].
      destruct (f_split K HS d f Hf) as (_ & _ & _ & _ & Sz & R).
      assert (E1 : clmul k (par f) = 1%N) by (rewrite <- Hk; reflexivity). assert (k <> 0%N) by (intros ->; rewrite clmul_0_l in E1; discriminate E1). assert (F0 : par f <> 0%N) by (intros F0; rewrite F0 in Sz; cbn in Sz; lia).
      pose proof (size_clmul k (par f) H F0) as Y. rewrite E1, Sz in Y. assert (1 <= N.size k)%N by (destruct k; [congruence|cbn; lia]). cbn [N.size Pos.size] in Y. lia. }
    destruct (mod_inverse_ok K HS d f Hf a Wa La Pa) as (v & _ & E & Wv). exists v. split; [exact Wv|]. etransitivity; [apply (Rmul_ext (rk_ext _ _ _ G)); [exact Ca|reflexivity]|exact E].
  Qed.

    Lemma rem_const c : inr K c -> p_rem K [c] f = Ok [c].
    Proof using HS Hf.
      intros Hc. assert (W : wf [c]) by (constructor; [exact Hc|constructor]). destruct (f_split K HS d f Hf) as (_ & Ll & _ & _ & _ & R).
      destruct (rem_ok K HS d f Hf [c] W) as (r & Er & Cr & Wr). destruct (rem_canonical K HS d f Hf [c] r W Er) as (Sr & Lr). rewrite Er. f_equal. rewrite <- Sr. change [c] with (p_shrink (zk_ops K) [c]).
      apply (shrink_unique K HK); [exact Wr|exact W|]. apply (small_eq K HW (low d f)); [lia|cbn; lia|symmetry; exact Cr].
    Qed.
  Variable l : nat.
  Section Kind.
    Context {A : Type} (inp : A -> list (list Z)) (join : A -> A -> A) (ok correct : A -> Prop) (n : nat) (cf : forall B : Type, rops B -> list B -> B) (dflt : A).
    Hypothesis Hn : (0 < n)%nat.
    Hypothesis Hcf : cf_ok O req wf cf.
    Hypothesis Hinp : forall g, ok g -> length (inp g) = n /\ Forall wf (inp g).
    Hypothesis Hjoin : forall g h, ok g -> ok h -> ok (join g h) /\ inp (join g h) = map2 (oadd O) (inp g) (inp h).
    Hypothesis Hcorrect : forall g, ok g -> (req (cf (list Z) O (inp g)) [] <-> correct g).
    Theorem kind_private gates gates' gates1 gates1' gates2 thetas r :
      gates = map2 join gates1 gates2 -> gates' = map2 join gates1' gates2 -> Forall ok gates1 -> Forall ok gates1' -> Forall ok gates2 ->
      length gates1 = (l * m)%nat -> length gates1' = (l * m)%nat -> length gates2 = (l * m)%nat -> Forall correct gates -> Forall correct gates' ->
      polys K l thetas -> element K d r -> avoids_points m r ->
      exists delta, elements K d (n * l) delta /\ forall betas w p2, polys K m betas -> elements K d (n * l) w -> gr_share K n l m p2 ->
        exists s, gr_message K f n cf l m (map inp gates) (map inp gates1) thetas betas r w p2 = Ok s /\
          gr_message K f n cf l m (map inp gates') (map inp gates1') thetas betas r (elements_add K w delta) p2 = Ok s.
    Proof using All.
      intros E E' W1 W1' W2 L1 L1' L2 HC HC' Ht Hr Ha.
      destruct (gr_lagrange_ok K HS d m f Hf (mod_degree_size m)) as (lag & El & Hl). destruct (gr_weight lag r Hl Hr Ha) as (b & Wb & Hb).
      assert (X : forall gs gs1, gs = map2 join gs1 gates2 -> Forall ok gs1 -> length gs1 = (l * m)%nat -> Forall correct gs ->
        gates_ok O req wf n l m (map inp gs) (map inp gs1) (map inp gates2) /\ forall k, (k < m)%nat -> req (gsem O cf thetas (column l m (map inp gs) k)) (o0 O)).
      { intros gs gs1 Eg Wg Lg Cg. pose proof (kind_join_ok K inp join ok Hjoin gs1 gates2 Wg W2) as W. rewrite <- Eg in W.
        assert (L : length gs = (l * m)%nat) by (rewrite Eg, map2_length; lia). split.
        - split; [apply (kind_shape K m l inp ok n Hinp); assumption|]. split; [apply (kind_shape K m l inp ok n Hinp); assumption|]. split; [apply (kind_shape K m l inp ok n Hinp); assumption|].
          split; [apply (kind_wfi K inp ok n Hinp); assumption|]. split; [apply (kind_wfi K inp ok n Hinp); assumption|]. split; [apply (kind_wfi K inp ok n Hinp); assumption|].
          rewrite (kind_add K inp join ok Hjoin) by assumption. rewrite <- Eg. apply refl_inputs. intros a. reflexivity.
        - apply (columns_ok O req wf G n Hn cf (mul_points (m + 1)) l m (mul_points_len m) thetas _ (kind_shape K m l inp ok n Hinp gs W L)).
          apply Forall_forall. intros v Hv. apply in_map_iff in Hv. destruct Hv as (g & <- & Hg). rewrite Forall_forall in Cg, W. apply Hcorrect; auto. }
      destruct (X _ _ E W1 L1 HC) as [GO CO]. destruct (X _ _ E' W1' L1' HC') as [GO' CO'].
      destruct (hides O req wf G red (rem_ok K HS d f Hf) gr_canon n Hn cf Hcf (mul_points (m + 1)) lag (points_wf K HS m) Hl l m (mul_points_len m)
        _ _ _ _ _ thetas b r GO GO' CO CO' (proj1 Ht) (proj2 Ht) (proj2 Hr) Wb Hb) as (delta & Ld & Wd & Cd & HD).
      assert (Sd : Forall (fun x => (length x <= d)%nat) delta).
      { clear - Cd HS Hf. induction Cd as [|x xs (y & Wy & Ey) _ IH]; constructor; [|exact IH]. apply (rem_canonical K HS d f Hf y x Wy Ey). }
      exists (map (fill d) delta). split.
      { split; [rewrite map_length; exact Ld|]. clear - Sd Wd HS. induction Sd as [|x xs Sx _ IH]; cbn [map]; constructor; inversion_clear Wd; [apply fill_element; [apply HK|assumption|assumption]|apply IH; assumption]. }
      intros betas w p2 Hbe Hw Hp. assert (Ww : Forall wf w) by (destruct Hw as (_ & Hw); clear - Hw; induction Hw as [|x xs [_ Hx] _ IH]; constructor; assumption).
      destruct (kind_complete K HS m f Hf l inp join ok correct n cf dflt Hn Hcf Hinp Hjoin Hcorrect gates gates1 gates2 thetas w E W1 W2 L1 L2 HC Ht (conj (proj1 Hw) Ww)) as (g & Eg & H).
      destruct (H betas r p2 Hbe (proj2 Hr) Hp) as (s1 & s2 & EV & _).
      specialize (HD betas w p2 (proj1 Hbe) (proj2 Hbe) (proj1 Hw) Ww (proj1 (proj1 Hp)) (proj2 (proj1 Hp)) (proj1 (proj2 Hp)) (proj2 (proj2 Hp))).
      assert (EA : map2 (oadd O) w delta = elements_add K w (map (fill d) delta)).
      { unfold elements_add. destruct Hw as (_ & Hw). clear - Hw Sd HS. revert delta Sd. induction Hw as [|x xs [Lx Wx] _ IH]; intros [|y ys] Sd; try reflexivity. cbn [map2 map]. inversion_clear Sd. rewrite IH by assumption. f_equal. apply fill_add; assumption. }
      rewrite EA in HD. unfold gr_message, gr_prover, gr_prove, gr_verify_pi in *. unfold gr_verdicts in EV. rewrite El in *. cbn [rbind] in *. unfold gr_verify_pi in EV. rewrite Eg in HD |- *. cbn [rbind] in *.
      destruct (verify_pi O red n l m betas r lag (mul_points (m + 1)) (map inp gates1) (explicit_share O w g p2)) as [s|e]; [|discriminate EV].
      exists s. split; [reflexivity|]. symmetry. exact HD.
    Qed.

    Hypothesis Hconst : forall g, Forall (fun p => exists c, p = [c]) (inp g).
    Theorem kind_reveals gates gates1 gates2 thetas betas w p2 k :
      gates = map2 join gates1 gates2 -> Forall ok gates1 -> Forall ok gates2 -> length gates1 = (l * m)%nat -> length gates2 = (l * m)%nat -> Forall correct gates ->
      polys K l thetas -> polys K m betas -> polys K (n * l) w -> gr_share K n l m p2 -> (1 <= k <= m)%nat ->
      exists s, gr_message K f n cf l m (map inp gates) (map inp gates1) thetas betas (fill d (point_bits k)) w p2 = Ok s /\
        ds_f s = flat_map (fun j => inp (nth (j * m + (k - 1)) gates1 dflt)) (seq 0 l).
    Proof using All.
      intros E W1 W2 L1 L2 HC Ht Hbe Hw Hp Hk. set (r := fill d (point_bits k)).
      assert (Wr : wf r) by (apply fill_element; [apply HK|apply point_short; lia|apply point_wf, HK]).
      assert (Er : req r (nth k (mul_points (m + 1)) (o0 O))).
      { cbn [o0 pz_ops pops]. rewrite mul_points_nth by lia. apply (geq_of K HW). unfold r, fill. intros i. cbn [o0 zk_ops]. destruct (Nat.lt_ge_cases i (length (point_bits k))) as [Hi|Hi].
        - rewrite app_nth1 by exact Hi. reflexivity.
        - rewrite app_nth2, nth_repeat, (nth_overflow (point_bits k)) by exact Hi. reflexivity. }
      destruct (gr_lagrange_ok K HS d m f Hf (mod_degree_size m)) as (lag & El & Hl).
      destruct (kind_complete K HS m f Hf l inp join ok correct n cf dflt Hn Hcf Hinp Hjoin Hcorrect gates gates1 gates2 thetas w E W1 W2 L1 L2 HC Ht Hw) as (g & Eg & H).
      destruct (H betas r p2 Hbe Wr Hp) as (s1 & s2 & EV & _).
      unfold gr_verdicts in EV. rewrite El in EV. cbn [rbind] in EV. unfold gr_verify_pi in EV.
      destruct (verify_pi O red n l m betas r lag (mul_points (m + 1)) (map inp gates1) (explicit_share O w g p2)) as [s|e] eqn:Es; [|discriminate EV].
      exists s. split. { unfold gr_message. rewrite Eg, El. cbn [rbind]. unfold gr_verify_pi. exact Es. }
      assert (Ww1 : Forall wf (dp_w (explicit_share O w g p2))).
      { cbn [explicit_share dp_w]. apply (map2_Forall _ wf wf wf); [intros; apply (rk_wfsub _ _ _ G); assumption|apply Hw|apply Hp]. }
      pose proof (reveals O req wf G red (rem_ok K HS d f Hf) gr_canon n Hn (mul_points (m + 1)) lag Hl l m (mul_points_len m) (map inp gates1) betas r
        (explicit_share O w g p2) k s (kind_shape K m l inp ok n Hinp gates1 W1 L1) (kind_wfi K inp ok n Hinp gates1 W1) Wr Ww1 Hk Er Es) as X.
      cut (mapM_res (fun ji => red (nth (snd ji) (nth (fst ji * m + (k - 1)) (map inp gates1) []) (o0 O))) (rows n l) = Ok (flat_map (fun j => inp (nth (j * m + (k - 1)) gates1 dflt)) (seq 0 l))).
      { intros Y. pose proof (eq_trans (eq_sym X) Y) as Y'. injection Y' as Y'. exact Y'. }
      clear - HS Hf Hinp Hconst W1 L1 Hk. unfold rows. assert (HI : forall j, In j (seq 0 l) -> (j * m + (k - 1) < length gates1)%nat) by (intros j Hj; apply in_seq in Hj; rewrite L1; nia).
      revert HI. generalize (seq 0 l) as js. intros js HI.
      assert (MA : forall (h : nat * nat -> res (list Z)) a b ra rb, mapM_res h a = Ok ra -> mapM_res h b = Ok rb -> mapM_res h (a ++ b) = Ok (ra ++ rb)).
      { intros h a b. induction a as [|x a IH]; intros ra rb Ha Hb; cbn [mapM_res app] in *; [injection Ha as <-; exact Hb|]. destruct (h x); cbn [rbind] in *; [|discriminate]. destruct (mapM_res h a) as [ra'|]; cbn [rbind] in *; [|discriminate].
        injection Ha as <-. rewrite (IH _ _ eq_refl Hb). reflexivity. }
      induction js as [|j js IH]; [reflexivity|]. cbn [flat_map]. apply MA; [|apply IH; intros; apply HI; right; assumption].
      specialize (HI j (or_introl eq_refl)). set (q := (j * m + (k - 1))%nat) in *.
      assert (EQ : nth q (map inp gates1) [] = inp (nth q gates1 dflt)) by (rewrite (nth_indep _ [] (inp dflt)) by (rewrite map_length; exact HI); apply map_nth).
      assert (Hg : ok (nth q gates1 dflt)) by (rewrite Forall_forall in W1; apply W1, nth_In, HI). destruct (Hinp _ Hg) as (Ln & Wn). pose proof (Hconst (nth q gates1 dflt)) as HCn.
      revert Ln Wn HCn EQ. generalize (inp (nth q gates1 dflt)) as v. intros v Ln Wn HCn EQ.
      assert (MM : mapM_res (fun i => red (nth i v [])) (seq 0 n) = Ok v).
      { rewrite <- Ln. clear - Wn HCn HS Hf. rewrite <- (app_nil_l v) at 1. assert (Y : forall pre, mapM_res (fun i => red (nth i (pre ++ v) [])) (seq (length pre) (length v)) = Ok v).
        { induction v as [|x v IH]; intros pre; [reflexivity|]. cbn [length seq mapM_res]. inversion_clear Wn as [|? ? Wx Wv]. inversion_clear HCn as [|? ? (c & Ex) Hv]. subst x. rewrite app_nth2 by lia. rewrite Nat.sub_diag. cbn [nth].
          rewrite rem_const by (exact (Forall_inv Wx)). cbn [rbind]. specialize (IH Wv Hv (pre ++ [[c]])). rewrite app_length, <- app_assoc in IH. cbn [length app] in IH. rewrite Nat.add_1_r in IH. rewrite IH. reflexivity. }
        apply (Y []). }
      transitivity (mapM_res (fun i => red (nth i v [])) (seq 0 n)); [|exact MM]. generalize (seq 0 n) as is. intros is. induction is as [|i is IHi]; [reflexivity|]. cbn [map mapM_res fst snd]. rewrite IHi. fold q. rewrite EQ. reflexivity.
    Qed.
  End Kind.
End GPriv.

(** ** The explicit share alone *)
Lemma pad_unique {A} (sub : A -> A -> A) (P T : A -> Prop) :
  (forall a t, P a -> T t -> exists q, T q /\ sub a q = t /\ forall q', T q' -> sub a q' = t -> q' = q) ->
  forall xs ts, Forall P xs -> Forall T ts -> length xs = length ts ->
  exists qs, (length qs = length xs /\ Forall T qs) /\ map2 sub xs qs = ts /\ forall qs', length qs' = length xs -> Forall T qs' -> map2 sub xs qs' = ts -> qs' = qs.
Proof.
  intros H xs ts HP. revert ts. induction HP as [|x xs Hx _ IH]; intros ts HT L; (destruct ts as [|t ts]; [try discriminate|try discriminate]).
  - exists []. split; [split; [reflexivity|constructor]|]. split; [reflexivity|]. intros [|? ?] L' _ _; [reflexivity|discriminate].
  - inversion_clear HT as [|? ? Ht HTs]. destruct (H x t Hx Ht) as (q & Tq & Eq & Uq). destruct (IH ts HTs ltac:(cbn in L; lia)) as (qs & (Lq & Wq) & Eqs & Uqs).
    exists (q :: qs). split; [split; [cbn; lia|constructor; assumption]|]. split; [cbn [map2]; congruence|].
    intros [|q' qs'] L' W' E'; [discriminate|]. inversion_clear W'. cbn [map2] in E'. injection E' as E1 E2. f_equal; [apply Uq; assumption|apply Uqs; auto; cbn in L'; lia].
Qed.
Lemma gf_pad a t : u64 a -> u64 t -> exists q, u64 q /\ N.lxor a q = t /\ forall q', u64 q' -> N.lxor a q' = t -> q' = q.
Proof.
  intros Ha Ht. exists (N.lxor a t). split; [apply lxor_lt; assumption|]. split; [rewrite <- N.lxor_assoc, N.lxor_nilpotent, N.lxor_0_l; reflexivity|].
  intros q' _ <-. rewrite <- N.lxor_assoc, N.lxor_nilpotent, N.lxor_0_l. reflexivity.
Qed.
Theorem and_explicit l m w g p1 : u64s (6 * l) w -> u64s (2 * m + 1) g -> and_proof_share l m p1 ->
  exists p2, and_proof_share l m p2 /\ explicit_share gf_ops w g p2 = p1 /\ forall p2', and_proof_share l m p2' -> explicit_share gf_ops w g p2' = p1 -> p2' = p2.
Proof.
  intros (Lw & Ww) (Lg & Wg) ((L1 & W1) & (L2 & W2)).
  destruct (pad_unique N.lxor u64 u64 gf_pad w (dp_w p1) Ww W1 ltac:(lia)) as (q1 & (Lq1 & Wq1) & E1 & U1).
  destruct (pad_unique N.lxor u64 u64 gf_pad g (dp_a p1) Wg W2 ltac:(lia)) as (q2 & (Lq2 & Wq2) & E2 & U2).
  exists (DProof q1 q2). split; [split; (split; [cbn; lia|assumption])|]. split; [destruct p1 as [x y]; cbn [dp_w dp_a] in *; unfold explicit_share; cbn [dp_w dp_a]; f_equal; assumption|].
  intros [a b] ((La & Wa) & (Lb & Wb)) E. cbn in La, Wa, Lb, Wb. unfold explicit_share in E. cbn [dp_w dp_a] in E. destruct p1 as [x y]. injection E as Ea Eb. f_equal; [apply U1|apply U2]; auto; lia.
Qed.
Section Pads.
  Variable K : Z.
  Hypothesis HK : 0 < K.
  Lemma z_pad a t : inr K a -> inr K t -> exists q, inr K q /\ rsub K a q = t /\ forall q', inr K q' -> rsub K a q' = t -> q' = q.
  Proof.
    intros Ha Ht. exists (rsub K a t). assert (P : 0 < 2 ^ K) by (apply Z.pow_pos_nonneg; lia). unfold rsub, inr in *. split; [apply Z.mod_pos_bound, P|]. split.
    - rewrite Zminus_mod_idemp_r. replace (a - (a - t)) with t by ring. apply Z.mod_small, Ht.
    - intros q' Hq <-. rewrite Zminus_mod_idemp_r. replace (a - (a - q')) with q' by ring. symmetry. apply Z.mod_small, Hq.
  Qed.
  Lemma fill_sub d p q : (length p <= d)%nat -> Forall (inr K) p -> length q = d -> p_sub (zk_ops K) p q = map2 (rsub K) (fill d p) q.
  Proof using.
    unfold fill. intros Lp Wp. revert d q Lp. induction Wp as [|a p Ha _ IH]; intros d q Lp Lq.
    - cbn [length app]. rewrite Nat.sub_0_r. cbn [p_sub]. subst d. induction q as [|b q IHq]; [reflexivity|]. cbn [map length repeat map2]. rewrite IHq by (cbn; lia). reflexivity.
    - destruct q as [|b q]; [cbn in *; lia|]. destruct d as [|d]; [discriminate|]. cbn [p_sub length app Nat.sub map2]. rewrite (IH d q) by (cbn in *; lia). reflexivity.
  Qed.
  Lemma poly_pad d a t : ((length a <= d)%nat /\ Forall (inr K) a) -> element K d t ->
    exists q, element K d q /\ p_sub (zk_ops K) a q = t /\ forall q', element K d q' -> p_sub (zk_ops K) a q' = t -> q' = q.
  Proof.
    intros (La & Wa) (Lt & Wt). destruct (fill_element K d a HK La Wa) as (Lf & Wf).
    destruct (pad_unique (rsub K) (inr K) (inr K) z_pad (fill d a) t Wf Wt ltac:(lia)) as (q & (Lq & Wq) & E & U).
    exists q. assert (Lq' : length q = d) by lia. split; [split; assumption|]. split; [rewrite (fill_sub d); assumption|].
    intros q' (L' & W') E'. rewrite (fill_sub d) in E' by assumption. apply U; [lia|exact W'|exact E'].
  Qed.
End Pads.
Theorem gr_explicit K d nl ml w g p1 : 0 < K -> elements K d nl w -> (length g = ml /\ Forall (fun p => (length p <= d)%nat /\ Forall (inr K) p) g) ->
  elements K d nl (dp_w p1) -> elements K d ml (dp_a p1) ->
  exists p2, (elements K d nl (dp_w p2) /\ elements K d ml (dp_a p2)) /\ explicit_share (pz_ops K) w g p2 = p1 /\
    forall p2', elements K d nl (dp_w p2') -> elements K d ml (dp_a p2') -> explicit_share (pz_ops K) w g p2' = p1 -> p2' = p2.
Proof.
  intros HK (Lw & Ww) (Lg & Wg) (L1 & W1) (L2 & W2).
  assert (Ww' : Forall (fun p => (length p <= d)%nat /\ Forall (inr K) p) w) by (clear - Ww; induction Ww as [|x xs [L W] _ IH]; constructor; [split; [lia|exact W]|exact IH]).
  destruct (pad_unique (p_sub (zk_ops K)) _ _ (poly_pad K HK d) w (dp_w p1) Ww' W1 ltac:(lia)) as (q1 & (Lq1 & Wq1) & E1 & U1).
  destruct (pad_unique (p_sub (zk_ops K)) _ _ (poly_pad K HK d) g (dp_a p1) Wg W2 ltac:(lia)) as (q2 & (Lq2 & Wq2) & E2 & U2).
  exists (DProof q1 q2). split; [split; (split; [cbn; lia|assumption])|]. split; [destruct p1 as [x y]; cbn [dp_w dp_a] in *; unfold explicit_share; cbn [dp_w dp_a]; f_equal; assumption|].
  intros [a b] (La & Wa) (Lb & Wb) E. cbn in La, Wa, Lb, Wb. unfold explicit_share in E. cbn [dp_w dp_a] in E. destruct p1 as [x y]. injection E as Ea Eb. f_equal; [apply U1|apply U2]; auto; lia.
Qed.

Lemma elements_add_ok K d n ps qs : 0 < K -> elements K d n ps -> elements K d n qs -> elements K d n (elements_add K ps qs).
Proof.
  intros HK (L1 & W1) (L2 & W2). unfold elements_add. split; [rewrite map2_length; lia|]. apply (map2_Forall _ (element K d) (element K d)); [|exact W1|exact W2].
  intros p q (Lp & Wp) (Lq & Wq). split; [rewrite map2_length; lia|]. apply (map2_Forall _ (inr K) (inr K) (inr K)); [|exact Wp|exact Wq]. intros a b _ _. unfold inr, radd. apply Z.mod_pos_bound, Z.pow_pos_nonneg; lia.
Qed.
