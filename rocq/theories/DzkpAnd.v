(** The proofs of AND gates: completeness and soundness over GF(2^64). *)
From Coq Require Import Ring Setoid Morphisms.
From Verif Require Import Base Ring Gf2 Gf2Proofs Gf2Field Gf2Certs Poly PolyProofs GfRing Swift3 Dzkp DzkpProofs DzkpCircuits DzkpSound DzkpSpec IrisProofs.
Local Open Scope list_scope.

Notation GF := gf_ring_ok.
Lemma and_points_wf m : (N.of_nat m < 2 ^ 64)%N -> Forall gf_wf (and_points (m + 1)).
Proof. intros Hm. unfold and_points. apply Forall_forall. intros x Hx. apply in_map_iff in Hx. destruct Hx as (i & <- & Hi). apply in_seq in Hi. unfold gf_wf. lia. Qed.
Lemma and_points_nth m i : (i < m + 1)%nat -> nth i (and_points (m + 1)) 0%N = N.of_nat i.
Proof. intros Hi. unfold and_points. rewrite (nth_indep _ 0%N (N.of_nat 0)) by (rewrite map_length, seq_length; lia). rewrite map_nth, seq_nth by lia. reflexivity. Qed.
Lemma and_points_len m : length (and_points (m + 1)) = (m + 1)%nat.
Proof. unfold and_points. rewrite map_length, seq_length. reflexivity. Qed.
Lemma and_points_sep m : (N.of_nat m < 2 ^ 64)%N -> separated gf_ops gf_eq gf_wf gf_inverse (and_points (m + 1)).
Proof.
  intros Hm i j Hi Hj Hne. rewrite and_points_len in *. cbn [o0 osub gf_ops]. rewrite !and_points_nth by lia. unfold gf_add.
  destruct (gf_inverse_ok (N.lxor (N.of_nat j) (N.of_nat i))) as (b & E & Wb & Hb).
  - apply lxor_lt; lia.
  - intros E. apply N.lxor_eq in E. lia.
  - exists b. split; [exact E|]. split; [|exact Wb]. change (gf_eq (gf_mul (N.lxor (N.of_nat j) (N.of_nat i)) b) 1%N). rewrite Hb. reflexivity.
Qed.
Lemma ok_red a : gf_wf a -> exists b, @Ok N a = Ok b /\ gf_eq a b /\ gf_wf b.
Proof. intros Ha. exists a. split; [reflexivity|]. split; [reflexivity|exact Ha]. Qed.
Lemma and_lagrange m : (N.of_nat m < 2 ^ 64)%N -> exists lag, gf_lagrange (and_points (m + 1)) = Ok lag /\ lagrange_ok gf_ops gf_eq gf_wf (and_points (m + 1)) lag.
Proof. intros Hm. apply (lagrange_polys_ok gf_ops gf_eq gf_wf GF gf_inverse (and_points (m + 1)) (and_points_sep m Hm) (and_points_wf m Hm) (@Ok N) ok_red). Qed.
Definition and_cf : cf_ok gf_ops gf_eq gf_wf c_mul := c_mul_ok gf_ops gf_eq gf_wf GF.

(** ** Gates *)
Lemma lift_wf b : gf_wf (gf_lift b). Proof. destruct b; reflexivity. Qed.
Lemma inputs_wf gs : wfi gf_wf (map and_inputs gs).
Proof. unfold wfi. induction gs; cbn [map]; constructor; [|assumption]. unfold and_inputs. cbn [map]. repeat constructor; apply lift_wf. Qed.
Lemma inputs_shape l m gs : length gs = (l * m)%nat -> shape 6 l m (map and_inputs gs).
Proof. intros L. split; [rewrite map_length; lia|]. apply Forall_forall. intros v Hv. apply in_map_iff in Hv. destruct Hv as (g & <- & _). reflexivity. Qed.
Definition and_err (g : pinput bool) : bool := xorb (p_s g) (xorb (xorb (xorb (p_a0 g && p_b0 g) (p_a0 g && p_b1 g)) (p_a1 g && p_b0 g)) (p_r g)).
Lemma and_err_correct g : and_err g = false <-> and_correct g.
Proof. unfold and_err, and_correct. split; [apply xorb_eq|intros E; rewrite E; apply xorb_nilpotent]. Qed.
Lemma and_err_c g : c_mul N gf_ops (and_inputs g) = gf_lift (and_err g).
Proof. destruct g as [[] [] [] [] [] []]; reflexivity. Qed.
Lemma lift_xor a b : N.lxor (gf_lift a) (gf_lift b) = gf_lift (xorb a b). Proof. destruct a, b; reflexivity. Qed.
Lemma inputs_join g h : and_inputs (and_join g h) = map2 (oadd gf_ops) (and_inputs g) (and_inputs h).
Proof. unfold and_inputs, and_join. cbn [map map2 p_a0 p_a1 p_b0 p_b1 p_r p_s]. cbn [oadd gf_ops]. unfold gf_add. rewrite !lift_xor. reflexivity. Qed.
Lemma joined_map gates gates1 gates2 : gates_joined gates gates1 gates2 -> gates = map2 and_join gates1 gates2.
Proof.
  intros (L1 & L2 & E). apply nth_ext with (d := pin_false) (d' := pin_false); [rewrite map2_length by lia; lia|].
  intros k Hk. rewrite E. rewrite (map2_nth and_join gates1 gates2 k pin_false pin_false pin_false) by (try reflexivity; lia). reflexivity.
Qed.
Lemma inputs_joined gates1 gates2 : add_inputs gf_ops (map and_inputs gates1) (map and_inputs gates2) = map and_inputs (map2 and_join gates1 gates2).
Proof. unfold add_inputs. revert gates2. induction gates1 as [|g gs IH]; intros [|h hs]; cbn [map map2]; try reflexivity. rewrite IH, inputs_join. reflexivity. Qed.
Lemma gates_joined_ok l m gates gates1 gates2 : length gates = (l * m)%nat -> gates_joined gates gates1 gates2 ->
  gates_ok gf_ops gf_eq gf_wf 6 l m (map and_inputs gates) (map and_inputs gates1) (map and_inputs gates2).
Proof.
  intros L HJ. pose proof (joined_map _ _ _ HJ) as E. destruct HJ as (L1 & L2 & _).
  repeat (split; [first [apply inputs_shape; lia | apply inputs_wf]|]). rewrite inputs_joined, <- E.
  clear. induction (map and_inputs gates) as [|v V IH]; constructor; [|exact IH]. clear. induction v; constructor; [reflexivity|assumption].
Qed.

(** ** Completeness *)
Lemma gf_zero u v u' v' : gf_wf u -> gf_wf v -> @Ok N u = Ok u' -> @Ok N v = Ok v' -> gf_eq (oadd gf_ops u v) (o0 gf_ops) -> oz gf_ops (oadd gf_ops u' v') = true.
Proof. intros Hu Hv E1 E2 H. injection E1 as <-. injection E2 as <-. apply N.eqb_eq. apply gf_eq_eq; [apply lxor_lt; assumption|reflexivity|exact H]. Qed.
Theorem and_complete l m gates gates1 gates2 thetas betas r w p2 :
  (N.of_nat m < 2 ^ 64)%N -> length gates = (l * m)%nat -> gates_joined gates gates1 gates2 ->
  (forall k, (k < m)%nat -> gf_eq (gsem gf_ops c_mul thetas (column l m (map and_inputs gates) k)) 0%N) ->
  u64s l thetas -> u64s m betas -> u64 r -> u64s (6 * l) w -> and_proof_share l m p2 ->
  exists g, and_prover l m gates thetas w = Ok g /\ and_check l m gates1 gates2 thetas betas r (explicit_share gf_ops w g p2) p2 = Ok tt.
Proof.
  intros Hm Lg HJ HC (Lt & Wt) (Lb & Wb) Wr (Lw & Ww) ((Lw2 & Ww2) & (La2 & Wa2)).
  destruct (and_lagrange m Hm) as (lag & El & Hl).
  destruct (dzkp_complete gf_ops gf_eq gf_wf GF (@Ok N) ok_red 6 ltac:(lia) c_mul and_cf (and_points (m + 1)) lag (and_points_wf m Hm) Hl l m (and_points_len m) N.eqb gf_zero
    _ _ _ thetas betas r w p2 (gates_joined_ok l m _ _ _ Lg HJ) HC Lt Wt Lb Wb Wr Lw Ww Lw2 Ww2 La2 Wa2)
    as (g & s1 & s2 & Eg & _ & E1 & E2 & pr & u & u1 & u2 & Wu & Wu1 & Wu2 & Ru & R1 & R2 & Eq & EC).
  exists g. split; [unfold and_prover; rewrite El; exact Eg|]. unfold and_check, and_verify_pi, and_combine. rewrite El. cbn [rbind]. rewrite E1. cbn [rbind]. rewrite E2. cbn [rbind]. rewrite EC.
  replace (N.eqb pr (oadd gf_ops (ds_pr s1) (ds_pr s2))) with true; [reflexivity|]. symmetry. apply N.eqb_eq.
  injection Ru as <-. injection R1 as <-. injection R2 as <-. apply gf_eq_eq; [exact Wu|apply lxor_lt; assumption|exact Eq].
Qed.
Theorem and_complete_all l m gates gates1 gates2 thetas w :
  (N.of_nat m < 2 ^ 64)%N -> length gates = (l * m)%nat -> gates_joined gates gates1 gates2 ->
  (forall k, (k < m)%nat -> gf_eq (gsem gf_ops c_mul thetas (column l m (map and_inputs gates) k)) 0%N) ->
  u64s l thetas -> u64s (6 * l) w ->
  exists g, and_prover l m gates thetas w = Ok g /\ forall betas r p2, u64s m betas -> u64 r -> and_proof_share l m p2 ->
    and_check l m gates1 gates2 thetas betas r (explicit_share gf_ops w g p2) p2 = Ok tt.
Proof.
  intros Hm Lg HJ HC Ht Hw.
  assert (Z : forall k, Forall u64 (repeat 0%N k)) by (intros k; apply Forall_forall; intros x Hx; apply repeat_spec in Hx; subst x; reflexivity).
  destruct (and_complete l m gates gates1 gates2 thetas (repeat 0%N m) 0%N w (DProof (repeat 0%N (6 * l)) (repeat 0%N (2 * m + 1))) Hm Lg HJ HC Ht) as (g & Eg & _).
  - split; [apply repeat_length|apply Z].
  - reflexivity.
  - exact Hw.
  - split; (split; [apply repeat_length|apply Z]).
  - exists g. split; [exact Eg|]. intros betas r p2 Hb Hr Hp. destruct (and_complete l m gates gates1 gates2 thetas betas r w p2 Hm Lg HJ HC Ht Hb Hr Hw Hp) as (g' & Eg' & E).
    rewrite Eg in Eg'. injection Eg' as <-. exact E.
Qed.
Theorem and_complete_correct l m gates gates1 gates2 thetas w :
  (N.of_nat m < 2 ^ 64)%N -> length gates = (l * m)%nat -> gates_joined gates gates1 gates2 -> Forall and_correct gates ->
  u64s l thetas -> u64s (6 * l) w ->
  exists g, and_prover l m gates thetas w = Ok g /\ forall betas r p2, u64s m betas -> u64 r -> and_proof_share l m p2 ->
    and_check l m gates1 gates2 thetas betas r (explicit_share gf_ops w g p2) p2 = Ok tt.
Proof.
  intros Hm Lg HJ HC. apply and_complete_all; auto. apply (columns_ok gf_ops gf_eq gf_wf GF 6 ltac:(lia) c_mul (and_points (m + 1)) l m (and_points_len m) thetas _ (inputs_shape l m _ Lg)).
  apply Forall_forall. intros v Hv. apply in_map_iff in Hv. destruct Hv as (g & <- & Hg). rewrite Forall_forall in HC.
  rewrite and_err_c, (proj2 (and_err_correct g) (HC g Hg)). reflexivity.
Qed.

(** ** Soundness *)
Lemma gf_unit a : gf_wf a -> a <> 0%N -> unit gf_ops gf_eq a.
Proof. intros Wa Ha. destruct (gf_inverse_ok a Wa Ha) as (b & _ & _ & Hb). exists b. change (gf_eq (gf_mul a b) 1%N). rewrite Hb. reflexivity. Qed.
Lemma gf_not_unit a b : gf_wf a -> gf_wf b -> ~ unit gf_ops gf_eq (osub gf_ops b a) -> a = b.
Proof.
  intros Wa Wb H. destruct (N.eq_dec a b) as [E|E]; [exact E|exfalso]. apply H. apply gf_unit; [apply lxor_lt; assumption|]. cbn. unfold gf_add. intros E'. apply N.lxor_eq in E'. congruence.
Qed.
Lemma nodup_spread rs : Forall gf_wf rs -> NoDup rs -> spread gf_ops gf_eq rs.
Proof.
  intros W. induction 1 as [|r rs Hr _ IH]; cbn; [exact I|]. inversion_clear W as [|? ? W1 W2]. split; [|apply IH; assumption].
  rewrite Forall_forall in *. intros r' Hr'. apply gf_unit; [apply (rk_wfsub _ _ _ GF); auto|]. cbn. unfold gf_add. intros E. apply N.lxor_eq in E. congruence.
Qed.
Lemma gf_dec a : gf_wf a -> gf_eq a 0%N \/ ~ gf_eq a 0%N.
Proof. intros Wa. destruct (N.eq_dec a 0) as [->|E]; [left; reflexivity|right]. intros H. apply E. apply gf_eq_eq; [exact Wa|reflexivity|exact H]. Qed.
Lemma gsem_wf thetas rs : Forall gf_wf thetas -> Forall (Forall gf_wf) rs -> gf_wf (gsem gf_ops c_mul thetas rs).
Proof.
  intros Wt Wr. revert thetas Wt. induction Wr as [|r rs Hr _ IH]; intros [|t ts] Wt; try reflexivity. cbn [gsem]. inversion_clear Wt.
  apply (rk_wfadd _ _ _ GF); [|apply IH; assumption]. apply gf_mul_wf.
Qed.
Lemma column_wf l m gs k : Forall (Forall gf_wf) (column l m (map and_inputs gs) k).
Proof.
  unfold column. apply Forall_forall. intros v Hv. apply in_map_iff in Hv. destruct Hv as (j & <- & _).
  destruct (nth_in_or_default (j * m + k) (map and_inputs gs) []) as [H|H]; [|rewrite H; constructor]. pose proof (inputs_wf gs) as W. unfold wfi in W. rewrite Forall_forall in W. apply W, H.
Qed.
Lemma column_nth {A} l m (V : list (list A)) j k : (j < l)%nat -> nth j (column l m V k) [] = nth (j * m + k) V [].
Proof.
  intros Hj. unfold column. rewrite (nth_indep _ [] (nth (0 * m + k) V [])) by (rewrite map_length, seq_length; lia).
  rewrite (map_nth (fun j => nth (j * m + k) V [])), seq_nth by lia. reflexivity.
Qed.
Theorem and_sound l m gates gates1 gates2 thetas j k :
  (N.of_nat m < 2 ^ 64)%N -> length gates = (l * m)%nat -> gates_joined gates gates1 gates2 -> u64s l thetas ->
  (j < l)%nat -> (k < m)%nat -> ~ and_correct (nth (j * m + k) gates pin_false) ->
  exists bad, forall theta, u64 theta -> theta <> bad ->
  forall p1 p2, and_proof_share l m p1 -> and_proof_share l m p2 ->
  let accepted betas r := u64s m betas /\ u64 r /\ and_check l m gates1 gates2 (replaced j theta thetas) betas r p1 p2 = Ok tt in
  (forall rs, NoDup rs -> (forall r, In r rs -> exists betas, accepted betas r) -> (length rs <= 2 * m)%nat) \/
  (forall betas b b' r r', length betas = m -> accepted (replaced k b betas) r -> accepted (replaced k b' betas) r' -> b = b').
Proof.
  intros Hm Lg HJ (Lt & Wt) Hj Hk Hbad.
  set (V := map and_inputs gates). set (val := fun t => gsem gf_ops c_mul (replaced j t thetas) (column l m V k)).
  assert (Hin : (j * m + k < length gates)%nat) by (rewrite Lg; assert (j * m + m <= l * m)%nat by nia; lia).
  assert (Herr : ~ gf_eq (c_mul N gf_ops (nth (j * m + k) V [])) 0%N).
  { unfold V. rewrite (nth_indep _ [] (and_inputs pin_false)) by (rewrite map_length; exact Hin). rewrite map_nth, and_err_c.
    destruct (and_err (nth (j * m + k) gates pin_false)) eqn:E; [|exfalso; apply Hbad, and_err_correct, E]. cbn. intros H.
    assert (1%N = 0%N) by (apply gf_eq_eq; [reflexivity|reflexivity|exact H]). discriminate. }
  assert (Wrep : forall t, u64 t -> Forall gf_wf (replaced j t thetas)).
  { intros t Ht. unfold replaced. apply Forall_app. split; [|constructor; [exact Ht|]]; apply Forall_forall; intros x Hx; rewrite Forall_forall in Wt; apply Wt; rewrite <- (firstn_skipn j thetas) || idtac.
    - apply in_or_app. left. exact Hx.
    - rewrite (firstn_skipn j thetas). rewrite <- (firstn_skipn (S j) thetas). apply in_or_app. right. exact Hx. }
  assert (Lrep : forall t, length (replaced j t thetas) = l).
  { intros t. unfold replaced. rewrite app_length. cbn [length]. rewrite firstn_length, skipn_length. lia. }
  assert (Hex : exists bad, forall t, u64 t -> t <> bad -> ~ gf_eq (val t) 0%N).
  { (* val is affine in t with invertible slope *)
    set (e := c_mul N gf_ops (nth (j * m + k) V [])). set (c0 := val 0%N).
    assert (We : gf_wf e) by (apply (cf_wf _ _ _ _ and_cf); pose proof (inputs_wf gates) as W; unfold wfi in W; rewrite Forall_forall in W; apply W, nth_In; unfold V; rewrite map_length; exact Hin).
    destruct (gf_inverse_ok e We) as (v & _ & Wv & Hv); [intros E; apply Herr; fold e; rewrite E; reflexivity|].
    exists (gf_mul v c0). intros t Ht Hne H. apply Hne. apply gf_eq_eq; [exact Ht|apply gf_mul_wf|].
    assert (Hval : gf_eq (N.lxor (gf_mul t e) c0) 0%N).
    { etransitivity; [|exact H]. symmetry. unfold c0, val, replaced.
      unfold e. rewrite <- (column_nth l m V j k Hj).
      apply (gsem_upd gf_ops gf_eq gf_wf GF c_mul thetas (column l m V k) j t); unfold column; rewrite map_length, seq_length; lia. }
    assert (Et : gf_mul t e = c0).
    { apply N.lxor_eq. apply gf_eq_eq; [apply lxor_lt; [apply gf_mul_wf|]|reflexivity|exact Hval]. unfold c0, val. apply gsem_wf; [apply Wrep; reflexivity|apply column_wf]. }
    rewrite <- Et, !gf_mul_cong. assert (Hv' : gf_eq (clmul e v) 1%N) by (rewrite <- gf_mul_cong, Hv; reflexivity).
    rewrite <- (clmul_1_r t) at 1. rewrite <- Hv'. rewrite (clmul_comm v (clmul t e)), <- clmul_assoc. reflexivity. }
  destruct Hex as (bad & Hex). exists bad. intros theta Ht Hne p1 p2 ((Lw1 & Ww1) & (La1 & Wa1)) ((Lw2 & Ww2) & (La2 & Wa2)) accepted.
  destruct (and_lagrange m Hm) as (lag & El & Hl). pose proof (joined_map _ _ _ HJ) as EJ. destruct HJ as (L1 & L2 & _).
  destruct (check_sound gf_ops gf_eq gf_wf GF c_mul (@Ok N) ok_red 6 ltac:(lia) and_cf (and_points (m + 1)) lag (and_points_wf m Hm) Hl l m (and_points_len m) N.eqb
     (fun a b E => match proj1 (N.eqb_eq a b) E with eq_refl => cong_refl _ a end) gf_dec (map and_inputs gates1) (map and_inputs gates2) (replaced j theta thetas) p1 p2 k) as [H|H]; auto.
  - apply inputs_shape; lia.
  - apply inputs_shape; lia.
  - apply inputs_wf.
  - apply inputs_wf.
  - repeat split; assumption.
  - repeat split; assumption.
  - rewrite inputs_joined, <- EJ. apply Hex; assumption.
  - left. intros rs ND Hacc. apply H.
    + apply nodup_spread; [|exact ND]. apply Forall_forall. intros r Hr. destruct (Hacc r Hr) as (b & _ & Wr & _). exact Wr.
    + apply Forall_forall. intros r Hr. destruct (Hacc r Hr) as (b & (Lb & Wb) & Wr & E). exists b. split; [exact Lb|]. split; [exact Wb|]. split; [exact Wr|].
      unfold and_check in E. rewrite El in E. exact E.
  - right. intros betas b b' r r' Lb ((Lb1 & Wb1) & Wr & E) ((Lb2 & Wb2) & Wr' & E'). unfold and_check in E, E'. rewrite El in E, E'.
    assert (Wx : forall x y, Forall u64 (replaced k x y) -> u64 x) by (intros x y W; unfold replaced in W; apply Forall_app in W; destruct W as [_ W]; inversion_clear W; assumption).
    apply gf_not_unit; [eapply Wx, Wb1|eapply Wx, Wb2|]. apply (H betas b b' r r' Lb).
    + split; [exact Lb1|]. split; [exact Wb1|]. split; [exact Wr|exact E].
    + split; [exact Lb2|]. split; [exact Wb2|]. split; [exact Wr'|exact E'].
Qed.
