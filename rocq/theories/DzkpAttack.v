(** If the combination coefficients are known when the gates are computed, errors can be made to cancel. *)
From Coq Require Import Ring Setoid Morphisms.
From Verif Require Import Base Ring Gf2 Gf2Proofs Gf2Field Poly PolyProofs GfRing Swift3 Dzkp DzkpProofs DzkpCircuits DzkpSpec DzkpAnd IrisProofs.
Local Open Scope list_scope.

(** ** d + 1 vectors of d bits are linearly dependent *)
Fixpoint sel (es : list bool) (vs : list N) : N :=
  match es, vs with e :: es, v :: vs => N.lxor (if e then v else 0%N) (sel es vs) | _, _ => 0%N end.
Lemma sel_app es vs es' vs' : length es = length vs -> sel (es ++ es') (vs ++ vs') = N.lxor (sel es vs) (sel es' vs').
Proof. revert vs. induction es as [|e es IH]; intros [|v vs] L; try discriminate; cbn [app sel]; [reflexivity|]. rewrite IH by (injection L; auto). rewrite N.lxor_assoc. reflexivity. Qed.
Lemma sel_false k vs : sel (repeat false k) vs = 0%N.
Proof. revert vs. induction k as [|k IH]; intros [|v vs]; cbn [repeat sel]; auto. rewrite IH. reflexivity. Qed.
Definition top (d : nat) (v : N) : bool := N.testbit v (N.of_nat d).
Fixpoint parity (d : nat) (es : list bool) (vs : list N) : bool :=
  match es, vs with e :: es, v :: vs => xorb (e && top d v) (parity d es vs) | _, _ => false end.
Lemma sel_reduce d p es vs : length es = length vs ->
  sel es (map (fun v => if top d v then N.lxor v p else v) vs) = N.lxor (sel es vs) (if parity d es vs then p else 0%N).
Proof.
  revert vs. induction es as [|e es IH]; intros [|v vs] L; try discriminate; cbn [map sel parity]; [reflexivity|]. rewrite IH by (injection L; auto).
  destruct e, (top d v), (parity d es vs); cbn [andb xorb]; rewrite ?N.lxor_0_l, ?N.lxor_0_r; apply N.bits_inj; intros k; rewrite ?N.lxor_spec;
    repeat match goal with |- context [N.testbit ?x k] => destruct (N.testbit x k) end; reflexivity.
Qed.
Lemma below_top d v : (v < 2 ^ N.of_nat (S d))%N -> top d v = false -> (v < 2 ^ N.of_nat d)%N.
Proof.
  intros H T. apply lt_pow_bits. intros k Hk. destruct (N.eq_dec k (N.of_nat d)) as [->|Hne]; [exact T|].
  assert (H' := proj1 (lt_pow_bits v (N.of_nat (S d))) H k). apply H'. lia.
Qed.
Lemma dependent d : forall vs, length vs = S d -> Forall (fun v => (v < 2 ^ N.of_nat d)%N) vs ->
  exists es, length es = length vs /\ In true es /\ sel es vs = 0%N.
Proof.
  induction d as [|d IH]; intros vs L W.
  - destruct vs as [|v [|? ?]]; try discriminate. exists [true]. split; [reflexivity|]. split; [left; reflexivity|]. inversion_clear W. cbn in *. assert (v = 0%N) by lia. subst v. reflexivity.
  - destruct (existsb (top d) vs) eqn:E.
    + apply existsb_exists in E. destruct E as (p & Hp & Tp). destruct (in_split p vs Hp) as (l1 & l2 & ->).
      assert (L2 : length (l1 ++ l2) = S d) by (rewrite app_length in L |- *; cbn in L; lia).
      assert (Wp : (p < 2 ^ N.of_nat (S d))%N) by (rewrite Forall_forall in W; apply W, in_or_app; right; left; reflexivity).
      destruct (IH (map (fun v => if top d v then N.lxor v p else v) (l1 ++ l2))) as (es & Le & Ht & Hs).
      * rewrite map_length. exact L2.
      * apply Forall_forall. intros v Hv. apply in_map_iff in Hv. destruct Hv as (u & <- & Hu).
        assert (Wu : (u < 2 ^ N.of_nat (S d))%N) by (rewrite Forall_forall in W; apply W; apply in_app_or in Hu; apply in_or_app; destruct Hu; [left|right; right]; assumption).
        destruct (top d u) eqn:Tu; [|apply below_top; assumption]. apply below_top; [apply lxor_lt; assumption|]. unfold top in *. rewrite N.lxor_spec, Tu, Tp. reflexivity.
      * rewrite map_length in Le. rewrite sel_reduce in Hs by exact Le.
        set (b := parity d es (l1 ++ l2)) in *.
        exists (firstn (length l1) es ++ b :: skipn (length l1) es).
        assert (Lf : length (firstn (length l1) es) = length l1) by (rewrite firstn_length, Le, app_length; lia).
        split; [rewrite !app_length; cbn [length]; rewrite Lf, skipn_length, Le, app_length; lia|]. split.
        -- rewrite <- (firstn_skipn (length l1) es) in Ht. apply in_app_or in Ht. apply in_or_app. destruct Ht; [left|right; right]; assumption.
        -- rewrite sel_app by exact Lf. cbn [sel]. rewrite <- (firstn_skipn (length l1) es) in Hs. rewrite sel_app in Hs by exact Lf. etransitivity; [|exact Hs].
           generalize (sel (firstn (length l1) es) l1) (sel (skipn (length l1) es) l2) (if b then p else 0%N). intros x y z.
           apply N.bits_inj. intros k. rewrite !N.lxor_spec. destruct (N.testbit x k), (N.testbit y k), (N.testbit z k); reflexivity.
    + destruct vs as [|v vs]; [discriminate|]. cbn in L. injection L as L. cbn in E. apply orb_false_elim in E. destruct E as [_ E].
      inversion_clear W as [|? ? _ W']. destruct (IH vs L) as (es & Le & Ht & Hs).
      * apply Forall_forall. intros u Hu. rewrite Forall_forall in W'. apply below_top; [apply W', Hu|].
        destruct (top d u) eqn:T; [|reflexivity]. assert (existsb (top d) vs = true) by (apply existsb_exists; exists u; auto). congruence.
      * exists (false :: es). cbn [length sel]. split; [lia|]. split; [right; exact Ht|]. rewrite Hs. reflexivity.
Qed.
Lemma dependent64 vs : (65 <= length vs)%nat -> Forall u64 vs -> exists es, length es = length vs /\ In true es /\ sel es vs = 0%N.
Proof.
  intros L W. rewrite <- (firstn_skipn 65 vs) in W. apply Forall_app in W. destruct W as [W _].
  destruct (dependent 64 (firstn 65 vs)) as (es & Le & Ht & Hs); [rewrite firstn_length; lia|exact W|].
  exists (es ++ repeat false (length vs - 65)). rewrite firstn_length in Le. split; [rewrite app_length, repeat_length; lia|]. split; [apply in_or_app; left; exact Ht|].
  set (k := (length vs - 65)%nat). rewrite <- (firstn_skipn 65 vs). rewrite sel_app by (rewrite firstn_length; lia). rewrite Hs, sel_false. reflexivity.
Qed.

(** ** The error pattern: the gates of column 0 *)
Definition pattern (l m : nat) (es : list bool) : list bool :=
  map (fun q => if Nat.eqb (q mod m) 0 then nth (q / m) es false else false) (seq 0 (l * m)).
Lemma pattern_nth l m es j k : (j < l)%nat -> (k < m)%nat -> nth (j * m + k) (pattern l m es) false = if Nat.eqb k 0 then nth j es false else false.
Proof.
  intros Hj Hk. unfold pattern. assert (Hq : (j * m + k < l * m)%nat) by (assert (j * m + m <= l * m)%nat by nia; lia).
  set (h := fun q => if Nat.eqb (q mod m) 0 then nth (q / m) es false else false).
  rewrite (nth_indep _ false (h 0%nat)) by (rewrite map_length, seq_length; exact Hq). rewrite map_nth, seq_nth by exact Hq. cbn [Nat.add]. unfold h.
  rewrite (Nat.add_comm (j * m)), Nat.mod_add, Nat.mod_small by lia. rewrite Nat.div_add, Nat.div_small by lia. reflexivity.
Qed.
Lemma gf_mul_1 t : gf_wf t -> gf_mul 1 t = t.
Proof. intros W. apply gf_eq_eq; [apply gf_mul_wf|exact W|]. rewrite gf_mul_cong, clmul_1_l. reflexivity. Qed.
Lemma gf_mul_0 t : gf_mul 0 t = 0%N.
Proof. apply gf_eq_eq; [apply gf_mul_wf|reflexivity|]. rewrite gf_mul_cong, clmul_0_l. reflexivity. Qed.
Lemma gsem_sel thetas rs es : Forall gf_wf thetas -> Forall2 (fun r e => c_mul N gf_ops r = gf_lift e) rs es -> gsem gf_ops c_mul thetas rs = sel es thetas.
Proof.
  intros W H. revert thetas W. induction H as [|r e rs es Hr _ IH]; intros [|t ts] W; try reflexivity. cbn [gsem sel]. inversion_clear W.
  rewrite IH by assumption. rewrite Hr. cbn [oadd omul gf_ops]. unfold gf_add. destruct e; cbn [gf_lift]; [rewrite gf_mul_1 by assumption|rewrite gf_mul_0]; reflexivity.
Qed.
Lemma flip_err e g : and_correct g -> and_err (flip_output e g) = e.
Proof. intros H. apply and_err_correct in H. unfold and_err in *. cbn. destruct (p_s g), e; cbn in *; rewrite ?H; try reflexivity; destruct (xorb _ (p_r g)); try discriminate; reflexivity. Qed.

Theorem known_thetas l m thetas : (N.of_nat m < 2 ^ 64)%N -> (65 <= l)%nat -> (1 <= m)%nat -> u64s l thetas ->
  exists es, length es = (l * m)%nat /\ In true es /\
  forall gates gates1 gates2 w, length gates = (l * m)%nat -> gates_joined gates gates1 gates2 -> Forall and_correct gates -> u64s (6 * l) w ->
    (forall k, nth k es false = true -> ~ and_correct (nth k (flip_outputs es gates) pin_false)) /\
    exists g, and_prover l m (flip_outputs es gates) thetas w = Ok g /\
      forall betas r p2, u64s m betas -> u64 r -> and_proof_share l m p2 ->
        and_check l m (flip_outputs es gates1) gates2 thetas betas r (explicit_share gf_ops w g p2) p2 = Ok tt.
Proof.
  intros Hm Hl Hm1 Ht. pose proof Ht as [Lt Wt].
  destruct (dependent64 thetas) as (ds & Ld & Hd & Hs); [lia|exact Wt|]. rewrite Lt in Ld.
  exists (pattern l m ds). assert (Lp : length (pattern l m ds) = (l * m)%nat) by (unfold pattern; rewrite map_length, seq_length; reflexivity).
  split; [exact Lp|]. split.
  { destruct (In_nth ds true false Hd) as (j & Hj & Ej). rewrite <- Ej. replace (nth j ds false) with (nth (j * m + 0) (pattern l m ds) false) by (rewrite pattern_nth by lia; reflexivity).
    apply nth_In. rewrite Lp. assert (j * m + m <= l * m)%nat by nia. lia. }
  intros gates gates1 gates2 w Lg HJ HC Hw.
  assert (NF : forall gs k, length gs = (l * m)%nat -> (k < l * m)%nat -> nth k (flip_outputs (pattern l m ds) gs) pin_false = flip_output (nth k (pattern l m ds) false) (nth k gs pin_false)).
  { intros gs k Lgs Hk. unfold flip_outputs. rewrite (map2_nth flip_output (pattern l m ds) gs k false pin_false pin_false) by (try reflexivity; lia). reflexivity. }
  assert (LF : forall gs, length gs = (l * m)%nat -> length (flip_outputs (pattern l m ds) gs) = (l * m)%nat) by (intros gs Lgs; unfold flip_outputs; rewrite map2_length by lia; lia).
  assert (CF : forall k, (k < l * m)%nat -> and_err (nth k (flip_outputs (pattern l m ds) gates) pin_false) = nth k (pattern l m ds) false).
  { intros k Hk. rewrite NF by (try exact Lg; lia). apply flip_err. rewrite Forall_forall in HC. apply HC, nth_In. lia. }
  split.
  - intros k Hk Hc. apply and_err_correct in Hc. destruct (Nat.lt_ge_cases k (l * m)) as [Hlt|Hge]; [rewrite CF in Hc by exact Hlt; congruence|]. rewrite nth_overflow in Hk by lia. discriminate.
  - destruct HJ as (L1 & L2 & E). apply and_complete_all; auto.
    + split; [rewrite !LF by lia; reflexivity|]. split; [rewrite LF by lia; lia|]. intros k. destruct (Nat.lt_ge_cases k (l * m)) as [Hlt|Hge].
      * rewrite !NF by lia. rewrite E. unfold flip_output, and_join. cbn. f_equal. destruct (p_s _), (nth k (pattern l m ds) false), (p_s _); reflexivity.
      * rewrite !nth_overflow by (rewrite ?LF; lia). reflexivity.
    + intros k Hk. rewrite (gsem_sel thetas _ (map (fun j => nth (j * m + k) (pattern l m ds) false) (seq 0 l))); [|exact Wt|].
      * destruct (Nat.eqb_spec k 0) as [->|Hne].
        -- replace (map (fun j => nth (j * m + 0) (pattern l m ds) false) (seq 0 l)) with ds; [rewrite Hs; reflexivity|].
           apply nth_ext with (d := false) (d' := nth (0 * m + 0) (pattern l m ds) false); [rewrite map_length, seq_length; lia|]. intros j Hj.
           rewrite (map_nth (fun j => nth (j * m + 0) (pattern l m ds) false)), seq_nth by lia. cbn [Nat.add]. rewrite pattern_nth by lia. reflexivity.
        -- replace (map (fun j => nth (j * m + k) (pattern l m ds) false) (seq 0 l)) with (repeat false l); [rewrite sel_false; reflexivity|].
           apply nth_ext with (d := false) (d' := nth (0 * m + k) (pattern l m ds) false); [rewrite repeat_length, map_length, seq_length; lia|]. rewrite repeat_length. intros j Hj.
           rewrite (map_nth (fun j => nth (j * m + k) (pattern l m ds) false)), seq_nth by lia. cbn [Nat.add]. rewrite pattern_nth by lia.
           destruct (Nat.eqb_spec k 0) as [|_]; [contradiction|]. rewrite nth_repeat. reflexivity.
      * unfold column. assert (HI : forall j, In j (seq 0 l) -> (j < l)%nat) by (intros j Hj; apply in_seq in Hj; lia). revert HI. generalize (seq 0 l) as js.
        induction js as [|j js IH]; intros HI; cbn [map]; constructor; [|apply IH; intros; apply HI; right; assumption].
        assert (Hj : (j < l)%nat) by (apply HI; left; reflexivity). assert (Hq : (j * m + k < l * m)%nat) by (assert (j * m + m <= l * m)%nat by nia; lia).
        rewrite (nth_indep _ [] (and_inputs pin_false)) by (rewrite map_length, LF by lia; exact Hq). rewrite map_nth, and_err_c, CF by exact Hq. reflexivity.
Qed.
