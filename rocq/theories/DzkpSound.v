(** Soundness of the distributed proofs over any ring: how many challenges a wrong statement survives. *)
From Coq Require Import Ring Setoid Morphisms.
From Verif Require Import Base Ring Poly PolyProofs Dzkp DzkpProofs IrisProofs.
Local Open Scope list_scope.

Lemma Forall_tl {A} (P : A -> Prop) l : Forall P l -> Forall P (tl l).
Proof. intros [|]; [constructor|assumption]. Qed.
Lemma tl_length {A} (l : list A) k : length l = (k + 1)%nat -> length (tl l) = k.
Proof. destruct l; cbn; lia. Qed.
Lemma nth_tl {A} (l : list A) k d : (0 < length l)%nat -> nth k (tl l) d = nth (S k) l d.
Proof. destruct l; [cbn; lia|reflexivity]. Qed.
Section Sound.
  Context {A : Type} (O : rops A) (req : A -> A -> Prop) (wf : A -> Prop).
  Hypothesis HO : ring_ok O req wf.
  Local Instance req_equiv3 : Equivalence req := rk_equiv _ _ _ HO.
  Local Instance add_proper3 : Proper (req ==> req ==> req) (oadd O) := Radd_ext (rk_ext _ _ _ HO).
  Local Instance mul_proper3 : Proper (req ==> req ==> req) (omul O) := Rmul_ext (rk_ext _ _ _ HO).
  Local Instance neg_proper3 : Proper (req ==> req) (oneg O) := Ropp_ext (rk_ext _ _ _ HO).
  Local Instance sub_proper3 : Proper (req ==> req ==> req) (osub O) := sub_proper O req wf HO.
  Add Ring base_ring3 : (rk_ring _ _ _ HO) (setoid (rk_equiv _ _ _ HO) (rk_ext _ _ _ HO)).
  Infix "==" := req (at level 70).
  Notation "0" := (o0 O). Notation "1" := (o1 O).
  Infix "+" := (oadd O). Infix "*" := (omul O). Infix "-" := (osub O).
  Notation ev := (p_eval O).

  Definition unit (a : A) : Prop := exists b, a * b == 1.
  Lemma unit_cancel a b : unit a -> a * b == 0 -> b == 0.
  Proof. intros [c E] H. transitivity (a * c * b); [rewrite E; ring|]. transitivity (c * (a * b)); [ring|rewrite H; ring]. Qed.
  (** ** Roots *)
  Fixpoint sdiv (p : list A) (r : A) : list A :=
    match p with [] => [] | _ :: p' => match p' with [] => [] | _ => ev p' r :: sdiv p' r end end.
  Lemma sdiv_len p r : length (sdiv p r) = (length p - 1)%nat.
  Proof. induction p as [|c p IH]; [reflexivity|]. cbn [sdiv]. destruct p; [reflexivity|]. cbn [length] in *. rewrite IH. lia. Qed.
  Lemma sdiv_ev p r x : ev p x == (x - r) * ev (sdiv p r) x + ev p r.
  Proof.
    induction p as [|c p IH]; [cbn; ring|]. destruct p as [|c' p]; [cbn [sdiv]; rewrite !ev_cons, !ev_nil; ring|].
    change (sdiv (c :: c' :: p) r) with (ev (c' :: p) r :: sdiv (c' :: p) r). rewrite (ev_cons _ c), (ev_cons _ c), (ev_cons _ (ev (c' :: p) r)). 
    rewrite IH at 1. ring.
  Qed.
  (** Pairwise differences are units: over a field, the elements are different. *)
  Fixpoint spread (rs : list A) : Prop := match rs with [] => True | r :: rs => Forall (fun r' => unit (r' - r)) rs /\ spread rs end.
  Lemma too_many_roots p rs : spread rs -> Forall (fun r => ev p r == 0) rs -> (length p <= length rs)%nat -> forall x, ev p x == 0.
  Proof.
    revert p. induction rs as [|r rs IH]; intros p S H L x.
    - destruct p; [reflexivity|cbn in L; lia].
    - destruct S as [S1 S2]. inversion_clear H as [|? ? Hr H']. rewrite (sdiv_ev p r), Hr.
      rewrite (IH (sdiv p r) S2); [ring| |rewrite sdiv_len; cbn in L; lia].
      rewrite Forall_forall in *. intros r' Hr'. apply (unit_cancel (r' - r)); [apply S1, Hr'|].
      specialize (H' r' Hr'). rewrite (sdiv_ev p r), Hr in H'. transitivity ((r' - r) * ev (sdiv p r) r' + 0); [ring|exact H'].
  Qed.

  (** ** One coordinate of a random combination *)
  Lemma bsum_upd betas coords a k b : length betas = length coords -> (k < length coords)%nat ->
    bsum O (firstn k betas ++ b :: skipn (S k) betas) coords a == b * ev a (nth k coords 0) + bsum O (firstn k betas ++ 0 :: skipn (S k) betas) coords a.
  Proof.
    revert coords k. induction betas as [|b0 betas IH]; intros [|x coords] k L Hk; try discriminate; [cbn in Hk; lia|].
    destruct k as [|k]; cbn [firstn skipn app bsum nth]; [ring|]. change (match betas with [] => [] | _ :: l => skipn k l end) with (skipn (S k) betas).
    rewrite IH by (cbn in *; lia). ring.
  Qed.
  Variable cf : forall B : Type, rops B -> list B -> B.
  Lemma gsem_upd thetas rs j t : length thetas = length rs -> (j < length rs)%nat ->
    gsem O cf (firstn j thetas ++ t :: skipn (S j) thetas) rs == t * cf A O (nth j rs []) + gsem O cf (firstn j thetas ++ 0 :: skipn (S j) thetas) rs.
  Proof.
    revert rs j. induction thetas as [|t0 thetas IH]; intros [|r rs] j L Hj; try discriminate; [cbn in Hj; lia|].
    destruct j as [|j]; cbn [firstn skipn app gsem nth]; [ring|]. change (match thetas with [] => [] | _ :: l => skipn j l end) with (skipn (S j) thetas).
    rewrite IH by (cbn in *; lia). ring.
  Qed.
  Lemma one_value e c b b' : ~ e == 0 -> b * e + c == 0 -> b' * e + c == 0 -> ~ unit (b' - b).
  Proof.
    intros He H H' U. apply He. apply (unit_cancel (b' - b) e U). transitivity ((b' * e + c) - (b * e + c)); [ring|]. rewrite H, H'. ring.
  Qed.

  (** A wrong gate leads to a vanishing combination for at most one residue of its theta. *)
  Theorem column_sound l m V thetas t t' j k : length thetas = l -> (j < l)%nat -> ~ cf A O (nth (j * m + k) V []) == 0 ->
    gsem O cf (firstn j thetas ++ t :: skipn (S j) thetas) (column l m V k) == 0 ->
    gsem O cf (firstn j thetas ++ t' :: skipn (S j) thetas) (column l m V k) == 0 -> ~ unit (t' - t).
  Proof.
    intros Lt Hj He H1 H2. assert (Lc : length (column l m V k) = l) by (unfold column; rewrite map_length, seq_length; reflexivity).
    rewrite gsem_upd in H1 by lia. rewrite gsem_upd in H2 by lia. eapply one_value; [|exact H1|exact H2].
    unfold column. rewrite (nth_indep _ [] (nth (0 * m + k) V [])) by (rewrite map_length, seq_length; lia).
    rewrite (map_nth (fun j => nth (j * m + k) V [])), seq_nth by lia. exact He.
  Qed.
  (** ** Acceptance *)
  Variable red : A -> res A.
  Hypothesis Hred : forall a, wf a -> exists b, red a = Ok b /\ a == b /\ wf b.
  Variable n : nat.
  Hypothesis Hn : (0 < n)%nat.
  Hypothesis Hcf : cf_ok O req wf cf.
  Variables (xs : list A) (lag : list (list A)).
  Hypothesis Hxs : Forall wf xs.
  Hypothesis Hlag : lagrange_ok O req wf xs lag.
  Variables (l m : nat).
  Hypothesis Hm : length xs = (m + 1)%nat.
  Variable eqb : A -> A -> bool.
  Hypothesis Heqb : forall a b, eqb a b = true -> a == b.

  (** What the two verifiers compute together. *)
  Definition check (V1 V2 : list (list A)) (thetas betas : list A) (r : A) (p1 p2 : dproof A) : res Datatypes.unit :=
    rbind (verify_pi O red n l m betas r lag xs V1 p1) (fun s1 =>
    rbind (verify_pi O red n l m betas r lag xs V2 p2) (fun s2 =>
    combine_verifications O red eqb n cf l thetas s1 s2)).
  Definition proof_wf (p : dproof A) : Prop :=
    Forall wf (dp_w p) /\ Forall wf (dp_a p) /\ length (dp_w p) = (n * l)%nat /\ length (dp_a p) = (2 * m + 1)%nat.
  Lemma check_accept V1 V2 thetas betas r p1 p2 :
    length thetas = l -> Forall wf thetas -> length betas = m -> Forall wf betas -> wf r ->
    shape n l m V1 -> shape n l m V2 -> wfi wf V1 -> wfi wf V2 -> proof_wf p1 -> proof_wf p2 ->
    check V1 V2 thetas betas r p1 p2 = Ok tt ->
    bsum O betas (tl xs) (map2 (oadd O) (dp_a p1) (dp_a p2)) == 0 /\
    gsem O cf thetas (seen O n lag l m (map2 (oadd O) (dp_w p1) (dp_w p2)) (add_inputs O V1 V2) r) == ev (map2 (oadd O) (dp_a p1) (dp_a p2)) r.
  Proof.
    intros Lt Wt Lb Wb Wr HV1 HV2 WV1 WV2 (Ww1 & Wa1 & Lw1 & La1) (Ww2 & Wa2 & Lw2 & La2).
    destruct (verify_pi_ok O req wf HO red Hred n Hn xs lag Hxs Hlag l m Hm betas r V1 p1 Lb (proj1 HV1) Wb Wr WV1 Ww1 Wa1 Lw1 La1) as (s1 & u1 & v1 & E1 & L1 & W1 & F1 & (Wu1 & R1 & Q1) & (Wv1 & B1 & D1)).
    destruct (verify_pi_ok O req wf HO red Hred n Hn xs lag Hxs Hlag l m Hm betas r V2 p2 Lb (proj1 HV2) Wb Wr WV2 Ww2 Wa2 Lw2 La2) as (s2 & u2 & v2 & E2 & L2 & W2 & F2 & (Wu2 & R2 & Q2) & (Wv2 & B2 & D2)).
    unfold check. rewrite E1, E2. cbn [rbind].
    destruct (combine_ok O req wf HO red Hred n Hn cf Hcf xs lag l m Hm eqb thetas s1 s2 (dp_w p1) (dp_w p2) V1 V2 r Lt Wt ltac:(lia) HV1 HV2 L1 W1 F1 L2 W2 F2) as (pr & u & Wu & Ru & Qu & EC).
    rewrite EC. destruct (oz O (ds_b s1 + ds_b s2)) eqn:Ez; [|discriminate]. destruct (eqb pr (ds_pr s1 + ds_pr s2)) eqn:Ee; [|discriminate]. intros _.
    apply (rk_zero _ _ _ HO) in Ez. apply Heqb in Ee.
    pose proof (proj1 (red_eq req wf red Hred _ _ Wv1 B1)) as X1. pose proof (proj1 (red_eq req wf red Hred _ _ Wv2 B2)) as X2.
    pose proof (proj1 (red_eq req wf red Hred _ _ Wu1 R1)) as Y1. pose proof (proj1 (red_eq req wf red Hred _ _ Wu2 R2)) as Y2.
    pose proof (proj1 (red_eq req wf red Hred _ _ Wu Ru)) as Y.
    split.
    - rewrite (bsum_add O req wf HO) by lia. rewrite <- D1, <- D2, X1, X2. exact Ez.
    - rewrite (ev_map2_add O req wf HO) by lia. rewrite <- Qu, <- Q1, <- Q2, Y, Y1, Y2. exact Ee.
  Qed.

  Hypothesis req_dec : forall a, wf a -> a == 0 \/ ~ a == 0.
  Theorem check_sound V1 V2 thetas p1 p2 k :
    length thetas = l -> Forall wf thetas -> shape n l m V1 -> shape n l m V2 -> wfi wf V1 -> wfi wf V2 -> proof_wf p1 -> proof_wf p2 ->
    (k < m)%nat -> ~ gsem O cf thetas (column l m (add_inputs O V1 V2) k) == 0 ->
    let accepted betas r := length betas = m /\ Forall wf betas /\ wf r /\ check V1 V2 thetas betas r p1 p2 = Ok tt in
    (forall rs, spread rs -> Forall (fun r => exists betas, accepted betas r) rs -> (length rs <= 2 * m)%nat) \/
    (forall betas b b' r r', length betas = m ->
       accepted (firstn k betas ++ b :: skipn (S k) betas) r -> accepted (firstn k betas ++ b' :: skipn (S k) betas) r' -> ~ unit (b' - b)).
  Proof.
    intros Lt Wt HV1 HV2 WV1 WV2 HP1 HP2 Hk Herr accepted.
    pose proof HP1 as (Ww1 & Wa1 & Lw1 & La1). pose proof HP2 as (Ww2 & Wa2 & Lw2 & La2).
    set (a := map2 (oadd O) (dp_a p1) (dp_a p2)). set (w := map2 (oadd O) (dp_w p1) (dp_w p2)). set (V := add_inputs O V1 V2).
    assert (Wa : Forall wf a) by (apply (map2_Forall _ wf wf wf); auto; apply (rk_wfadd _ _ _ HO)).
    assert (Ww : Forall wf w) by (apply (map2_Forall _ wf wf wf); auto; apply (rk_wfadd _ _ _ HO)).
    assert (La : length a = (2 * m + 1)%nat) by (unfold a; rewrite map2_length by lia; lia).
    assert (Lx : length (tl xs) = m) by (apply tl_length, Hm).
    assert (HV : shape n l m V).
    { destruct HV1 as [A1 A2], HV2 as [A3 A4]. split; [unfold V, add_inputs; rewrite map2_length by lia; exact A1|].
      unfold V, add_inputs. apply (map2_Forall _ (fun v => length v = n) (fun v => length v = n)); auto. intros x y Hx Hy. rewrite map2_length by lia. exact Hx. }
    assert (WV : wfi wf V).
    { unfold wfi, V, add_inputs. apply (map2_Forall _ (Forall wf) (Forall wf)); auto. intros x y Hx Hy. apply (map2_Forall _ wf wf wf); auto. apply (rk_wfadd _ _ _ HO). }
    assert (Enth : nth k (tl xs) 0 = nth (S k) xs 0) by (apply nth_tl; rewrite Hm; clear; lia).
    destruct (req_dec (ev a (nth k (tl xs) 0))) as [Hz|Hnz].
    { apply (wf_p_eval O req wf HO); [exact Wa|]. apply (nth_wf O req wf HO). apply Forall_tl, Hxs. }
    - left. intros rs Sp Hacc.
      destruct (prove_ok O req wf HO red Hred n Hn cf Hcf xs lag Hlag l m Hm V thetas w Lt Wt) as (g & _ & Lg & Wg & Hg); [rewrite (proj1 HV); lia|exact WV|exact Ww|].
      destruct (Nat.le_gt_cases (length rs) (2 * m)) as [Hle|Hgt]; [exact Hle|exfalso].
      assert (Z : forall x, ev (p_sub O g a) x == 0).
      { apply (too_many_roots _ rs Sp); [|rewrite p_sub_len; lia]. rewrite Forall_forall. rewrite Forall_forall in Hacc. intros r Hr. destruct (Hacc r Hr) as (betas & Lb & Wb & Wr & E).
        destruct (check_accept V1 V2 thetas betas r p1 p2 Lt Wt Lb Wb Wr HV1 HV2 WV1 WV2 HP1 HP2 E) as [_ E2]. rewrite (ev_sub O req wf HO), Hg. unfold w, V, a. rewrite E2. ring. }
      apply Herr. fold V. specialize (Z (nth (S k) xs 0)). rewrite (ev_sub O req wf HO), <- Enth, Hz, Enth, Hg in Z.
      rewrite (gsem_proper O req wf HO cf Hcf _ _ _ (seen_point O req wf HO n Hn xs lag Hlag l m Hm w V (S k) HV ltac:(lia))) in Z.
      replace (S k - 1)%nat with k in Z by lia. transitivity (gsem O cf thetas (column l m V k) - 0); [ring|exact Z].
    - right. intros betas b b' r r' Lb (Lb1 & Wb1 & Wr1 & E1) (Lb2 & Wb2 & Wr2 & E2).
      destruct (check_accept V1 V2 thetas _ r p1 p2 Lt Wt Lb1 Wb1 Wr1 HV1 HV2 WV1 WV2 HP1 HP2 E1) as [X1 _].
      destruct (check_accept V1 V2 thetas _ r' p1 p2 Lt Wt Lb2 Wb2 Wr2 HV1 HV2 WV1 WV2 HP1 HP2 E2) as [X2 _].
      fold a in X1, X2. rewrite (bsum_upd betas) in X1 by lia. rewrite (bsum_upd betas) in X2 by lia. eapply one_value; eassumption.
  Qed.
End Sound.
