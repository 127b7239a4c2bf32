(** Z/2^K and polynomials over it: long division, remainders. *)
From Coq Require Import Ring Setoid Morphisms.
From Verif Require Import Base Ring RingProofs Poly PolyProofs PolyRing Aby3Proofs.
Local Open Scope list_scope.

Definition zeq (K a b : Z) : Prop := a mod 2 ^ K = b mod 2 ^ K.
Lemma zeq_equiv K : Equivalence (zeq K).
Proof. unfold zeq. split; [intros a; reflexivity|intros a b H; symmetry; exact H|intros a b c H1 H2; rewrite H1; exact H2]. Qed.
Lemma zk_ring_ok K : 0 < K -> ring_ok (zk_ops K) (zeq K) (inr K).
Proof.
  intros HK. assert (P : 2 <= 2 ^ K) by (change 2 with (2 ^ 1) at 1; apply Z.pow_le_mono_r; lia).
  assert (M : forall a, inr K (a mod 2 ^ K)) by (intros a; apply Z.mod_pos_bound; clear - P; lia).
  constructor; cbn [zk_ops o0 o1 oadd osub omul oneg oz].
  - apply zeq_equiv.
  - constructor; cbn [zk_ops o0 o1 oadd osub omul oneg oz]; intros; unfold zeq; modring.
  - constructor; cbn [zk_ops o0 o1 oadd osub omul oneg oz]; unfold zeq.
    + intros a a' Ea b b' Eb. unfold radd. rewrite !Zmod_mod, (Zplus_mod a b), Ea, Eb, <- Zplus_mod. reflexivity.
    + intros a a' Ea b b' Eb. unfold rmul. rewrite !Zmod_mod, (Zmult_mod a b), Ea, Eb, <- Zmult_mod. reflexivity.
    + intros a a' Ea. unfold rneg. rewrite !Zmod_mod. replace (- a) with (0 - a) by ring. replace (- a') with (0 - a') by ring. rewrite (Zminus_mod 0 a), Ea, <- Zminus_mod. reflexivity.
  - intros a E. apply Z.eqb_eq in E. subst a. reflexivity.
  - unfold inr. lia.
  - unfold inr. lia.
  - intros; apply M.
  - intros; apply M.
  - intros; apply M.
  - intros; apply M.
Qed.

Section Div.
  Variable K : Z.
  Hypothesis HK : 0 < K.
  Notation Zk := (zk_ring_ok K HK).
  Notation R := (poly_ring_ok (zk_ops K) (zeq K) (inr K) Zk).
  Notation peq := (peq (zk_ops K) (zeq K)).
  Infix "=p=" := peq (at level 70).
  Local Instance zeq_equiv' : Equivalence (zeq K) := zeq_equiv K.
  Local Instance peq_equiv' : Equivalence peq := rk_equiv _ _ _ R.
  Local Instance padd_proper : Proper (peq ==> peq ==> peq) (p_add (zk_ops K)) := Radd_ext (rk_ext _ _ _ R).
  Local Instance pmul_proper : Proper (peq ==> peq ==> peq) (p_mul (zk_ops K)) := Rmul_ext (rk_ext _ _ _ R).
  Local Instance pneg_proper : Proper (peq ==> peq) (p_neg (zk_ops K)) := Ropp_ext (rk_ext _ _ _ R).
  Local Instance psub_proper : Proper (peq ==> peq ==> peq) (p_sub (zk_ops K)) := sub_proper (pops (zk_ops K)) peq (Forall (inr K)) R.
  Lemma pz_ring : ring_theory [] (p_one (zk_ops K)) (p_add (zk_ops K)) (p_mul (zk_ops K)) (p_sub (zk_ops K)) (p_neg (zk_ops K)) peq.
  Proof. exact (rk_ring _ _ _ R). Qed.
  Lemma pz_ext : ring_eq_ext (p_add (zk_ops K)) (p_mul (zk_ops K)) (p_neg (zk_ops K)) peq.
  Proof. exact (rk_ext _ _ _ R). Qed.
  Add Ring pz_ring' : pz_ring (setoid peq_equiv' pz_ext).
  Notation "p +p q" := (p_add (zk_ops K) p q) (at level 50, left associativity).
  Notation "p -p q" := (p_sub (zk_ops K) p q) (at level 50, left associativity).
  Notation "p *p q" := (p_mul (zk_ops K) p q) (at level 40, left associativity).

  Lemma co_addz a b i : nth i (a +p b) 0 mod 2 ^ K = (nth i a 0 + nth i b 0) mod 2 ^ K.
  Proof using HK. etransitivity; [exact (co_add (zk_ops K) (zeq K) (inr K) Zk a b i)|]. apply Zmod_mod. Qed.
  (** ** Monomials, constants *)
  Definition xn (n : nat) : list Z := repeat 0 n ++ [1].
  Lemma xn_mul n b : xn n *p b =p= repeat 0 n ++ b.
  Proof using HK.
    rewrite (mul_conv (zk_ops K) (zeq K) (inr K) Zk). induction n as [|n IH].
    - apply (conv_one (zk_ops K) (zeq K) (inr K) Zk).
    - unfold xn. cbn [repeat app]. fold (xn n). rewrite (conv_shift (zk_ops K) (zeq K) (inr K) Zk (xn n) b). intros [|i]; [reflexivity|]. apply IH.
  Qed.
  Lemma app_peq a b : a ++ b =p= a +p xn (length a) *p b.
  Proof using HK.
    rewrite xn_mul. induction a as [|c a IH]; intros i.
    - rewrite (co_add (zk_ops K) (zeq K) (inr K) Zk). cbn [app length repeat]. rewrite co_nil. cbn. unfold zeq. modring.
    - destruct i as [|i]; cbn [app length repeat nth p_add].
      + cbn. unfold zeq. modring.
      + apply IH.
  Qed.
  Lemma xn_add n m : xn n *p xn m =p= xn (n + m).
  Proof using HK. rewrite xn_mul. unfold xn. rewrite app_assoc, <- repeat_app. reflexivity. Qed.
  Lemma scale_peq p y : p_scale (zk_ops K) p y =p= p *p [y].
  Proof using HK.
    rewrite (Rmul_comm pz_ring), (mul_conv (zk_ops K) (zeq K) (inr K) Zk). cbn [p_conv]. intros i.
    etransitivity; [apply (co_scale (zk_ops K) (zeq K) (inr K) Zk)|]. symmetry. etransitivity; [apply (co_add (zk_ops K) (zeq K) (inr K) Zk)|].
    etransitivity; [apply (Radd_ext (rk_ext _ _ _ Zk)); [apply (co_row (zk_ops K) (zeq K) (inr K) Zk)|reflexivity]|].
    cbn [oadd omul zk_ops o0]. destruct i as [|[|i]]; cbn [nth]; unfold zeq; modring.
  Qed.
  Lemma const_sub a b : [rsub K a b] =p= [a] -p [b]. Proof using HK. reflexivity. Qed.
  Lemma const_mul a b : [rmul K a b] =p= [a] *p [b].
  Proof using HK. rewrite <- scale_peq. reflexivity. Qed.
  Lemma const_eq a b : zeq K a b -> [a] =p= [b].
  Proof using. intros H [|i]; [exact H|reflexivity]. Qed.

  (** ** One step of the division *)
  Lemma sub_prefix_len c low rest : length (sub_prefix K c low rest) = length rest.
  Proof using. revert rest. induction low as [|a low IH]; intros [|x rest]; cbn [sub_prefix]; try reflexivity. cbn. rewrite IH. reflexivity. Qed.
  Lemma sub_prefix_wf c low rest : Forall (inr K) rest -> Forall (inr K) (sub_prefix K c low rest).
  Proof using HK.
    revert rest. induction low as [|a low IH]; intros [|x rest] W; cbn [sub_prefix]; try exact W. inversion_clear W. constructor; [|apply IH; assumption].
    apply (rk_wfsub _ _ _ Zk); [assumption|]. apply Z.mod_pos_bound. apply Z.pow_pos_nonneg; lia.
  Qed.
  Lemma sub_prefix_peq c low rest : (length low <= length rest)%nat ->
    rev (sub_prefix K c low rest) =p= rev rest -p xn (length rest - length low) *p (rev low *p [c]).
  Proof using HK.
    revert rest. induction low as [|a low IH]; intros rest L.
    - cbn [sub_prefix rev]. ring.
    - destruct rest as [|x rest]; [cbn in L; lia|]. cbn [sub_prefix rev length]. rewrite !app_peq. rewrite !rev_length, sub_prefix_len, IH by (cbn in L; lia).
      rewrite const_sub, const_mul. replace (length rest - length low)%nat with (S (length rest) - S (length low))%nat by lia.
      set (n := (S (length rest) - S (length low))%nat). replace (xn (length rest)) with (xn (n + length low)) by (f_equal; unfold n; cbn in L; lia).
      rewrite <- xn_add. ring.
  Qed.
  Lemma ldiv_ok lead low vinv : zeq K (rmul K lead vinv) 1 -> forall n d, length d = (n + length low)%nat -> Forall (inr K) d ->
    exists quo rem, ldiv K n low vinv d = (quo, rem) /\ length quo = n /\ length rem = length low /\ Forall (inr K) quo /\ Forall (inr K) rem /\
      rev d =p= rev quo *p rev (lead :: low) +p rev rem.
  Proof using HK.
    intros HL. induction n as [|n IH]; intros d L W.
    - exists [], d. cbn [ldiv]. repeat (split; [first [reflexivity | assumption | constructor | (cbn in L; lia)]|]). cbn [rev]. ring.
    - destruct d as [|top rest]; [cbn in L; lia|]. inversion_clear W as [|? ? Wt Wr]. cbn [ldiv]. set (coeff := rmul K top vinv).
      destruct (IH (sub_prefix K coeff low rest)) as (quo & rem & E & L1 & L2 & W1 & W2 & P); [rewrite sub_prefix_len; cbn in L; lia|apply sub_prefix_wf, Wr|].
      exists (coeff :: quo), rem. rewrite E. split; [reflexivity|]. split; [cbn; lia|]. split; [exact L2|].
      split; [constructor; [apply Z.mod_pos_bound, Z.pow_pos_nonneg; lia|exact W1]|]. split; [exact W2|].
      rewrite sub_prefix_peq in P by (cbn in L; lia). replace (length rest - length low)%nat with n in P by (cbn in L; lia).
      cbn [rev]. cbn [rev] in P. rewrite (app_peq (rev quo)), (app_peq (rev rest)), !rev_length, L1.
      assert (E1 : rev rest =p= (rev quo *p (rev low ++ [lead]) +p rev rem) +p xn n *p (rev low *p [coeff])) by (rewrite <- P; ring).
      rewrite E1. rewrite !(app_peq (rev low)), !rev_length. replace (length rest) with (n + length low)%nat by (cbn in L; lia). rewrite <- xn_add.
      assert (E2 : [top] =p= [lead] *p [coeff]).
      { rewrite <- const_mul. apply const_eq. unfold coeff, zeq. symmetry. unfold zeq in HL. transitivity ((rmul K lead vinv * top) mod 2 ^ K); [modring|].
        rewrite Zmult_mod, HL, <- Zmult_mod. f_equal. ring. }
      rewrite E2. ring.
  Qed.

  (** ** Degree and shrink *)
  Lemma iszero_nth p i : p_iszero (zk_ops K) p = true -> nth i p 0 = 0.
  Proof using.
    revert i. induction p as [|a p IH]; intros [|i] E; try reflexivity; unfold p_iszero in E; cbn [forallb] in E; apply andb_prop in E; destruct E as [E1 E2].
    - symmetry. apply Z.eqb_eq. exact E1.
    - cbn [nth]. apply IH, E2.
  Qed.
  Lemma iszero_iff p : p_iszero (zk_ops K) p = true <-> forall i, nth i p 0 = 0.
  Proof using.
    split; [intros E i; apply iszero_nth, E|]. intros H. unfold p_iszero. apply forallb_forall. intros a Ha. destruct (In_nth p a 0 Ha) as (i & _ & <-). rewrite H. reflexivity.
  Qed.
  Lemma degree_cons a p : p_degree (zk_ops K) (a :: p) = if p_iszero (zk_ops K) p then 0%nat else S (p_degree (zk_ops K) p). Proof using. reflexivity. Qed.
  Lemma shrink_cons a p : p_shrink (zk_ops K) (a :: p) = if p_iszero (zk_ops K) p then [a] else a :: p_shrink (zk_ops K) p.
  Proof using. unfold p_shrink. rewrite degree_cons. destruct (p_iszero (zk_ops K) p); cbn [resize firstn app length Nat.sub repeat]; reflexivity. Qed.
  Lemma shrink_nth p i : nth i (p_shrink (zk_ops K) p) 0 = nth i p 0.
  Proof using.
    revert i. induction p as [|a p IH]; intros i; [destruct i as [|[|i]]; reflexivity|]. rewrite shrink_cons.
    destruct (p_iszero (zk_ops K) p) eqn:E; destruct i as [|i]; cbn [nth]; try reflexivity; [rewrite (iszero_nth p i E); destruct i; reflexivity|apply IH].
  Qed.
  Lemma shrink_peq p : p_shrink (zk_ops K) p =p= p.
  Proof using. intros i. cbn [o0 zk_ops]. rewrite shrink_nth. reflexivity. Qed.
  Lemma shrink_len p : (length (p_shrink (zk_ops K) p) <= Nat.max 1 (length p))%nat.
  Proof using. induction p as [|a p IH]; [cbn; lia|]. rewrite shrink_cons. destruct (p_iszero (zk_ops K) p) eqn:E; cbn [length]; [lia|]. destruct p; [discriminate|]. cbn [length] in *. lia. Qed.
  Lemma shrink_wf p : Forall (inr K) p -> Forall (inr K) (p_shrink (zk_ops K) p).
  Proof using HK.
    induction 1 as [|a p Ha Hp IH]; [constructor; [apply (rk_wf0 _ _ _ Zk)|constructor]|]. rewrite shrink_cons. destruct (p_iszero (zk_ops K) p); constructor; auto.
  Qed.
  Lemma inr_eq a b : inr K a -> inr K b -> zeq K a b -> a = b.
  Proof using. unfold zeq, inr. intros Ha Hb H. rewrite !Z.mod_small in H by assumption. exact H. Qed.
  Lemma nth_inr p i : Forall (inr K) p -> inr K (nth i p 0).
  Proof using HK. intros H. destruct (nth_in_or_default i p 0) as [Hi|Hd]; [|rewrite Hd; apply (rk_wf0 _ _ _ Zk)]. rewrite Forall_forall in H. apply H, Hi. Qed.
  Lemma shrink_unique p q : Forall (inr K) p -> Forall (inr K) q -> p =p= q -> p_shrink (zk_ops K) p = p_shrink (zk_ops K) q.
  Proof using HK.
    intros Wp. revert q. induction Wp as [|a p Ha Hp IH]; intros q Wq E.
    - assert (Z : p_iszero (zk_ops K) q = true) by (apply iszero_iff; intros i; apply inr_eq; [apply nth_inr, Wq|apply (rk_wf0 _ _ _ Zk)|]; symmetry; specialize (E i); cbn [o0 zk_ops] in E; rewrite <- E; destruct i; reflexivity).
      destruct q as [|b q]; [reflexivity|]. rewrite shrink_cons. pose proof (iszero_nth _ 0%nat Z) as B. cbn in B. subst b. unfold p_iszero in Z. cbn [forallb] in Z. apply andb_prop in Z. destruct Z as [_ Z].
      fold (p_iszero (zk_ops K) q) in Z. rewrite Z. reflexivity.
    - destruct q as [|b q].
      + assert (Z : p_iszero (zk_ops K) (a :: p) = true) by (apply iszero_iff; intros i; apply inr_eq; [apply nth_inr; constructor; assumption|apply (rk_wf0 _ _ _ Zk)|]; specialize (E i); cbn [o0 zk_ops] in E; rewrite E; destruct i; reflexivity).
        rewrite shrink_cons. pose proof (iszero_nth _ 0%nat Z) as B. cbn in B. subst a. unfold p_iszero in Z. cbn [forallb] in Z. apply andb_prop in Z. destruct Z as [_ Z].
        fold (p_iszero (zk_ops K) p) in Z. rewrite Z. reflexivity.
      + inversion_clear Wq as [|? ? Wb Wq']. assert (a = b) by (apply inr_eq; auto; apply (E 0%nat)). subst b. assert (Ep : p =p= q) by (intros i; apply (E (S i))).
        rewrite !shrink_cons. replace (p_iszero (zk_ops K) q) with (p_iszero (zk_ops K) p); [destruct (p_iszero (zk_ops K) p); [reflexivity|f_equal; apply IH; assumption]|].
        apply eq_true_iff_eq. rewrite !iszero_iff. split; intros H i; apply inr_eq; try (apply nth_inr; assumption); try apply (rk_wf0 _ _ _ Zk); specialize (Ep i); cbn [o0 zk_ops] in Ep; [rewrite <- Ep, H; reflexivity|rewrite Ep, H; reflexivity].
  Qed.

  (** ** Long division *)
  Lemma degree_last q lead : lead <> 0 -> p_degree (zk_ops K) (q ++ [lead]) = length q.
  Proof using.
    intros Hl. induction q as [|a q IH]; [reflexivity|]. cbn [app length]. rewrite degree_cons. destruct (p_iszero (zk_ops K) (q ++ [lead])) eqn:E; [|rewrite IH; reflexivity].
    exfalso. apply Hl. pose proof (iszero_nth _ (length q) E) as X. rewrite app_nth2 in X by lia. rewrite Nat.sub_diag in X. exact X.
  Qed.
  Theorem long_division_ok p q lead vinv : Forall (inr K) p -> lead <> 0 -> inverse K lead = Some (Ok vinv) -> zeq K (rmul K lead vinv) 1 ->
    exists quo rem, long_division K p (q ++ [lead]) = Ok (quo, rem) /\ p =p= quo *p (q ++ [lead]) +p rem /\
      (length rem <= length q)%nat /\ Forall (inr K) quo /\ Forall (inr K) rem.
  Proof using HK.
    intros Wp Hl Ei Hinv. unfold long_division. rewrite (degree_last q lead Hl), nth_error_app2, Nat.sub_diag by lia. cbn [nth_error]. rewrite Ei.
    rewrite app_length. cbn [length]. rewrite rev_app_distr. cbn [rev app tl].
    destruct (Nat.le_gt_cases (length q + 1) (length p)) as [Hle|Hgt].
    - set (n := (length p + 1 - (length q + 1))%nat).
      destruct (ldiv_ok lead (rev q) vinv Hinv n (rev p)) as (quo & rem & E & L1 & L2 & W1 & W2 & P).
      + rewrite !rev_length. unfold n. lia.
      + apply Forall_rev, Wp.
      + rewrite E. assert (N : (n =? 0)%nat = false) by (apply Nat.eqb_neq; unfold n; lia). rewrite N. exists (rev quo), (rev rem). split; [reflexivity|].
        cbn [rev] in P. rewrite !rev_involutive in P. split; [exact P|]. rewrite !rev_length in *. split; [lia|]. split; apply Forall_rev; assumption.
    - replace (length p + 1 - (length q + 1))%nat with 0%nat by lia. cbn [ldiv Nat.eqb]. rewrite rev_involutive. exists [0], p. split; [reflexivity|].
      assert (Z0 : [0] =p= []) by (intros [|[|i]]; reflexivity). split; [rewrite Z0; ring|]. split; [lia|]. split; [|exact Wp]. constructor; [apply (rk_wf0 _ _ _ Zk)|constructor].
  Qed.
  (** ** Remainders modulo a monic polynomial are unique *)
  Lemma monic_small q k r : r =p= k *p (q ++ [1]) -> (length r <= length q)%nat -> k =p= [].
  Proof using HK.
    intros E L. revert E. induction k as [|c k IH] using rev_ind; intros E; [reflexivity|].
    assert (Z : zeq K c 0).
    { pose proof (E (length k + length q)%nat) as X. cbn [o0 zk_ops] in X. rewrite (nth_overflow r) in X by lia.
      assert (Y : (k ++ [c]) *p (q ++ [1]) =p= ((k *p (q ++ [1])) +p xn (length k) *p ([c] *p q)) +p (xn (length k + length q) *p [c])).
      { rewrite (app_peq k), (app_peq q). rewrite <- xn_add. assert (O1 : [1] =p= p_one (zk_ops K)) by reflexivity. rewrite O1. ring. }
      specialize (Y (length k + length q)%nat). cbn [o0 zk_ops] in Y. rewrite Y in X. unfold zeq in X. rewrite !co_addz, Zplus_mod, co_addz in X.
      assert (B1 : nth (length k + length q) (k *p (q ++ [1])) (o0 (zk_ops K)) = o0 (zk_ops K) \/ length k = 0%nat).
      { destruct k as [|k0 k']; [right; reflexivity|left]. apply nth_overflow. pose proof (p_mul_len (zk_ops K) (k0 :: k') (q ++ [1])) as L1. rewrite app_length in L1. cbn [length] in *. lia. }
      assert (B1' : zeq K (nth (length k + length q) (k *p (q ++ [1])) (o0 (zk_ops K))) 0).
      { destruct B1 as [B1|B1]; [rewrite B1; reflexivity|]. destruct k; [|discriminate]. change ([] *p (q ++ [1])) with (@nil Z). rewrite co_nil. reflexivity. }
      assert (B2 : zeq K (nth (length k + length q) (xn (length k) *p ([c] *p q)) (o0 (zk_ops K))) 0).
      { pose proof (xn_mul (length k) ([c] *p q) (length k + length q)%nat) as H. cbn beta in H. rewrite H. rewrite app_nth2 by (rewrite repeat_length; lia). rewrite repeat_length.
        replace (length k + length q - length k)%nat with (length q) by lia. rewrite nth_overflow; [reflexivity|]. pose proof (p_mul_len (zk_ops K) [c] q). cbn [length] in *. lia. }
      assert (B3 : zeq K (nth (length k + length q) (xn (length k + length q) *p [c]) (o0 (zk_ops K))) c).
      { pose proof (xn_mul (length k + length q) [c] (length k + length q)%nat) as H. rewrite H. rewrite app_nth2 by (rewrite repeat_length; lia). rewrite repeat_length, Nat.sub_diag. reflexivity. }
      cbn [zk_ops o0] in B1', B2, B3. symmetry. unfold zeq in *.
      revert X B1' B2 B3. generalize (nth (length k + length q) (k *p (q ++ [1])) 0) (nth (length k + length q) (xn (length k) *p ([c] *p q)) 0) (nth (length k + length q) (xn (length k + length q) *p [c]) 0).
      clear. intros u v w X B1 B2 B3. rewrite X, (Zplus_mod u v), B1, B2, B3, <- (Zplus_mod 0 0), <- Zplus_mod. reflexivity. }
    assert (E' : k ++ [c] =p= k).
    { rewrite app_peq. assert (C0 : [c] =p= []) by (intros [|[|i]]; [exact Z|reflexivity|reflexivity]). rewrite C0. ring. }
    rewrite E'. apply IH. rewrite E, E'. reflexivity.
  Qed.
End Div.
