(** Soundness of the sacrifice (malicious ABY3) and of the hash-based zero check. *)
From Verif Require Import Base Ring RingProofs Prog Sched Conc Rng Rel Net BitArith BinProofs AddProofs MpcSpec Aby3 ShareSpec Aby3Proofs Jmp JmpProofs Session SessionProofs Aby3Mal Aby3MalProofs.
From Coq Require Import ZifyBool ZifyNat Znumtheory.

(** ** What the check share contains *)
Lemma triple_check_value U r a a' b e0 e1 V B C0 C1 : 0 <= U ->
  (forall i, V i = (a * r - a') mod 2 ^ U) ->
  arith_shared U B b -> arith_shared U C0 ((a * b + e0) mod 2 ^ U) -> arith_shared U C1 ((a' * b + e1) mod 2 ^ U) ->
  arith_shared U (fun i => triple_check U r (V i) (B i) (C0 i) (C1 i)) ((e1 - r * e0) mod 2 ^ U).
Proof.
  intros HU HV HB HC0 HC1. set (v := (a * r - a') mod 2 ^ U) in *.
  replace ((e1 - r * e0) mod 2 ^ U) with
    ((((b * v) mod 2 ^ U - ((a * b + e0) mod 2 ^ U * r) mod 2 ^ U) mod 2 ^ U + (a' * b + e1) mod 2 ^ U) mod 2 ^ U) by (unfold v; modring).
  unfold triple_check. apply (sh_add_ok U HU); [|exact HC1]. apply (sh_sub_ok U HU).
  - eapply arel_ext; [|apply (sh_mulc_ok U HU B b v HB)]. intros i. cbn beta. rewrite HV. reflexivity.
  - apply (sh_mulc_ok U HU), HC0.
Qed.
Lemma dot_check_value U r a a' b e0 e1 V B C0 C1 : 0 <= U -> length a = length b -> length a' = length b ->
  (forall i, V i = map2 (fun a a' => (a * r - a') mod 2 ^ U) a a') ->
  RL (arith_shared U) B b -> arith_shared U C0 ((dotp a b + e0) mod 2 ^ U) -> arith_shared U C1 ((dotp a' b + e1) mod 2 ^ U) ->
  arith_shared U (fun i => dot_check U r (V i) (B i) (C0 i) (C1 i)) ((e1 - r * e0) mod 2 ^ U).
Proof.
  intros HU L1 L2 HV HB HC0 HC1. unfold dot_check.
  assert (HV' : forall i, V i = sac_open U r a a').
  { intros i. rewrite HV. unfold sac_open. clear. revert a'. induction a as [|x a IH]; intros [|y a']; cbn; try reflexivity. rewrite IH. f_equal. modring. }
  replace ((e1 - r * e0) mod 2 ^ U) with
    (((((- ((dotp a b + e0) mod 2 ^ U)) mod 2 ^ U * r) mod 2 ^ U + (dotp a' b + e1) mod 2 ^ U) mod 2 ^ U + dotp (sac_open U r a a') b) mod 2 ^ U).
  2:{ rewrite Zplus_mod, (sac_dotp U r a a' b L1 L2). modring. }
  apply (sac_fold_ok U _ _ _ _ _ _ HU HB HV').
  apply (sh_add_ok U HU); [|exact HC1]. apply (sh_mulc_ok U HU), (sh_neg_ok U HU), HC0.
Qed.

(** ** How many challenges miss an error *)
Lemma pow2_split e K : 0 <= K -> e mod 2 ^ K <> 0 -> exists t q, 0 <= t < K /\ e = 2 ^ t * q /\ q mod 2 = 1.
Proof.
  intros HK. revert e. pattern K. apply natlike_ind; [|clear K HK; intros K HK IH e He|exact HK].
  - intros e He. rewrite Z.mod_1_r in He. congruence.
  - destruct (Z.eq_dec (e mod 2) 0) as [E|E].
    + pose proof (Z.div_mod e 2 ltac:(lia)) as D. rewrite E, Z.add_0_r in D.
      assert (P : 2 ^ Z.succ K = 2 * 2 ^ K) by (rewrite Z.pow_succ_r; lia).
      assert (0 < 2 ^ K) by (apply Z.pow_pos_nonneg; lia).
      destruct (IH (e / 2)) as (t & q & Ht & Eq & Hq).
      { intros C. apply He. rewrite P, D, Z.mul_mod_distr_l by lia. rewrite C. reflexivity. }
      exists (t + 1), q. split; [lia|]. split; [|exact Hq]. rewrite D, Eq, Z.pow_add_r by lia. ring.
    + exists 0, e. split; [lia|]. split; [cbn; destruct e; reflexivity|]. pose proof (Z.mod_pos_bound e 2 ltac:(lia)). lia.
Qed.
Lemma odd_coprime q n : 0 <= n -> q mod 2 = 1 -> rel_prime (2 ^ n) q.
Proof.
  intros Hn Hq. apply rel_prime_sym, Zpow_facts.rel_prime_Zpower_r; [exact Hn|]. apply rel_prime_sym.
  apply prime_rel_prime; [apply prime_2|]. intros [z Hz]. subst q. rewrite Z_mod_mult in Hq. discriminate.
Qed.
Lemma two_challenges K U e0 e1 r r' : 0 <= K <= U -> e0 mod 2 ^ K <> 0 ->
  (e1 - r * e0) mod 2 ^ U = 0 -> (e1 - r' * e0) mod 2 ^ U = 0 -> r mod 2 ^ (U - K + 1) = r' mod 2 ^ (U - K + 1).
Proof.
  intros HK He H1 H2. destruct (pow2_split e0 K ltac:(lia) He) as (t & q & Ht & -> & Hq).
  assert (P0 : forall n, 0 <= n -> 0 < 2 ^ n) by (intros; apply Z.pow_pos_nonneg; lia).
  assert (D : (2 ^ U | (r - r') * (2 ^ t * q))).
  { apply Zmod_divide; [pose proof (P0 U); lia|].
    replace ((r - r') * (2 ^ t * q)) with ((e1 - r' * (2 ^ t * q)) - (e1 - r * (2 ^ t * q))) by ring.
    rewrite Zminus_mod, H1, H2. apply Z.mod_0_l. pose proof (P0 U). lia. }
  assert (D' : (2 ^ (U - t) | r - r')).
  { apply Gauss with q; [|apply odd_coprime; [lia|exact Hq]].
    destruct D as [z Hz]. exists z. apply (Z.mul_reg_l _ _ (2 ^ t)); [pose proof (P0 t); lia|].
    replace (2 ^ t * (q * (r - r'))) with ((r - r') * (2 ^ t * q)) by ring. rewrite Hz.
    replace (2 ^ U) with (2 ^ t * 2 ^ (U - t)) by (rewrite <- Z.pow_add_r by lia; f_equal; lia). ring. }
  assert (D'' : (2 ^ (U - K + 1) | r - r')).
  { eapply Z.divide_trans; [|exact D']. exists (2 ^ (K - 1 - t)). rewrite <- Z.pow_add_r by lia. f_equal. lia. }
  destruct D'' as [z Hz]. replace r with (r' + z * 2 ^ (U - K + 1)) by lia. apply Z_mod_plus_full.
Qed.
Lemma same_quotient d r r' : 0 < d -> 0 <= r -> 0 <= r' -> r mod d = r' mod d -> Z.to_nat (r / d) = Z.to_nat (r' / d) -> r = r'.
Proof.
  intros Hd Hr Hr' M E. apply Z2Nat.inj in E; [|apply Z.div_pos; assumption..].
  rewrite (Z.div_mod r d), (Z.div_mod r' d), M, E; [reflexivity|intros ->; discriminate Hd..].
Qed.
Lemma quotient_range d pw r : 0 < d -> 0 <= r < d * pw -> (0 <= Z.to_nat (r / d) < 0 + Z.to_nat pw)%nat.
Proof.
  intros Hd [H1 H2]. assert (A : 0 <= r / d) by (apply Z.div_pos; assumption).
  assert (B : r / d < pw) by (apply Z.div_lt_upper_bound; assumption). clear - A B. split; [apply Nat.le_0_l|]. apply Z2Nat.inj_lt; lia.
Qed.
Lemma missed_challenges K U e0 e1 l : 1 <= K <= U -> e0 mod 2 ^ K <> 0 -> NoDup l ->
  Forall (fun r => inr U r /\ (e1 - r * e0) mod 2 ^ U = 0) l -> Z.of_nat (length l) <= 2 ^ (K - 1).
Proof.
  intros HK He ND HF. assert (P0 : forall n, 0 <= n -> 0 < 2 ^ n) by (intros; apply Z.pow_pos_nonneg; lia).
  assert (Hd : 0 < 2 ^ (U - K + 1)) by (apply P0; lia).
  assert (HU : 2 ^ U = 2 ^ (U - K + 1) * 2 ^ (K - 1)) by (rewrite <- Z.pow_add_r by lia; f_equal; lia).
  pose proof (fun r r' => two_challenges K U e0 e1 r r' ltac:(lia) He) as TC.
  assert (Hp : 0 < 2 ^ (K - 1)) by (apply P0; lia). clear P0 He.
  unfold inr in HF. generalize dependent (2 ^ (U - K + 1)). intros d Hd HU TC. generalize dependent (2 ^ (K - 1)). intros pw Hp HU.
  assert (ND' : NoDup (map (fun r => Z.to_nat (r / d)) l)).
  { clear - HF ND TC Hd. induction l as [|r l IH]; [constructor|]. inversion ND as [|? ? Hn ND0]; subst. inversion HF as [|? ? [Hr Er] HF0]; subst.
    cbn [map]. constructor; [|apply IH; assumption]. intros Hin. apply in_map_iff in Hin. destruct Hin as (r' & E & Hin).
    rewrite Forall_forall in HF0. destruct (HF0 _ Hin) as [Hr' Er']. apply Hn.
    rewrite (same_quotient d r r' Hd (proj1 Hr) (proj1 Hr') (TC r r' Er Er') (eq_sym E)). exact Hin. }
  assert (I : incl (map (fun r => Z.to_nat (r / d)) l) (seq 0 (Z.to_nat pw))).
  { intros n Hn. apply in_map_iff in Hn. destruct Hn as (r & <- & Hin). rewrite Forall_forall in HF. destruct (HF _ Hin) as [Hr _].
    apply in_seq, quotient_range; [exact Hd|]. rewrite <- HU. exact Hr. }
  pose proof (NoDup_incl_length ND' I) as L. rewrite map_length, seq_length in L. clear - L Hp. lia.
Qed.

(** ** The hash-based zero check *)
Section Zero.
  Variables (G : rng) (H : hasher) (U : Z).
  Hypothesis HU : In U widths.
  Notation ST := (jst G).

  Definition zero_transcript (i : pid) (ws : list share) : list Z := flat_map (zero_bytes i U) ws.

  Lemma zero_verify_rcvd i j ws s tr r : i <> j -> lrun (zero_verify G H i U ws s) tr (Ret r) ->
    rcvd_from j tr = [hfun H (zero_transcript i ws)].
  Proof.
    intros Hij L. unfold zero_verify, bindM, liftM in L. fold (zero_transcript i ws) in L. set (h := hfun H (zero_transcript i ws)) in *. clearbody h.
    destruct i, j; try congruence; cbn in L;
      repeat match goal with
        | X : lrun (Send _ _ _) _ _ |- _ => inversion X; clear X; subst
        | X : lrun (Recv _ _) _ _ |- _ => inversion X; clear X; subst; cbn in *
        end;
      match goal with X : lrun ((if ?b then _ else _) _) _ _ |- _ => destruct b eqn:E; inversion X; subst end;
      apply orb_false_elim in E; destruct E as [E1 E2]; apply negb_false_iff in E1, E2; apply bytes_eqb_spec in E1, E2; cbn; subst; reflexivity.
  Qed.
  Lemma zero_verify_sent i j ws s tr p : i <> j -> lrun (zero_verify G H i U ws s) tr p ->
    sent_to j tr = [] \/ sent_to j tr = [hfun H (zero_transcript i ws)].
  Proof.
    intros Hij L. unfold zero_verify, bindM, liftM in L. fold (zero_transcript i ws) in L. set (h := hfun H (zero_transcript i ws)) in *. clearbody h.
    destruct i, j; try congruence; cbn in L;
      repeat match goal with
        | X : lrun (Send _ _ _) _ _ |- _ => inversion X; clear X; subst; cbn; auto
        | X : lrun (Recv _ _) _ _ |- _ => inversion X; clear X; subst; cbn in *; auto
        end;
      match goal with X : lrun ((if ?b then _ else _) _) _ _ |- _ => destruct b eqn:E; inversion X; subst; cbn; auto end.
  Qed.

  Lemma le_inj n a b : to_le n a = to_le n b -> to_be n a = to_be n b.
  Proof. unfold to_le. intros E. rewrite <- (rev_involutive (to_be n a)), E. apply rev_involutive. Qed.
  Lemma hash_bytes_inj a b : inr U a -> inr U b -> hash_bytes U a = hash_bytes U b -> a = b.
  Proof.
    intros Ha Hb E. apply le_inj in E. pose proof (from_to_bytes U a HU Ha) as Q. rewrite to_bytes_eq, E, <- to_bytes_eq, from_to_bytes in Q by assumption.
    congruence.
  Qed.
  Lemma hash_bytes_length a : length (hash_bytes U a) = nbytes U.
  Proof. unfold hash_bytes, to_le. rewrite rev_length. apply to_be_length. Qed.

  (** Two honest parties i and i+1 whose transcripts agree hold shares of zeros. *)
  Lemma transcripts_zero i wi wj : length wi = length wj ->
    (forall n x y, nth_error wi n = Some x -> nth_error wj n = Some y -> inr U (sa x) /\ inr U (sb x) /\ inr U (sa y) /\ sb y = sa x) ->
    zero_transcript i wi = zero_transcript (next i) wj ->
    forall n x y, nth_error wi n = Some x -> nth_error wj n = Some y -> (sa x + sb x + sa y) mod 2 ^ U = 0.
  Proof.
    revert wj. induction wi as [|w wi IH]; intros [|w' wj] Hl HR HE n x y Hx Hy; try discriminate; [destruct n; discriminate|].
    unfold zero_transcript in HE. cbn [flat_map] in HE.
    assert (LL : forall i w, length (zero_bytes i U w) = (3 * nbytes U)%nat)
      by (intros []; intros; cbn [zero_bytes]; rewrite !app_length, !hash_bytes_length; lia).
    apply app_inj_len in HE; [|rewrite !LL; reflexivity]. destruct HE as [E1 E2].
    destruct n as [|n].
    - cbn in Hx, Hy. injection Hx as ->. injection Hy as ->. destruct (HR 0%nat x y eq_refl eq_refl) as (R1 & R2 & R3 & R4).
      assert (RN : forall a b, inr U (rsub U (rneg U a) b)) by (intros; apply (inr_mod U); apply in_widths_pos in HU; lia).
      assert (EQ : rsub U (rneg U (sa x)) (sb x) = sa y).
      { destruct i; cbn [zero_bytes next] in E1; rewrite R4 in E1;
          repeat (apply app_inj_len in E1; [|rewrite !hash_bytes_length; reflexivity]; let A := fresh in destruct E1 as [A E1]);
          repeat match goal with X : hash_bytes U _ = hash_bytes U _ |- _ => apply hash_bytes_inj in X; auto end. }
      rewrite <- EQ. rewrite <- (Zmod_0_l (2 ^ U)). modring.
    - apply (IH wj ltac:(injection Hl; auto)) with (n := n); auto. intros m x0 y0 Hm1 Hm2. apply (HR (S m) x0 y0); assumption.
  Qed.
  (** i and i+1 honest, the third party arbitrary: if i accepts, all check values are zero, or the two
      transcripts collide. *)
  Theorem zero_detect (P : pid -> prog (ST * unit)) i wi wj (si sj : ST) sched c r :
    length wi = length wj ->
    (forall n x y, nth_error wi n = Some x -> nth_error wj n = Some y -> inr U (sa x) /\ inr U (sb x) /\ inr U (sa y) /\ sb y = sa x) ->
    P i = zero_verify G H i U wi si -> P (next i) = zero_verify G H (next i) U wj sj ->
    steps sched (start P) c -> (get (progs c) i = Ret r \/ get (progs c) (next i) = Ret r) ->
    (forall n x y, nth_error wi n = Some x -> nth_error wj n = Some y -> (sa x + sb x + sa y) mod 2 ^ U = 0) \/
    collision H (zero_transcript i wi) (zero_transcript (next i) wj).
  Proof using HU.
    intros Hl HR Ei Ej Hst Hret. destruct (project P sched c Hst) as (tr & L & Q).
    assert (Hne : i <> next i) by (destruct i; discriminate).
    pose proof (L i) as Li. pose proof (L (next i)) as Lj. rewrite Ei in Li. rewrite Ej in Lj.
    assert (EH : hfun H (zero_transcript i wi) = hfun H (zero_transcript (next i) wj)).
    { destruct Hret as [Hret|Hret].
      - rewrite Hret in Li. pose proof (zero_verify_rcvd i (next i) wi si _ _ Hne Li) as R.
        specialize (Q (next i) i). rewrite R in Q. destruct (zero_verify_sent (next i) i wj sj _ _ (not_eq_sym Hne) Lj) as [E|E]; rewrite E in Q; [discriminate|].
        injection Q as Q _. exact Q.
      - rewrite Hret in Lj. pose proof (zero_verify_rcvd (next i) i wj sj _ _ (not_eq_sym Hne) Lj) as R.
        specialize (Q i (next i)). rewrite R in Q. destruct (zero_verify_sent i (next i) wi si _ _ Hne Li) as [E|E]; rewrite E in Q; [discriminate|].
        injection Q as Q _. symmetry. exact Q. }
    destruct (list_eq_dec Z.eq_dec (zero_transcript i wi) (zero_transcript (next i) wj)) as [E|E]; [left|right; split; assumption].
    apply (transcripts_zero i wi wj Hl HR E).
  Qed.
End Zero.
