(** Coefficients of sums, differences, products and quotients. *)
From Coq Require Import Ring Setoid Morphisms.
From Verif Require Import Base Ring RingProofs Gf2 Poly PolyProofs PolyRing PolyDiv GaloisSpec.
Local Open Scope list_scope.
Lemma zeq_mod K a b : zeq K a b <-> a mod 2 ^ K = b mod 2 ^ K. Proof. reflexivity. Qed.
Lemma row_nth K a q i : 0 < K -> nth i (map (fun b => rmul K a b) q) 0 mod 2 ^ K = (a * nth i q 0) mod 2 ^ K.
Proof.
  intros HK. revert i. induction q as [|b q IH]; intros [|i]; cbn [map nth]; rewrite ?Z.mul_0_r; try reflexivity; [|apply IH].
  unfold rmul. apply Zmod_mod.
Qed.
Lemma p_conv_nth K p q : 0 < K -> forall i, nth i (p_conv (zk_ops K) p q) 0 mod 2 ^ K = conv p q i mod 2 ^ K.
Proof.
  intros HK. induction p as [|a p IH]; intros i; [destruct i; reflexivity|]. cbn [p_conv conv].
  rewrite (co_addz K HK). rewrite Zplus_mod. change (omul (zk_ops K)) with (rmul K). rewrite row_nth by exact HK.
  destruct i as [|i]; cbn [nth]; [rewrite <- Zplus_mod; reflexivity|]. rewrite IH, <- Zplus_mod. reflexivity.
Qed.
Lemma poly_ops K p q i : 0 < K ->
  nth i (p_add (zk_ops K) p q) 0 mod 2 ^ K = (nth i p 0 + nth i q 0) mod 2 ^ K /\
  nth i (p_sub (zk_ops K) p q) 0 mod 2 ^ K = (nth i p 0 - nth i q 0) mod 2 ^ K /\
  nth i (p_mul (zk_ops K) p q) 0 mod 2 ^ K = conv p q i mod 2 ^ K.
Proof.
  intros HK. split; [apply co_addz, HK|]. split.
  - etransitivity; [exact (co_sub (zk_ops K) (zeq K) (inr K) (zk_ring_ok K HK) p q i)|]. apply Zmod_mod.
  - etransitivity; [exact (mul_conv (zk_ops K) (zeq K) (inr K) (zk_ring_ok K HK) p q i)|]. apply p_conv_nth, HK.
Qed.
Lemma division_ok K p q lead : In K [8; 16; 32; 64] -> Forall (inr K) p -> inr K lead -> Z.odd lead = true ->
  exists quo rem, long_division K p (q ++ [lead]) = Ok (quo, rem) /\
    (forall i, nth i p 0 = (conv quo (q ++ [lead]) i + nth i rem 0) mod 2 ^ K) /\
    (length rem <= length q)%nat /\ Forall (inr K) quo /\ Forall (inr K) rem.
Proof.
  intros HK Wp Wl Ho. assert (HKp : 0 < K) by (clear - HK; cbn in HK; lia). destruct (inverse_odd K lead HK Wl Ho) as (v & Ev & _ & E).
  destruct (long_division_ok K HKp p q lead v Wp) as (quo & rem & ED & P & L & W1 & W2); [intros ->; discriminate Ho|exact Ev|unfold zeq; rewrite E; reflexivity|].
  exists quo, rem. split; [exact ED|]. split; [|auto]. intros i. specialize (P i). cbn [o0 zk_ops] in P. unfold zeq in P. rewrite (co_addz K HKp) in P.
  rewrite Zplus_mod, (proj2 (proj2 (poly_ops K quo (q ++ [lead]) i HKp))), <- Zplus_mod in P. rewrite <- P. symmetry. apply Z.mod_small. apply (nth_inr K HKp), Wp.
Qed.
Lemma division_even K p q lead : In K [1; 8; 16; 32; 64] -> inr K lead -> lead <> 0 -> Z.odd lead = false -> long_division K p (q ++ [lead]) = Err ENoInverse.
Proof.
  intros HK Wl Hl Ho. unfold long_division. rewrite (degree_last K q lead Hl), nth_error_app2, Nat.sub_diag by lia. cbn [nth_error]. rewrite (inverse_even K lead HK Wl Ho). reflexivity.
Qed.
Lemma division_zero K p n : In K [1; 8; 16; 32; 64] -> long_division K p (repeat 0 (S n)) = Err ENoInverse /\ long_division K p [] = Err EPanic.
Proof.
  intros HK. assert (HKp : 0 < K) by (clear - HK; cbn in HK; lia). split; [|reflexivity]. unfold long_division.
  assert (E : p_degree (zk_ops K) (repeat 0 (S n)) = 0%nat).
  { cbn [repeat p_degree]. assert (X : p_iszero (zk_ops K) (repeat 0 n) = true) by (apply (iszero_iff K); intros i; apply nth_repeat). rewrite X. reflexivity. }
  rewrite E. cbn [repeat nth_error]. rewrite (inverse_even K 0 HK); [reflexivity| |reflexivity]. unfold inr. clear - HKp. split; [lia|]. apply Z.pow_pos_nonneg; lia.
Qed.
