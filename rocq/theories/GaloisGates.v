(** Multiplication and inner product gates as inputs of the proofs over Galois rings. *)
From Coq Require Import Ring Setoid Morphisms Nnat.
From Verif Require Import Base Ring RingProofs Poly PolyProofs PolyRing PolyDiv PolyRem PolyPar Galois GaloisSpec GaloisPoints GaloisDzkp GaloisSound Swift3 Dzkp DzkpProofs DzkpCircuits DzkpSound DzkpSpec IrisProofs Aby3Proofs.
Local Open Scope list_scope.

Notation const := (fun x : Z => [x]).
Section Gates.
  Variable K : Z.
  Hypothesis HS : In K small_widths.
  Notation HW := (small_in K HS).
  Notation HK := (widths_pos K HW).
  Variables (m : nat) (f : list Z).
  Notation d := (mod_degree m).
  Hypothesis Hf : irreducible_poly d = Ok f.
  Notation req := (req K d f).
  Notation wf := (Forall (inr K)).
  Notation G := (galois_ok K HS d f).
  Notation O := (pz_ops K).
  Notation PR := (poly_ring_ok (zk_ops K) (zeq K) (inr K) (zk_ring_ok K HK)).
  Notation peq := (peq (zk_ops K) (zeq K)).
  Infix "=p=" := peq (at level 70).
  Local Instance req_equiv10 : Equivalence req := rk_equiv _ _ _ G.
  Local Instance peq_equiv10 : Equivalence peq := rk_equiv _ _ _ PR.
  Local Instance padd_proper10 : Proper (peq ==> peq ==> peq) (p_add (zk_ops K)) := Radd_ext (rk_ext _ _ _ PR).
  Local Instance pmul_proper10 : Proper (peq ==> peq ==> peq) (p_mul (zk_ops K)) := Rmul_ext (rk_ext _ _ _ PR).
  Local Instance psub_proper10 : Proper (peq ==> peq ==> peq) (p_sub (zk_ops K)) := sub_proper (pops (zk_ops K)) peq (Forall (inr K)) PR.

  Lemma const_nth xs i : nth i (map const xs) [] =p= [nth i xs 0].
  Proof using. revert i. induction xs as [|x xs IH]; intros [|i]; try (intros [|[|k]]; reflexivity). apply IH. Qed.
  Lemma const_add a b : [radd K a b] =p= p_add (zk_ops K) [a] [b]. Proof using. intros [|[|i]]; reflexivity. Qed.
  Lemma const_zero e : inr K e -> (req [e] [] <-> e = 0).
  Proof using HS Hf.
    intros We. destruct (f_split K HS d f Hf) as (_ & Ll & _ & _ & _ & R). split.
    - intros H. assert (P : [e] =p= []) by (apply (small_eq K HW (low d f)); [cbn; lia|cbn; lia|exact H]). apply (inr_eq K); [exact We|apply (rk_wf0 _ _ _ (zk_ring_ok K HK))|exact (P 0%nat)].
    - intros ->. apply (geq_of K HW). intros [|[|i]]; reflexivity.
  Qed.
  Lemma c_mul_const xs : c_mul (list Z) O (map const xs) =p= [c_mul Z (zk_ops K) xs].
  Proof using HS.
    unfold c_mul. cbn [o0 oadd osub omul pz_ops pops zk_ops].
    rewrite !const_nth. rewrite <- !(const_mul K HK), <- !const_add. rewrite <- (const_sub K HK). reflexivity.
  Qed.
  Lemma c_dot_const dot xs : c_dot dot (list Z) O (map const xs) =p= [c_dot dot Z (zk_ops K) xs].
  Proof using HS.
    unfold c_dot. cbn [o0 oadd osub omul pz_ops pops zk_ops].
    assert (I : p_sub (zk_ops K) (nth (4 * dot) (map const xs) []) (nth (4 * dot + 1) (map const xs) []) =p= [rsub K (nth (4 * dot) xs 0) (nth (4 * dot + 1) xs 0)]) by (rewrite !const_nth; reflexivity).
    revert I. generalize (rsub K (nth (4 * dot) xs 0) (nth (4 * dot + 1) xs 0)) as c. generalize (p_sub (zk_ops K) (nth (4 * dot) (map const xs) []) (nth (4 * dot + 1) (map const xs) [])) as p. generalize (seq 0 dot) as is.
    induction is as [|i is IH]; intros p c I; cbn [fold_left]; [exact I|]. apply IH.
    rewrite I, !const_nth, <- !(const_mul K HK), <- !const_add. reflexivity.
  Qed.
  Lemma c_mul_inr xs : inr K (c_mul Z (zk_ops K) xs).
  Proof using HS. unfold c_mul. cbn [osub zk_ops]. apply Z.mod_pos_bound, Z.pow_pos_nonneg; [lia|]. pose proof HK. lia. Qed.
  Lemma mod_inr x : inr K (x mod 2 ^ K).
  Proof using HS. apply Z.mod_pos_bound, Z.pow_pos_nonneg; [lia|]. pose proof HK. lia. Qed.
  Lemma c_dot_inr dot xs : inr K (c_dot dot Z (zk_ops K) xs).
  Proof using HS.
    unfold c_dot. cbn [oadd osub omul zk_ops o0]. assert (I : inr K (rsub K (nth (4 * dot) xs 0) (nth (4 * dot + 1) xs 0))) by apply mod_inr. revert I.
    generalize (rsub K (nth (4 * dot) xs 0) (nth (4 * dot + 1) xs 0)) as c. generalize (seq 0 dot) as is. induction is as [|i is IH]; intros c I; cbn [fold_left]; [exact I|]. apply IH, mod_inr.
  Qed.

  (** ** Correct gates *)
  Lemma mod_eq_zero a b : inr K ((a - b) mod 2 ^ K) -> ((a - b) mod 2 ^ K = 0 <-> b mod 2 ^ K = a mod 2 ^ K).
  Proof using HS.
    intros _. assert (2 ^ K <> 0) by (apply Z.pow_nonzero; [lia|pose proof HK; lia]). split.
    - intros E. apply Z.mod_divide in E; [|assumption]. destruct E as [k E]. replace a with (b + k * 2 ^ K) by lia. symmetry. apply Z_mod_plus_full.
    - intros E. rewrite Zminus_mod, E, Z.sub_diag. apply Zmod_0_l.
  Qed.
  Lemma mul_gate g : req (c_mul (list Z) O (mul_inputs g)) [] <-> mul_correct K g.
  Proof using HS Hf.
    unfold mul_inputs. assert (E : req (c_mul (list Z) O (map const [p_a0 g; p_a1 g; p_b0 g; p_b1 g; p_r g; p_s g])) [c_mul Z (zk_ops K) [p_a0 g; p_a1 g; p_b0 g; p_b1 g; p_r g; p_s g]]) by (apply (geq_of K HW), c_mul_const).
    rewrite E, const_zero by apply c_mul_inr. unfold mul_correct. unfold c_mul. cbn [nth oadd osub omul zk_ops o0].
    assert (X : rsub K (radd K (radd K (radd K (rmul K (p_a0 g) (p_b0 g)) (rmul K (p_a0 g) (p_b1 g))) (rmul K (p_a1 g) (p_b0 g))) (p_r g)) (p_s g)
      = (p_a0 g * p_b0 g + p_a0 g * p_b1 g + p_a1 g * p_b0 g + p_r g - p_s g) mod 2 ^ K) by modring.
    rewrite X. apply mod_eq_zero. apply mod_inr.
  Qed.
  Definition tsum (dot : nat) (t : nat -> Z) : Z := fold_right Z.add 0 (map t (seq 0 dot)).
  Lemma zdot_nth a : forall b, length a = length b -> zdot a b = tsum (length a) (fun i => nth i a 0 * nth i b 0).
  Proof using.
    unfold zdot, tsum. induction a as [|x a IH]; intros [|y b] L; try discriminate; [reflexivity|]. cbn [map2 fold_right length seq map nth]. rewrite IH by (cbn in L; lia).
    rewrite <- seq_shift, map_map. reflexivity.
  Qed.
  Lemma tsum_add dot t u : tsum dot (fun i => t i + u i) = tsum dot t + tsum dot u.
  Proof using. unfold tsum. induction (seq 0 dot) as [|i is IH]; [reflexivity|]. cbn [map fold_right]. rewrite IH. ring. Qed.
  Lemma tsum_ext dot t u : (forall i, (i < dot)%nat -> t i = u i) -> tsum dot t = tsum dot u.
  Proof using.
    intros H. unfold tsum. f_equal. apply map_ext_in. intros i Hi. apply in_seq in Hi. apply H. clear - Hi. lia.
  Qed.
  Lemma fold_tsum (t : nat -> Z) dot c : fold_left (fun r i => radd K r (t i)) (seq 0 dot) c mod 2 ^ K = (c + tsum dot t) mod 2 ^ K.
  Proof using.
    unfold tsum. revert c. induction (seq 0 dot) as [|i is IH]; intros c; cbn [fold_left map fold_right]; [f_equal; ring|]. rewrite IH. unfold radd. rewrite Zplus_mod_idemp_l. f_equal. ring.
  Qed.
  Lemma tsum_mod dot t u : (forall i, t i mod 2 ^ K = u i mod 2 ^ K) -> tsum dot t mod 2 ^ K = tsum dot u mod 2 ^ K.
  Proof using. intros H. unfold tsum. induction (seq 0 dot) as [|i is IH]; [reflexivity|]. cbn [map fold_right]. rewrite Zplus_mod, H, IH, <- Zplus_mod. reflexivity. Qed.
  Lemma dot_gate dot g : dot_wf K dot g -> (req (c_dot dot (list Z) O (dot_inputs g)) [] <-> dot_correct K g).
  Proof using HS Hf.
    intros (HL & Wr & Ws). unfold dot_inputs. set (xs := d_a0 g ++ d_a1 g ++ d_b0 g ++ d_b1 g ++ [d_r g; d_s g]).
    assert (E : req (c_dot dot (list Z) O (map const xs)) [c_dot dot Z (zk_ops K) xs]) by (apply (geq_of K HW), c_dot_const).
    rewrite E, const_zero by apply c_dot_inr.
    inversion_clear HL as [|? ? [L1 W1] HL1]. inversion_clear HL1 as [|? ? [L2 W2] HL2]. inversion_clear HL2 as [|? ? [L3 W3] HL3]. inversion_clear HL3 as [|? ? [L4 W4] _].
    assert (N0 : forall i, (i < dot)%nat -> nth i xs 0 = nth i (d_a0 g) 0) by (intros i Hi; unfold xs; rewrite app_nth1 by (rewrite L1; exact Hi); reflexivity).
    assert (N1 : forall i, (i < dot)%nat -> nth (dot + i) xs 0 = nth i (d_a1 g) 0).
    { intros i Hi. unfold xs. rewrite app_nth2, L1 by (rewrite L1; clear; lia). replace (dot + i - dot)%nat with i by (clear; lia). rewrite app_nth1 by (rewrite L2; exact Hi). reflexivity. }
    assert (N2 : forall i, (i < dot)%nat -> nth (2 * dot + i) xs 0 = nth i (d_b0 g) 0).
    { intros i Hi. unfold xs. rewrite app_nth2, L1 by (rewrite L1; clear; lia). rewrite app_nth2, L2 by (rewrite L2; clear; lia). replace (2 * dot + i - dot - dot)%nat with i by (clear; lia). rewrite app_nth1 by (rewrite L3; exact Hi). reflexivity. }
    assert (N3 : forall i, (i < dot)%nat -> nth (3 * dot + i) xs 0 = nth i (d_b1 g) 0).
    { intros i Hi. unfold xs. rewrite app_nth2, L1 by (rewrite L1; clear; lia). rewrite app_nth2, L2 by (rewrite L2; clear; lia). rewrite app_nth2, L3 by (rewrite L3; clear; lia). replace (3 * dot + i - dot - dot - dot)%nat with i by (clear; lia). rewrite app_nth1 by (rewrite L4; exact Hi). reflexivity. }
    assert (N4 : nth (4 * dot) xs 0 = d_r g /\ nth (4 * dot + 1) xs 0 = d_s g).
    { unfold xs. split; (rewrite app_nth2, L1 by (rewrite L1; clear; lia); rewrite app_nth2, L2 by (rewrite L2; clear; lia); rewrite app_nth2, L3 by (rewrite L3; clear; lia); rewrite app_nth2, L4 by (rewrite L4; clear; lia)).
      - replace (4 * dot - dot - dot - dot - dot)%nat with 0%nat by (clear; lia). reflexivity.
      - replace (4 * dot + 1 - dot - dot - dot - dot)%nat with 1%nat by (clear; lia). reflexivity. }
    assert (X : c_dot dot Z (zk_ops K) xs = (zdot (d_a0 g) (d_b0 g) + zdot (d_a0 g) (d_b1 g) + zdot (d_a1 g) (d_b0 g) + d_r g - d_s g) mod 2 ^ K).
    { rewrite <- (Z.mod_small (c_dot dot Z (zk_ops K) xs) (2 ^ K)) by apply c_dot_inr. unfold c_dot. cbn [oadd osub omul zk_ops o0]. destruct N4 as [-> ->].
      rewrite (fold_tsum (fun i => radd K (radd K (rmul K (nth i xs 0) (nth (2 * dot + i) xs 0)) (rmul K (nth i xs 0) (nth (3 * dot + i) xs 0))) (rmul K (nth (dot + i) xs 0) (nth (2 * dot + i) xs 0)))).
      rewrite Zplus_mod. rewrite (tsum_mod dot _ (fun i => nth i xs 0 * nth (2 * dot + i) xs 0 + nth i xs 0 * nth (3 * dot + i) xs 0 + nth (dot + i) xs 0 * nth (2 * dot + i) xs 0)) by (intros i; modring).
      rewrite (tsum_ext dot _ (fun i => nth i (d_a0 g) 0 * nth i (d_b0 g) 0 + nth i (d_a0 g) 0 * nth i (d_b1 g) 0 + nth i (d_a1 g) 0 * nth i (d_b0 g) 0)) by (intros i Hi; rewrite N0, N1, N2, N3 by exact Hi; reflexivity).
      rewrite !zdot_nth by congruence. rewrite !L1, !L2. rewrite (tsum_add dot (fun i => nth i (d_a0 g) 0 * nth i (d_b0 g) 0 + nth i (d_a0 g) 0 * nth i (d_b1 g) 0)), (tsum_add dot (fun i => nth i (d_a0 g) 0 * nth i (d_b0 g) 0)).
      unfold rsub. rewrite Zmod_mod, <- Zplus_mod. f_equal. ring. }
    rewrite X. unfold dot_correct. apply mod_eq_zero, mod_inr.
  Qed.
End Gates.
