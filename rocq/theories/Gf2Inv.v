(** The extended Euclidean algorithm of gf2p64.rs:53-81 inverts modulo an irreducible polynomial of degree at most 63. *)
From Coq Require Import Ring Setoid.
From Verif Require Import Base Gf2 Gf2Proofs Gf2Field Gf2Certs Poly.
Local Open Scope N_scope.

Definition divides (g a : N) : Prop := exists k, a = clmul k g.
Lemma size_lxor a b n : N.size a <= n -> N.size b <= n -> N.size (N.lxor a b) <= n.
Proof. rewrite !size_le. apply lxor_lt. Qed.
Lemma size_clmul_le a b : N.size (clmul a b) <= N.size a + N.size b - 1.
Proof.
  destruct (N.eq_dec a 0) as [->|Ha]; [rewrite clmul_0_l; cbn; lia|]. destruct (N.eq_dec b 0) as [->|Hb]; [cbn; lia|]. pose proof (size_clmul a b Ha Hb). lia.
Qed.
Lemma p64_mul_exact a b : N.size a + N.size b <= 65 -> p64_mul a b = clmul a b.
Proof. intros H. unfold p64_mul. apply N.mod_small. apply size_le. pose proof (size_clmul_le a b). lia. Qed.

Lemma lxor_cancel x y : N.lxor (N.lxor x y) x = y.
Proof. rewrite (N.lxor_comm x y), N.lxor_assoc, N.lxor_nilpotent, N.lxor_0_r. reflexivity. Qed.
Lemma lxor_cancel' x y : N.lxor x (N.lxor x y) = y.
Proof. rewrite <- N.lxor_assoc, N.lxor_nilpotent, N.lxor_0_l. reflexivity. Qed.
Lemma euclid_step_eq r0 r1 : r1 <> 0 -> N.lxor r0 (clmul (cldiv r0 r1) r1) = clmod r0 r1.
Proof. intros H. destruct (cldiv_spec r0 r1 H) as (E & _ & _). rewrite E at 1. apply lxor_cancel. Qed.
Lemma size_pos a : a <> 0 -> 1 <= N.size a.
Proof. intros H. pose proof (proj1 (size_0 a)). destruct (N.eq_dec (N.size a) 0); [tauto|lia]. Qed.
Lemma size_one a : N.size a = 1 -> a = 1.
Proof. destruct a as [|[p|p|]]; cbn; try discriminate; try (intros E; exfalso; injection E; intros; destruct (Pos.size p); discriminate). reflexivity. Qed.

Section Euclid.
  Variables (f a : N).
  Hypothesis Hf : N.size f <= 64.
  Notation "x ~ y" := (cong f x y) (at level 70).
  Lemma euclid_ok fuel : forall r0 r1 s0 s1,
    N.size r1 < N.size r0 -> N.size r0 <= N.size f -> N.size s1 + N.size r0 <= N.size f + 1 -> N.size s0 + N.size r1 <= N.size f ->
    r0 ~ clmul s0 a -> r1 ~ clmul s1 a -> (forall g, divides g r0 -> divides g r1 -> divides g a /\ divides g f) ->
    (N.to_nat (N.size r1) < fuel)%nat ->
    exists r s, p64_euclid fuel r0 r1 s0 s1 = (r, s) /\ r ~ clmul s a /\ divides r a /\ divides r f /\ N.size s <= N.size f.
  Proof.
    induction fuel as [|fuel IH]; intros r0 r1 s0 s1 L1 L0 S1 S0 C0 C1 HD HF; [lia|]. cbn [p64_euclid]. destruct (N.eqb_spec r1 0) as [->|Hr1].
    - exists r0, s0. split; [reflexivity|]. split; [exact C0|]. destruct (HD r0) as [D1 D2]; [exists 1; symmetry; apply clmul_1_l|exists 0; symmetry; apply clmul_0_l|].
      split; [exact D1|]. split; [exact D2|]. cbn in S0. clear - S0. lia.
    - pose proof (size_pos r1 Hr1) as P1. destruct (cldiv_spec r0 r1 Hr1) as (E & M & Q).
      assert (Eq1 : p64_mul (cldiv r0 r1) r1 = clmul (cldiv r0 r1) r1) by (apply p64_mul_exact; clear - Q P1 L1 L0 Hf; lia).
      assert (Eq2 : p64_mul (cldiv r0 r1) s1 = clmul (cldiv r0 r1) s1) by (apply p64_mul_exact; clear - Q P1 L1 L0 Hf S1; lia).
      rewrite Eq1, Eq2, euclid_step_eq by exact Hr1.
      apply IH.
      + exact M.
      + clear - L1 L0. lia.
      + pose proof (size_clmul_le (cldiv r0 r1) s1) as T.
        assert (N.size (N.lxor s0 (clmul (cldiv r0 r1) s1)) <= N.size f + 1 - N.size r1) by (apply size_lxor; clear - T Q L1 L0 P1 S0 S1; lia).
        clear - H L1 L0. lia.
      + clear - M L1 S1. lia.
      + exact C1.
      + rewrite <- euclid_step_eq by exact Hr1. rewrite clmul_dist_l, <- clmul_assoc. apply cong_xor; [exact C0|]. apply cong_mul; [reflexivity|exact C1].
      + intros g [k1 D1] [k2 D2]. apply HD; [|exists k1; exact D1]. rewrite E. exists (N.lxor (clmul (cldiv r0 r1) k1) k2). rewrite D2, D1, clmul_dist_l, clmul_assoc. reflexivity.
      + clear - M HF. lia.
  Qed.
End Euclid.
Lemma divides_one g : divides g 1 -> g = 1.
Proof.
  intros [k E]. assert (k <> 0) by (intros ->; rewrite clmul_0_l in E; discriminate). assert (g <> 0) by (intros ->; discriminate).
  pose proof (size_clmul k g H H0) as S. rewrite <- E in S. pose proof (size_pos k H). pose proof (size_pos g H0). apply size_one. cbn in S. lia.
Qed.
Theorem inv_mod_ok f a : is_field f -> N.size f <= 64 -> a <> 0 -> N.size a < N.size f ->
  cong f (clmul a (inv_mod a f)) 1 /\ N.size (inv_mod a f) <= N.size f.
Proof.
  intros HF Hf Ha Hs. unfold inv_mod, p64_extended_euclid_rev. destruct (euclid_ok f a Hf 66 f a 0 1) as (r & s & E & C & D1 & D2 & S).
  - exact Hs.
  - lia.
  - change (N.size 1) with 1. lia.
  - change (N.size 0) with 0. lia.
  - rewrite clmul_0_l. exists 1. rewrite clmul_1_l. apply N.lxor_0_r.
  - rewrite clmul_1_l. reflexivity.
  - intros g G1 G2. auto.
  - lia.
  - rewrite E. cbn [snd]. split; [|exact S].
    assert (r = 1).
    { destruct (HF a) as [b [k B]]; [intros C0; apply Ha; apply (cong_eq f); [exact Hs|cbn; pose proof (size_pos a Ha); lia|exact C0]|].
      apply divides_one. destruct D1 as [k1 D1], D2 as [k2 D2]. exists (N.lxor (clmul b k1) (clmul k k2)).
      rewrite clmul_dist_l, <- !clmul_assoc, <- D1, <- D2, (clmul_comm b a), <- B. symmetry. apply lxor_cancel'. }
    subst r. rewrite clmul_comm. symmetry. exact C.
Qed.

(** The moduli of irreducible_polys.rs. *)
Lemma irreducible_field d v : irreducible d = Ok v -> is_field v /\ N.size v = N.of_nat d + 1 /\ (40 <= d <= 63)%nat.
Proof.
  unfold irreducible. destruct (Nat.ltb_spec d 40) as [|Hd]; [discriminate|]. destruct (Nat.leb_spec d 63) as [Hd'|Hd'].
  - assert (E : exists e, (d = 40 + e /\ e < 24)%nat) by (exists (d - 40)%nat; lia). destruct E as (e & -> & He). replace (40 + e - 40)%nat with e by lia.
    intros H. do 24 (destruct e as [|e]; [cbn [nth_error irreducibles] in H; injection H as <-; split; [|split; [reflexivity|lia]]; first
      [ exact (certified_field _ 40%nat cert40 cert40_ok ltac:(lia))
      | exact (certified_field _ 41%nat cert41 cert41_ok ltac:(lia))
      | exact (certified_field _ 42%nat cert42 cert42_ok ltac:(lia))
      | exact (certified_field _ 43%nat cert43 cert43_ok ltac:(lia))
      | exact (certified_field _ 44%nat cert44 cert44_ok ltac:(lia))
      | exact (certified_field _ 45%nat cert45 cert45_ok ltac:(lia))
      | exact (certified_field _ 46%nat cert46 cert46_ok ltac:(lia))
      | exact (certified_field _ 47%nat cert47 cert47_ok ltac:(lia))
      | exact (certified_field _ 48%nat cert48 cert48_ok ltac:(lia))
      | exact (certified_field _ 49%nat cert49 cert49_ok ltac:(lia))
      | exact (certified_field _ 50%nat cert50 cert50_ok ltac:(lia))
      | exact (certified_field _ 51%nat cert51 cert51_ok ltac:(lia))
      | exact (certified_field _ 52%nat cert52 cert52_ok ltac:(lia))
      | exact (certified_field _ 53%nat cert53 cert53_ok ltac:(lia))
      | exact (certified_field _ 54%nat cert54 cert54_ok ltac:(lia))
      | exact (certified_field _ 55%nat cert55 cert55_ok ltac:(lia))
      | exact (certified_field _ 56%nat cert56 cert56_ok ltac:(lia))
      | exact (certified_field _ 57%nat cert57 cert57_ok ltac:(lia))
      | exact (certified_field _ 58%nat cert58 cert58_ok ltac:(lia))
      | exact (certified_field _ 59%nat cert59 cert59_ok ltac:(lia))
      | exact (certified_field _ 60%nat cert60 cert60_ok ltac:(lia))
      | exact (certified_field _ 61%nat cert61 cert61_ok ltac:(lia))
      | exact (certified_field _ 62%nat cert62 cert62_ok ltac:(lia))
      | exact (certified_field _ 63%nat cert63 cert63_ok ltac:(lia))
      ]|]). lia.
  - replace (nth_error irreducibles (d - 40)) with (@None N); [discriminate|]. symmetry. apply nth_error_None. change (length irreducibles) with 24%nat. lia.
Qed.
