(** How many (key, coefficient) pairs let an additive error pass the batched MAC check. *)
From Verif Require Import Base Ring RingProofs Aby3 BitArith BinProofs MpcSpec ShareSpec Aby3Proofs SacrificeProofs MacSpec.
From Coq Require Import ZifyBool ZifyNat Znumtheory FinFun.

Lemma filter_split {X} (f : X -> bool) l : (length l = length (filter f l) + length (filter (fun x => negb (f x)) l))%nat.
Proof. induction l as [|x l IH]; cbn; [reflexivity|]. destruct (f x); cbn; lia. Qed.
Lemma filter_filter_le {X} (f g : X -> bool) l : (length (filter f (filter g l)) <= length (filter f l))%nat.
Proof. induction l as [|x l IH]; cbn; [lia|]. destruct (g x); cbn; destruct (f x); cbn; lia. Qed.
Lemma by_key {X} (f : X -> Z) (N : nat) keys : forall l,
  (forall x, In x l -> In (f x) keys) -> (forall k, In k keys -> (length (filter (fun x => f x =? k)%Z l) <= N)%nat) -> (length l <= length keys * N)%nat.
Proof.
  induction keys as [|k keys IH]; intros l HI HN.
  - destruct l as [|x l]; cbn; [lia|]. destruct (HI x (or_introl eq_refl)).
  - rewrite (filter_split (fun x => f x =? k)%Z l). cbn [length]. pose proof (HN k (or_introl eq_refl)).
    pose proof (IH (filter (fun x => negb (f x =? k)%Z) l)) as I.
    assert ((length (filter (fun x => negb (f x =? k)%Z) l) <= length keys * N)%nat); [apply I|lia].
    + intros x Hx. apply filter_In in Hx. destruct Hx as [Hx E]. destruct (HI x Hx) as [E'|]; [|assumption]. rewrite <- E', Z.eqb_refl in E. discriminate.
    + intros k' Hk'. pose proof (HN k' (or_intror Hk')). pose proof (filter_filter_le (fun x => f x =? k')%Z (fun x => negb (f x =? k)%Z) l). lia.
Qed.
Lemma by_keys {X} (f : X -> Z) (N M : nat) l :
  (forall ks, NoDup ks -> incl ks (map f l) -> (length ks <= M)%nat) -> (forall k, (length (filter (fun x => f x =? k)%Z l) <= N)%nat) -> (length l <= M * N)%nat.
Proof.
  intros HM HN. pose proof (by_key f N (nodup Z.eq_dec (map f l)) l) as B.
  assert ((length (nodup Z.eq_dec (map f l)) <= M)%nat) by (apply HM; [apply NoDup_nodup|intros x Hx; apply nodup_In in Hx; exact Hx]).
  assert ((length l <= length (nodup Z.eq_dec (map f l)) * N)%nat); [|nia].
  apply B; [intros x Hx; apply nodup_In, in_map, Hx|auto].
Qed.
Lemma range_count U l : 0 <= U -> NoDup l -> Forall (inr U) l -> Z.of_nat (length l) <= 2 ^ U.
Proof.
  intros HU ND HF. pose proof (Z.pow_pos_nonneg 2 U ltac:(lia) HU).
  assert (L : (length (map Z.to_nat l) <= length (seq 0 (Z.to_nat (2 ^ U))))%nat).
  { apply NoDup_incl_length.
    - clear - ND HF. induction l as [|x l IH]; cbn; constructor; inversion ND as [|? ? N1 N2]; inversion HF as [|? ? F1 F2]; subst; [|apply IH; assumption].
      intros Hin. apply in_map_iff in Hin. destruct Hin as (y & E & Hin). rewrite Forall_forall in F2. specialize (F2 y Hin). unfold inr in *. assert (x = y) by lia. subst. auto.
    - intros n Hn. apply in_map_iff in Hn. destruct Hn as (x & <- & Hx). rewrite Forall_forall in HF. specialize (HF x Hx). unfold inr in HF. apply in_seq. lia. }
  rewrite map_length, seq_length in L. lia.
Qed.

(** the number of trailing zero bits, at most n *)
Fixpoint tz (n : nat) (u : Z) : Z := match n with O => 0 | S n' => if u mod 2 =? 0 then 1 + tz n' (u / 2) else 0 end.
Lemma tz_spec n u : 0 <= tz n u <= Z.of_nat n /\ u mod 2 ^ tz n u = 0 /\ (tz n u < Z.of_nat n -> u mod 2 ^ (tz n u + 1) <> 0).
Proof.
  revert u. induction n as [|n IH]; intros u; cbn [tz]; [rewrite Z.mod_1_r; lia|].
  destruct (Z.eqb_spec (u mod 2) 0) as [E|E]; [|change (2 ^ 0) with 1; rewrite Z.mod_1_r; change (2 ^ (0 + 1)) with 2; lia].
  destruct (IH (u / 2)) as (R & D & N).
  assert (EU : u = 2 * (u / 2)) by (pose proof (Z.div_mod u 2); lia).
  assert (EQ : forall t, 0 <= t -> u mod 2 ^ (1 + t) = 2 * ((u / 2) mod 2 ^ t)).
  { intros t Ht. rewrite EU at 1. rewrite Z.pow_add_r by lia. change (2 ^ 1) with 2. apply Z.mul_mod_distr_l; [pose proof (Z.pow_pos_nonneg 2 t); lia|lia]. }
  repeat split; try lia. { rewrite EQ, D by lia. reflexivity. }
  intros HL. replace (1 + tz n (u / 2) + 1) with (1 + (tz n (u / 2) + 1)) by lia. rewrite EQ by lia. pose proof (N ltac:(lia)). lia.
Qed.

(** keys r with r d = e up to t bits *)
Lemma keys_count K U d e t rs : 1 <= K <= U -> d mod 2 ^ K <> 0 -> 0 <= t <= U -> NoDup rs ->
  Forall (fun r => inr U r /\ (r * d - e) mod 2 ^ t = 0) rs -> Z.of_nat (length rs) <= 2 ^ (U - t + (K - 1)).
Proof.
  intros HK Hd Ht ND HF. assert (P : forall n, 0 <= n -> 0 < 2 ^ n) by (intros; apply Z.pow_pos_nonneg; lia).
  destruct (Z_lt_le_dec t K) as [HL|HL].
  { transitivity (2 ^ U); [apply range_count; [lia|exact ND|]|apply Z.pow_le_mono_r; lia].
    eapply Forall_impl; [|exact HF]. cbn. tauto. }
  assert (L : (length rs <= Z.to_nat (2 ^ (K - 1)) * Z.to_nat (2 ^ (U - t)))%nat).
  { rewrite Forall_forall in HF. apply (by_keys (fun r => r mod 2 ^ t)).
    - intros ks NK IK. apply Nat2Z.inj_le. rewrite Z2Nat.id by (pose proof (P (K - 1)); lia).
      apply (missed_challenges K t d e); [lia|exact Hd|exact NK|]. apply Forall_forall. intros k Hk. apply IK, in_map_iff in Hk. destruct Hk as (r & <- & Hr).
      destruct (HF r Hr) as [_ E]. split; [apply Z.mod_pos_bound, P; lia|].
      transitivity ((0 - (r * d - e) mod 2 ^ t) mod 2 ^ t); [modring|]. rewrite E. apply Z.mod_0_l. pose proof (P t); lia.
    - intros k. apply Nat2Z.inj_le. rewrite Z2Nat.id by (pose proof (P (U - t)); lia). replace (2 ^ (U - t)) with (2 ^ (U - t + 1 - 1)) by (f_equal; lia).
      apply (missed_challenges (U - t + 1) U (2 ^ (U - t)) (k * 2 ^ (U - t))); [lia| |apply NoDup_filter, ND|].
      + rewrite Z.mod_small; [pose proof (P (U - t)); lia|]. split; [pose proof (P (U - t)); lia|apply Z.pow_lt_mono_r; lia].
      + apply Forall_forall. intros r Hr. apply filter_In in Hr. destruct Hr as [Hr E]. apply Z.eqb_eq in E. split; [apply (HF r Hr)|].
        replace (k * 2 ^ (U - t) - r * 2 ^ (U - t)) with ((k - r) * 2 ^ (U - t)) by ring.
        replace (2 ^ U) with (2 ^ t * 2 ^ (U - t)) by (rewrite <- Z.pow_add_r by lia; f_equal; lia).
        rewrite Z.mul_mod_distr_r by (match goal with |- 2 ^ ?n <> 0 => pose proof (P n); lia end).
        replace ((k - r) mod 2 ^ t) with 0; [lia|]. rewrite <- E. rewrite <- (Zmod_0_l (2 ^ t)). transitivity ((r - r) mod 2 ^ t); [f_equal; lia|modring]. }
  rewrite Z.add_comm, Z.pow_add_r by lia. apply Nat2Z.inj_le in L. rewrite Nat2Z.inj_mul, !Z2Nat.id in L; [lia|pose proof (P (U - t)); lia|pose proof (P (K - 1)); lia].
Qed.

Lemma pairs_count_fun K U d e (g : Z -> Z) l : 1 <= K <= U -> d mod 2 ^ K <> 0 -> NoDup l ->
  Forall (fun rc => inr U (fst rc) /\ inr U (snd rc) /\ (snd rc * (fst rc * d - e) + g (fst rc)) mod 2 ^ U = 0) l ->
  Z.of_nat (length l) <= (U + 1) * 2 ^ (U + K - 1).
Proof.
  intros HK Hd ND HF. assert (P : forall n, 0 <= n -> 0 < 2 ^ n) by (intros; apply Z.pow_pos_nonneg; lia). rewrite Forall_forall in HF.
  set (v := fun rc : Z * Z => tz (Z.to_nat U) (fst rc * d - e)).
  assert (HV : forall rc, 0 <= v rc <= U) by (intros rc; pose proof (proj1 (tz_spec (Z.to_nat U) (fst rc * d - e))) as Bz; unfold v; clear - Bz HK; lia).
  assert (L : (length l <= Z.to_nat (U + 1) * Z.to_nat (2 ^ (U + K - 1)))%nat).
  { replace (Z.to_nat (U + 1)) with (length (map Z.of_nat (seq 0 (Z.to_nat (U + 1))))) by (rewrite map_length, seq_length; reflexivity).
    apply (by_key v).
    { intros rc _. apply in_map_iff. specialize (HV rc). exists (Z.to_nat (v rc)). split; [clear - HV; lia|]. apply in_seq. clear - HV HK; lia. }
    intros t Ht. assert (Rt : 0 <= t <= U) by (apply in_map_iff in Ht; destruct Ht as (n & <- & Hn); apply in_seq in Hn; clear - Hn HK; lia). clear Ht.
    set (lt := filter (fun rc => v rc =? t) l).
    assert (HT : forall rc, In rc lt -> In rc l /\ (fst rc * d - e) mod 2 ^ t = 0 /\ (t < U -> (fst rc * d - e) mod 2 ^ (t + 1) <> 0)).
    { intros rc Hin. apply filter_In in Hin. destruct Hin as [Hin E]. apply Z.eqb_eq in E. unfold v in E.
      destruct (tz_spec (Z.to_nat U) (fst rc * d - e)) as (_ & Q1 & Q2). rewrite E in Q1, Q2. split; [exact Hin|]. split; [exact Q1|]. intros HtU; apply Q2; clear - HtU HK; lia. }
    assert (NT : NoDup lt) by (apply NoDup_filter, ND). clearbody lt.
    replace (Z.to_nat (2 ^ (U + K - 1))) with (Z.to_nat (2 ^ (U - t + (K - 1))) * Z.to_nat (2 ^ t))%nat.
    2: { rewrite <- Z2Nat.inj_mul by (apply Z.pow_nonneg; clear; lia). rewrite <- Z.pow_add_r by (clear - HK Rt; lia). do 2 f_equal. clear; lia. }
    apply (by_keys fst).
    - intros rs NR IR. apply Nat2Z.inj_le. rewrite Z2Nat.id by (apply Z.pow_nonneg; clear; lia).
      apply (keys_count K U d e t rs HK Hd Rt NR). apply Forall_forall. intros r Hr. apply IR, in_map_iff in Hr. destruct Hr as (rc & <- & Hr).
      destruct (HT rc Hr) as (Hl & Q & _). split; [apply (HF rc Hl)|exact Q].
    - intros r. set (lr := filter (fun x => fst x =? r) lt). apply Nat2Z.inj_le. rewrite Z2Nat.id by (apply Z.pow_nonneg; clear; lia).
      assert (HR : forall rc, In rc lr -> fst rc = r /\ In rc lt) by (intros rc Hin; apply filter_In in Hin; destruct Hin; split; [apply Z.eqb_eq; assumption|assumption]).
      assert (NL : NoDup (map snd lr)).
      { assert (NR : NoDup lr) by (apply NoDup_filter, NT). clearbody lr. clear - NR HR. induction lr as [|x lr IH]; [constructor|]. inversion NR; subst. cbn [map]. constructor.
        - intros Hin. apply in_map_iff in Hin. destruct Hin as (y & E & Hin). destruct (HR x (or_introl eq_refl)) as [E1 _]. destruct (HR y (or_intror Hin)) as [E2 _].
          assert (x = y) by (destruct x, y; cbn in *; congruence). subst. auto.
        - apply IH; [intros; apply HR; right; assumption|assumption]. }
      rewrite <- (map_length snd).
      assert (HC : lr = [] \/ exists rc, In rc lr) by (destruct lr as [|rc0 lr']; [left; reflexivity|right; exists rc0; left; reflexivity]).
      destruct HC as [->|[rc0 H0]]; [cbn; apply Z.pow_nonneg; clear; lia|].
      destruct (Z_lt_le_dec t U) as [HL|HL].
      + destruct (HR rc0 H0) as [E0 I0]. destruct (HT rc0 I0) as (_ & _ & Q). specialize (Q HL). rewrite E0 in Q.
        replace t with (t + 1 - 1) by (clear; lia). apply (missed_challenges (t + 1) U (r * d - e) (- g r)); [clear - Rt HL; lia|exact Q|exact NL|].
        apply Forall_forall. intros c Hc. apply in_map_iff in Hc. destruct Hc as (rc & <- & Hc). destruct (HR rc Hc) as [E1 I1]. destruct (HT rc I1) as [I2 _].
        destruct (HF rc I2) as (_ & R2 & Q2). split; [exact R2|]. rewrite E1 in Q2.
        transitivity ((0 - (snd rc * (r * d - e) + g r) mod 2 ^ U) mod 2 ^ U); [modring|]. rewrite Q2. apply Zmod_0_l.
      + replace t with U by (clear - Rt HL; lia). apply range_count; [clear - HK; lia|exact NL|]. apply Forall_forall. intros c Hc. apply in_map_iff in Hc. destruct Hc as (rc & <- & Hc).
        apply HR in Hc. destruct Hc as [_ Hc]. apply HT in Hc. apply (HF rc), Hc. }
  apply Nat2Z.inj_le in L. rewrite Nat2Z.inj_mul, !Z2Nat.id in L; [exact L|apply Z.pow_nonneg; clear; lia|clear - HK; lia].
Qed.

Lemma pairs_count K U d e A B l : 1 <= K <= U -> d mod 2 ^ K <> 0 -> NoDup l ->
  Forall (fun rc => inr U (fst rc) /\ inr U (snd rc) /\ (snd rc * (fst rc * d - e) + A * fst rc + B) mod 2 ^ U = 0) l ->
  Z.of_nat (length l) <= (U + 1) * 2 ^ (U + K - 1).
Proof.
  intros HK Hd ND HF. apply (pairs_count_fun K U d e (fun r => A * r + B) l HK Hd ND). eapply Forall_impl; [|exact HF]. cbn beta. intros rc. rewrite Z.add_assoc. auto.
Qed.
Lemma dotp_cons a b x y : dotp (a :: x) (b :: y) = a * b + dotp x y.
Proof. reflexivity. Qed.
Lemma dotp_with pos c rho zs : (pos < length rho)%nat -> length zs = length rho ->
  dotp (with_coef pos c rho) zs = c * nth pos zs 0 + dotp (with_coef pos 0 rho) zs.
Proof.
  unfold with_coef. revert rho zs. induction pos as [|pos IH]; intros [|x rho] [|z zs] Hp Hl; try discriminate; try (cbn in Hp; lia); try change (skipn (S (S pos)) (x :: rho)) with (skipn (S pos) rho); cbn [firstn app nth]; try change (skipn 1 (x :: rho)) with rho.
  - rewrite !dotp_cons. ring.
  - rewrite !dotp_cons, (IH rho zs) by (cbn in *; lia). ring.
Qed.
Lemma dotp_linear rho ds es r : length ds = length rho -> length es = length rho ->
  dotp rho (map2 (fun d e => d * r - e) ds es) = dotp rho ds * r - dotp rho es.
Proof.
  revert ds es. induction rho as [|x rho IH]; intros [|d ds] [|e es] L1 L2; try discriminate; [reflexivity|]. cbn [map2]. rewrite !dotp_cons, IH by (cbn in *; lia). ring.
Qed.
Lemma with_coef_length pos c rho : (pos < length rho)%nat -> length (with_coef pos c rho) = length rho.
Proof. intros Hp. unfold with_coef. rewrite app_length. cbn [length]. rewrite firstn_length_le, skipn_length by lia. lia. Qed.
Lemma with_coef_id pos rho : (pos < length rho)%nat -> with_coef pos (nth pos rho 0) rho = rho.
Proof.
  unfold with_coef. revert rho. induction pos as [|pos IH]; intros [|x rho] Hp; try (cbn in Hp; lia); try change (skipn (S (S pos)) (x :: rho)) with (skipn (S pos) rho); cbn [firstn app nth]; [reflexivity|]. rewrite IH by (cbn in Hp; lia). reflexivity.
Qed.
Lemma mac_count K U pos rho ds es e0 e1 e2 l : 1 <= K <= U -> (pos < length rho)%nat -> length ds = length rho -> length es = length rho ->
  nth pos ds 0 mod 2 ^ K <> 0 -> NoDup l ->
  Forall (fun rc => inr U (fst rc) /\ inr U (snd rc) /\ mac_relation U (fst rc) (with_coef pos (snd rc) rho) ds es e0 e1 e2) l ->
  Z.of_nat (length l) <= (U + 1) * 2 ^ (U + K - 1).
Proof.
  intros HK Hp Ld Le Hd ND HF.
  apply (pairs_count K U (nth pos ds 0) (nth pos es 0) (dotp (with_coef pos 0 rho) ds + e0) (e2 - e1 - dotp (with_coef pos 0 rho) es) l HK Hd ND).
  eapply Forall_impl; [|exact HF]. intros [r c] (R1 & R2 & E). cbn [fst snd] in *. split; [exact R1|]. split; [exact R2|]. unfold mac_relation in E.
  rewrite dotp_linear, !(dotp_with pos c rho) in E by (rewrite ?with_coef_length; lia). refine (eq_trans _ E). apply (f_equal (fun v => v mod 2 ^ U)). ring.
Qed.
Lemma mac_relation_eq U r rho xs ds es e0 e1 e2 vs ms : length xs = length rho -> length ds = length rho -> length es = length rho ->
  vs = map2 (fun x d => (x + d) mod 2 ^ U) xs ds -> ms = map2 (fun x e => (x * r + e) mod 2 ^ U) xs es ->
  ((dotp vs rho + e0) * r + e2 - (dotp ms rho + e1)) mod 2 ^ U = (dotp rho (map2 (fun d e => d * r - e) ds es) + e0 * r + e2 - e1) mod 2 ^ U.
Proof.
  intros Lx Ld Le -> ->. rewrite dotp_linear by assumption.
  assert (E1 : forall xs ds rho, length xs = length rho -> length ds = length rho -> dotp (map2 (fun x d => (x + d) mod 2 ^ U) xs ds) rho mod 2 ^ U = (dotp rho xs + dotp rho ds) mod 2 ^ U).
  { clear. induction xs as [|x xs IH]; intros [|d ds] [|c rho] L1 L2; try discriminate; [reflexivity|]. cbn [map2]. rewrite !dotp_cons.
    rewrite Zplus_mod, IH, <- Zplus_mod by (cbn in *; lia). modring. }
  assert (E2 : forall xs ds rho, length xs = length rho -> length ds = length rho -> dotp (map2 (fun x d => (x * r + d) mod 2 ^ U) xs ds) rho mod 2 ^ U = (dotp rho xs * r + dotp rho ds) mod 2 ^ U).
  { clear. induction xs as [|x xs IH]; intros [|d ds] [|c rho] L1 L2; try discriminate; [reflexivity|]. cbn [map2]. rewrite !dotp_cons.
    rewrite Zplus_mod, IH, <- Zplus_mod by (cbn in *; lia). modring. }
  specialize (E1 xs ds rho Lx Ld). specialize (E2 xs es rho Lx Le).
  set (a := dotp (map2 _ xs ds) rho) in *. set (b := dotp (map2 _ xs es) rho) in *.
  transitivity (((a mod 2 ^ U + e0) * r + e2 - (b mod 2 ^ U + e1)) mod 2 ^ U); [modring|]. rewrite E1, E2. modring.
Qed.

Definition range_list (U : Z) : list Z := map Z.of_nat (seq 0 (Z.to_nat (2 ^ U))).
Lemma range_list_in U x : inr U x -> In x (range_list U).
Proof. unfold inr. intros Hx. apply in_map_iff. exists (Z.to_nat x). split; [lia|]. apply in_seq. lia. Qed.
Lemma range_list_inr U x : In x (range_list U) -> inr U x.
Proof. intros Hx. apply in_map_iff in Hx. destruct Hx as (n & <- & Hn). apply in_seq in Hn. unfold inr. lia. Qed.
Lemma range_list_nodup U : NoDup (range_list U).
Proof. apply Injective_map_NoDup; [intros x y; apply Nat2Z.inj|apply seq_NoDup]. Qed.
Lemma list_prod_nodup {A B} (l : list A) (m : list B) : NoDup l -> NoDup m -> NoDup (list_prod l m).
Proof.
  intros Hl Hm. induction Hl as [|x l Hx Hl IH]; cbn; [constructor|].
  assert (D : forall a, NoDup (map (fun y : B => (x, y)) m) -> NoDup a -> (forall y, ~ In (x, y) a) -> NoDup (map (fun y : B => (x, y)) m ++ a)).
  { clear. induction m as [|b m IH]; cbn; intros a H1 H2 H3; [exact H2|]. inversion H1; subst. constructor; [|apply IH; assumption].
    intros Hin. apply in_app_or in Hin. destruct Hin as [Hin|Hin]; [auto|apply (H3 b Hin)]. }
  apply D; [apply Injective_map_NoDup; [intros a b E; congruence|exact Hm]|exact IH|].
  intros y Hin. apply in_prod_iff in Hin. apply Hx, Hin.
Qed.
Definition bad_pairs (U : Z) (pos : nat) (rho ds es : list Z) (e0 e1 e2 : Z) : list (Z * Z) :=
  filter (fun rc => (dotp (with_coef pos (snd rc) rho) (map2 (fun d e => d * fst rc - e) ds es) + e0 * fst rc + e2 - e1) mod 2 ^ U =? 0) (list_prod (range_list U) (range_list U)).
Lemma bad_pairs_few K U pos rho ds es e0 e1 e2 : 1 <= K <= U -> (pos < length rho)%nat -> length ds = length rho -> length es = length rho ->
  nth pos ds 0 mod 2 ^ K <> 0 -> Z.of_nat (length (bad_pairs U pos rho ds es e0 e1 e2)) <= (U + 1) * 2 ^ (U + K - 1).
Proof.
  intros HK Hp Ld Le Hd. apply (mac_count K U pos rho ds es e0 e1 e2 _ HK Hp Ld Le Hd).
  - apply NoDup_filter, list_prod_nodup; apply range_list_nodup.
  - apply Forall_forall. intros [r c] Hin. apply filter_In in Hin. destruct Hin as [Hin E]. apply in_prod_iff in Hin. apply Z.eqb_eq in E. cbn [fst snd] in *.
    split; [apply range_list_inr, Hin|]. split; [apply range_list_inr, Hin|]. exact E.
Qed.
Lemma bad_pairs_in U pos r rho rho' ds es e0 e1 e2 : 0 <= U -> (pos < length rho)%nat -> length ds = length rho -> length es = length rho ->
  (forall c, with_coef pos c rho' = with_coef pos c rho) -> inr U r ->
  mac_relation U r rho ds es e0 e1 e2 -> In (r, nth pos rho 0 mod 2 ^ U) (bad_pairs U pos rho' ds es e0 e1 e2).
Proof.
  intros HU Hp Ld Le Hr Rr HM. apply filter_In. cbn [fst snd]. rewrite Hr. split.
  - apply in_prod; apply range_list_in; [exact Rr|]. apply Z.mod_pos_bound, Z.pow_pos_nonneg; lia.
  - apply Z.eqb_eq. unfold mac_relation in HM. rewrite <- (with_coef_id pos rho Hp) in HM.
    assert (LZ : forall q, length (map2 (fun d e => d * q - e) ds es) = length rho) by (intros q; rewrite map2_length_eq; lia).
    rewrite dotp_with in HM |- * by (rewrite ?LZ; lia). refine (eq_trans _ HM). modring.
Qed.
Lemma nth_first {A} (q n : nat) (l : list A) x : (q < n)%nat -> nth q (firstn n l) x = nth q l x.
Proof. revert n l. induction q; intros [|n] [|y l] Hq; cbn; try lia; try reflexivity. apply IHq. lia. Qed.
Lemma nth_skip {A} (q n : nat) (l : list A) x : nth q (skipn n l) x = nth (n + q) l x.
Proof. revert l. induction n; intros [|y l]; cbn [skipn plus nth]; try reflexivity; [destruct q; reflexivity|apply IHn]. Qed.
Lemma with_coef_ext pos c a b : length a = length b -> (forall q, q <> pos -> nth q a 0 = nth q b 0) -> with_coef pos c a = with_coef pos c b.
Proof.
  intros HL Hq. unfold with_coef. apply (f_equal2 (fun x y => x ++ c :: y)).
  - apply nth_ext with (d := 0) (d' := 0); [rewrite !firstn_length; lia|]. intros q Hq'. rewrite firstn_length in Hq'. rewrite !nth_first by lia. apply Hq. lia.
  - apply nth_ext with (d := 0) (d' := 0); [rewrite !skipn_length; lia|]. intros q Hq'. rewrite !nth_skip. apply Hq. lia.
Qed.
