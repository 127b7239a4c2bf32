(** Arithmetic of the triple budget for chunks of a multiple of 128 entries. *)
From Verif Require Import Base Ring TripleSpec.
From Coq Require Import ZifyBool.

Section Aligned.
  Variables (K m : Z).
  Hypothesis (HK : 3 <= K) (Hm : 1 <= m).
  Let c := 128 * m.
  Let k := 2 * K - 2.

  Lemma words_split n : 0 <= n -> words n = n / c * m + words (n mod c).
  Proof using All.
    intros Hn. unfold words. rewrite (Z.div_mod n c) at 1 by (unfold c; lia).
    replace (c * (n / c) + n mod c + 127) with (n mod c + 127 + (n / c * m) * 128) by (unfold c; ring).
    rewrite Z.div_add by lia. ring.
  Qed.
  Lemma words_c : words c = m.
  Proof using All. unfold words, c. replace (128 * m + 127) with (127 + m * 128) by ring. rewrite Z.div_add by lia. reflexivity. Qed.
  Lemma gates_eq n : 0 <= n -> gate_words K n c = k * words n.
  Proof using All. intros Hn. unfold gate_words, k. rewrite words_c, <- words_split by exact Hn. ring. Qed.
  Lemma words_mul a : words (a * c) = a * m.
  Proof using All. unfold words, c. replace (a * (128 * m) + 127) with (127 + a * m * 128) by ring. rewrite Z.div_add by lia. cbn. ring. Qed.
  (** Three cases by the last chunk: full, one entry, anything else. *)
  Lemma asked_eq' n : 1 <= n ->
    asked_words K n c = (if n mod c =? 0 then n / c else n / c + 1) * m * (2 * K - 3) +
                        (if (n mod c =? 0) || (n mod c =? 1) && negb (c =? 1) then (if n mod c =? 0 then n / c else n / c) else n / c + 1) * m.
  Proof using All.
    intros Hn. unfold asked_words.
    assert (Hc : 128 <= c) by (unfold c; lia).
    pose proof (Z.mod_pos_bound n c ltac:(lia)) as Ht. pose proof (Z.div_mod n c ltac:(lia)) as Hd.
    set (q := n / c) in *. set (t := n mod c) in *.
    assert (E1 : (n + c - 1) / c = if t =? 0 then q else q + 1).
    { destruct (Z.eqb_spec t 0) as [E|E].
      - symmetry. apply (Z.div_unique _ _ _ (c - 1)); lia.
      - symmetry. apply (Z.div_unique _ _ _ (t - 1)); lia. }
    assert (E2 : (n + c - 2) / c = if (t =? 0) || (t =? 1) && negb (c =? 1) then (if t =? 0 then q else q) else q + 1).
    { destruct (Z.eqb_spec t 0) as [E|E]; cbn [orb].
      - symmetry. apply (Z.div_unique _ _ _ (c - 2)); lia.
      - destruct (Z.eqb_spec t 1) as [E'|E']; cbn [andb orb].
        + replace (c =? 1) with false by lia. cbn [negb]. symmetry. apply (Z.div_unique _ _ _ (c - 1)); lia.
        + symmetry. apply (Z.div_unique _ _ _ (t - 2)); lia. }
    rewrite E1, E2. clear E1 E2.
    match goal with |- words (?u * c * _ + ?v * c) = _ => set (x := u); set (y := v) end.
    replace (x * c * (2 * K - 3) + y * c) with ((x * (2 * K - 3) + y) * c) by ring. rewrite words_mul. ring.
  Qed.
  Lemma words_bound t : 0 <= t < c -> t <> 0 -> 1 <= words t <= m.
  Proof using All.
    intros Ht Hn. unfold words, c in *. split; [apply Z.div_le_lower_bound; lia|]. apply Z.lt_succ_r, Z.div_lt_upper_bound; lia.
  Qed.
  (** The precomputation never asks for less than it needs, unless the chunks have 128 entries and the
      last one has a single entry; and then it is short by one word. *)
  Lemma asked_cases n : 1 <= n ->
    (n mod c <> 1 -> gate_words K n c <= asked_words K n c <= gate_words K n c + k * (m - 1)) /\
    (n mod c = 1 -> asked_words K n c = gate_words K n c + m * (2 * K - 3) - k).
  Proof using All.
    intros Hn. rewrite asked_eq', gates_eq by lia. rewrite words_split by lia.
    assert (Hc : 128 <= c) by (unfold c; lia).
    pose proof (Z.mod_pos_bound n c ltac:(lia)) as Ht. set (q := n / c) in *. set (t := n mod c) in *.
    assert (Hw : t = 0 /\ words t = 0 \/ 0 < t /\ 1 <= words t <= m).
    { destruct (Z.eq_dec t 0) as [E|E]; [left; rewrite E; auto|]. right. split; [lia|]. apply words_bound; assumption. }
    unfold k. split; intros H1.
    - replace (t =? 1) with false by lia. destruct Hw as [[-> ->]|[H2 H3]].
      + cbn [Z.eqb orb]. nia.
      + replace (t =? 0) with false by lia. cbn [orb andb]. nia.
    - rewrite H1. assert (E : words 1 = 1) by reflexivity. rewrite E. cbn [Z.eqb orb andb Pos.eqb].
      replace (c =? 1) with false by lia. cbn [negb]. nia.
  Qed.
  Lemma asked_low n : 1 <= n -> m * (2 * K - 3) <= asked_words K n c /\ (2 <= n -> m * k <= asked_words K n c).
  Proof using All.
    intros Hn. rewrite asked_eq' by lia. assert (Hc : 128 <= c) by (unfold c; lia).
    pose proof (Z.mod_pos_bound n c ltac:(lia)) as Ht. pose proof (Z.div_mod n c ltac:(lia)) as Hd.
    assert (Hq : 0 <= n / c) by (apply Z.div_pos; lia).
    set (q := n / c) in *. set (t := n mod c) in *. unfold k. clearbody q t. clearbody c.
    assert (Ha : 0 <= m * (2 * K - 3)) by nia. replace (m * (2 * K - 2)) with (m * (2 * K - 3) + m) by ring. set (a := m * (2 * K - 3)) in *.
    assert (Em : forall x, x * m * (2 * K - 3) = x * a) by (intros; unfold a; ring). rewrite !Em. clearbody a. clear Em k.
    destruct (Z.eqb_spec t 0) as [E|E]; cbn [orb].
    - assert (1 <= q) by nia. nia.
    - destruct (Z.eqb_spec t 1) as [E'|E']; cbn [andb].
      + replace (c =? 1) with false by lia. cbn [negb]. split; [nia|]. intros H2.
        assert (1 <= q) by nia. nia.
      + nia.
  Qed.

  Lemma leftover_aligned n p : 1 <= n -> 0 <= p <= k * (m - 1) -> p <= asked_words K n c -> (n mod c <> 1 \/ 2 <= m) ->
    exists p', leftover K n c p = Some p' /\ 0 <= p' <= k * (m - 1).
  Proof using All.
    intros Hn Hp Ha Hc. destruct (asked_cases n Hn) as [A1 A2].
    assert (HA : gate_words K n c <= asked_words K n c <= gate_words K n c + k * (m - 1)).
    { destruct (Z.eq_dec (n mod c) 1) as [E|E]; [|apply A1, E]. destruct Hc as [Hc|Hc]; [contradiction|]. rewrite (A2 E). unfold k. nia. }
    unfold leftover, available. cbv zeta. replace (p <=? asked_words K n c) with true by lia.
    unfold batch in *. destruct (Z.leb_spec (Z.max (gate_words K n c) 8192) (p + Z.max (asked_words K n c - p) 8192)) as [H1|H1]; [|lia].
    eexists. split; [reflexivity|]. lia.
  Qed.
End Aligned.

Definition aligned_call (K m : Z) (call : Z * Z) : Prop :=
  snd call = 128 * m /\ 1 <= fst call /\ (fst call = 1 -> m <= 2 * K - 2).
Lemma leftovers_aligned K m calls : 3 <= K -> 2 <= m -> Forall (aligned_call K m) calls ->
  forall p, 0 <= p <= (2 * K - 2) * (m - 1) -> exists p', leftovers K calls p = Some p'.
Proof.
  intros HK Hm HF. induction HF as [|[n c] calls (H1 & H2 & H3) HF IH]; intros p Hp; [eexists; reflexivity|].
  cbn [fst snd] in *. subst c. cbn [leftovers].
  destruct (leftover_aligned K m HK ltac:(lia) n p H2 Hp) as (p' & E & Hp'); [|lia|rewrite E; apply IH, Hp'].
  destruct (asked_low K m HK ltac:(lia) n H2) as [A1 A2]. destruct (Z.eq_dec n 1) as [E|E]; [specialize (H3 E)|specialize (A2 ltac:(lia))]; nia.
Qed.
(** Chunks of 128: exactly the calls that need more than one batch and whose last chunk has a single
    entry fail. *)
Definition fits128 (K n : Z) : Prop := n mod 128 <> 1 \/ gate_words K n 128 <= batch.
Lemma leftover_128 K n : 3 <= K -> 1 <= n -> leftover K n 128 0 = if (n mod 128 =? 1) && (batch <? gate_words K n 128) then None else Some 0.
Proof.
  intros HK Hn. destruct (asked_cases K 1 HK ltac:(lia) n Hn) as [A1 A2]. change (128 * 1) with 128 in *.
  destruct (asked_low K 1 HK ltac:(lia) n Hn) as [A3 _]. change (128 * 1) with 128 in *.
  unfold leftover, available. cbv zeta. replace (0 <=? asked_words K n 128) with true by lia. unfold batch in *.
  destruct (Z.eqb_spec (n mod 128) 1) as [E|E]; [specialize (A2 E)|specialize (A1 E)].
  - destruct (Z.ltb_spec 8192 (gate_words K n 128)) as [H|H]; cbn [andb].
    + match goal with |- (if ?b then _ else _) = _ => replace b with false by lia end. reflexivity.
    + match goal with |- (if ?b then _ else _) = _ => replace b with true by lia end. f_equal. lia.
  - cbn [andb]. match goal with |- (if ?b then _ else _) = _ => replace b with true by lia end. f_equal. lia.
Qed.
Lemma leftovers_128 K ns : 3 <= K -> Forall (fun n => 1 <= n) ns ->
  (leftovers K (map (fun n => (n, 128)) ns) 0 = None <-> Exists (fun n => n mod 128 = 1 /\ batch < gate_words K n 128) ns).
Proof.
  intros HK HF. induction HF as [|n ns Hn HF IH].
  - cbn. split; [discriminate|]. intros HE. inversion HE.
  - cbn [map leftovers]. rewrite leftover_128 by assumption. rewrite Exists_cons, <- IH.
    destruct (Z.eqb_spec (n mod 128) 1) as [E|E], (Z.ltb_spec batch (gate_words K n 128)) as [H|H]; cbn [andb]; intuition (auto; lia).
Qed.
