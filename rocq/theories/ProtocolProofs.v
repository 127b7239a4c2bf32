(** The iris protocol over any engine meeting the contract of MpcSpec. *)
From Verif Require Import Base Ring RingProofs Prog Sched Rel BinTrait BitArith BinProofs AddProofs Iris IrisSpec IrisProofs Protocol MpcSpec Aby3Proofs SlicedProofs.
From Coq Require Import ZifyBool ZifyNat.

(** ** Counting by ring arithmetic *)
Lemma map2_map {A B C D} (f : B -> C -> D) (g : A -> B) (h : A -> C) l : map2 f (map g l) (map h l) = map (fun a => f (g a) (h a)) l.
Proof. induction l as [|a l IH]; [reflexivity|]. cbn. rewrite IH. reflexivity. Qed.
Lemma map_as_map2 {A B C} (f : A -> B -> C) l l' : map2 f l l' = map (fun ab => f (fst ab) (snd ab)) (combine l l').
Proof. revert l'. induction l as [|a l IH]; intros [|b l']; cbn; try reflexivity. rewrite IH. reflexivity. Qed.

Lemma code_vals_length c : length (code_vals c) = IRIS_CODE_SIZE.
Proof. unfold code_vals, positions. rewrite !map_length, seq_length. reflexivity. Qed.

Lemma code_vals_bits c : Forall (inr 1) (code_vals c).
Proof. unfold code_vals. rewrite Forall_map. apply Forall_forall. intros p _. destruct (bit_at c p); unfold inr; cbn; lia. Qed.

Definition hd (a b : iris) : Z :=
  let m := mask_bits (code_and (ir_mask a) (ir_mask b)) in
  let x := code_vals (ir_code a) in let y := code_vals (ir_code b) in
  msum x m + msum y m - 2 * mdotp x y m.

Lemma hd_count a b : wf_iris a -> wf_iris b -> hd a b = count (differ a b).
Proof.
  intros [Ha Hma] [Hb Hmb]. unfold hd, mdotp, msum, mask_bits, code_vals, count, differ, both_valid.
  rewrite !map2_map.
  rewrite (map_ext (fun i => if bit_at (code_and (ir_mask a) (ir_mask b)) i then Z.b2z (bit_at (ir_code a) i) else 0)
    (fun i => if bit_at (ir_mask a) i && bit_at (ir_mask b) i then Z.b2z (bit_at (ir_code a) i) else 0)).
  2:{ intros i. rewrite code_and_bit by assumption. reflexivity. }
  rewrite (map_ext (fun i => if bit_at (code_and (ir_mask a) (ir_mask b)) i then Z.b2z (bit_at (ir_code b) i) else 0)
    (fun i => if bit_at (ir_mask a) i && bit_at (ir_mask b) i then Z.b2z (bit_at (ir_code b) i) else 0)).
  2:{ intros i. rewrite code_and_bit by assumption. reflexivity. }
  rewrite (map_ext (fun i => if bit_at (code_and (ir_mask a) (ir_mask b)) i then Z.b2z (bit_at (ir_code a) i) * Z.b2z (bit_at (ir_code b) i) else 0)
    (fun i => if bit_at (ir_mask a) i && bit_at (ir_mask b) i then Z.b2z (bit_at (ir_code a) i) * Z.b2z (bit_at (ir_code b) i) else 0)).
  2:{ intros i. rewrite code_and_bit by assumption. reflexivity. }
  generalize positions. intros l. induction l as [|i l IH]; [reflexivity|].
  cbn [map fold_right filter].
  destruct (bit_at (ir_code a) i), (bit_at (ir_code b) i), (bit_at (ir_mask a) i), (bit_at (ir_mask b) i);
    cbn [andb xorb Z.b2z length]; rewrite ?Nat2Z.inj_succ; lia.
Qed.

(** The ring comparison never wraps for K >= 16. *)
Lemma msb_lt K h t : 16 <= K -> 0 <= h <= 12800 -> 0 <= t <= 12800 ->
  Z.testbit ((h - t) mod 2 ^ K) (K - 1) = (h <? t).
Proof.
  intros HK Hh Ht.
  rewrite Z.testbit_eqb by lia.
  assert (Hp : 2 ^ K = 2 * 2 ^ (K - 1)) by (rewrite <- Z.pow_succ_r by lia; f_equal; lia).
  assert (Hq : 2 ^ 15 <= 2 ^ (K - 1)) by (apply Z.pow_le_mono_r; lia). change (2 ^ 15) with 32768 in Hq.
  destruct (Z.ltb_spec h t) as [H|H].
  - replace ((h - t) mod 2 ^ K) with (h - t + 2 ^ K).
    2:{ apply (Z.mod_unique _ _ (-1)); lia. }
    replace ((h - t + 2 ^ K) / 2 ^ (K - 1)) with 1; [reflexivity|].
    apply (Z.div_unique _ _ 1 (h - t + 2 ^ (K - 1))); lia.
  - rewrite (Z.mod_small (h - t)) by lia. rewrite (Z.div_small (h - t)) by lia. reflexivity.
Qed.

(** Sizes of the chunks a vector of n elements is processed in. *)
Definition chunk_sizes (chunk n : nat) : list nat := map (@length unit) (chunks chunk (repeat tt n)).

Definition triples_requested (K amount chunk_size : Z) : Z :=
  (amount + chunk_size - 1) / chunk_size * chunk_size * (K * 2 - 3)
  + ((amount + chunk_size - 2) / chunk_size) * chunk_size.

Section Contract.
  Context {Gh S A B : Type} (E : pid -> mpc S A B) (K : Z)
  (AR : (pid -> A) -> Z -> Prop) (BR : (pid -> B) -> bool -> Prop) (Inv : Gh -> (pid -> S) -> Prop)
  (g_pre : Z -> Gh -> Gh) (g_dot g_msb : nat -> Gh -> Gh) (g_or : nat -> nat -> Gh -> Gh)
  (ver_ok : Gh -> Prop) (g_ver : Gh -> Gh).
  Hypothesis OK : mpc_ok E K AR BR Inv g_pre g_dot g_msb g_or ver_ok g_ver.
  Hypothesis HK : 16 <= K.
  Variable signed : bool.

  Lemma two_in : inr K 2.
  Proof using HK. unfold inr. assert (2 ^ 16 <= 2 ^ K) by (apply Z.pow_le_mono_r; lia). change (2 ^ 16) with 65536 in H. lia. Qed.
  Lemma try_from_ok n : 0 <= n <= 12800 -> try_from signed K n = Ok n.
  Proof using HK.
    intros Hn. unfold try_from. destruct (Z.ltb_spec n (2 ^ (if signed then K - 1 else K))) as [|H]; [reflexivity|].
    assert (2 ^ 15 <= 2 ^ (if signed then K - 1 else K)) by (apply Z.pow_le_mono_r; destruct signed; lia).
    change (2 ^ 15) with 32768 in H0. lia.
  Qed.

  (** What the parties hold of the query and of a list of database entries. *)
  Definition holds_code (X : pid -> list A) (c : code) : Prop := RL AR X (code_vals c).

  (** masked_hamming_distance_post *)
  Lemma post_ok X Y D a b d : RL AR X (code_vals a) -> RL AR Y (code_vals b) -> AR D d ->
    forall m, wf_code m ->
    exists U, (forall i, masked_hamming_distance_post (E i) signed (X i) (Y i) m (D i) = Ok (U i)) /\
      AR U ((((msum (code_vals a) (mask_bits m) mod 2 ^ K + msum (code_vals b) (mask_bits m) mod 2 ^ K) mod 2 ^ K)
             - (d * 2) mod 2 ^ K) mod 2 ^ K).
  Proof using OK HK.
    intros HX HY HD m Hm.
    destruct (mo_filter _ _ _ _ _ _ _ _ _ _ _ OK X _ Y _ m HX HY (code_vals_length a) (code_vals_length b) (code_vals_bits a) (code_vals_bits b) Hm) as (U & V & HUV & HU & HV).
    exists (fun i => m_sub (E i) (m_add (E i) (U i) (V i)) (m_mul_const (E i) (D i) 2)). split.
    - intros i. unfold masked_hamming_distance_post.
      rewrite (RL_length _ _ _ HX), (RL_length _ _ _ HY), !code_vals_length, Nat.eqb_refl.
      assert (H0 : Nat.eqb IRIS_CODE_SIZE 0 = false) by (apply Nat.eqb_neq; pose proof iris_size_nat; lia).
      rewrite H0. cbn [orb negb rbind]. rewrite HUV. cbn [rbind fst snd].
      rewrite (mo_width _ _ _ _ _ _ _ _ _ _ _ OK), try_from_ok by lia. reflexivity.
    - apply (mo_sub _ _ _ _ _ _ _ _ _ _ _ OK (fun i => m_add (E i) (U i) (V i)) _ (fun i => m_mul_const (E i) (D i) 2)).
      + apply (mo_add _ _ _ _ _ _ _ _ _ _ _ OK); assumption.
      + apply (mo_mulc _ _ _ _ _ _ _ _ _ _ _ OK); [assumption|apply two_in].
  Qed.

  Lemma mapM_res_RL {T U T' U'} (R : (pid -> T) -> U -> Prop) (R' : (pid -> T') -> U' -> Prop)
    (f : pid -> T -> res T') (g : U -> U') X us :
    (forall Y u, In u us -> R Y u -> exists Y', (forall i, f i (Y i) = Ok (Y' i)) /\ R' Y' (g u)) ->
    RL R X us -> exists X', (forall i, mapM_res (f i) (X i) = Ok (X' i)) /\ RL R' X' (map g us).
  Proof using Type.
    intros Hf H. induction H as [X HX|X Y X0 u us HX HY H IH].
    - exists (fun _ => []). split; [intros i; rewrite HX; reflexivity|apply RL_nil'].
    - destruct (Hf Y u (or_introl eq_refl) HY) as (Y' & E1 & R1).
      destruct IH as (X' & E2 & R2). { intros; apply Hf; [right|]; assumption. }
      exists (fun i => Y' i :: X' i). split.
      + intros i. rewrite HX. cbn [mapM_res]. rewrite E1, E2. reflexivity.
      + apply RL_cons'; assumption.
  Qed.
  Lemma RL_combine {T U T' U'} (R : (pid -> T) -> U -> Prop) (R' : (pid -> T') -> U' -> Prop) X us X' us' :
    RL R X us -> RL R' X' us' ->
    RL (fun Y u => R (fun i => fst (Y i)) (fst u) /\ R' (fun i => snd (Y i)) (snd u)) (fun i => combine (X i) (X' i)) (combine us us').
  Proof using Type.
    intros H. revert X' us'. induction H as [X HX|X Y X0 u us HX HY H IH]; intros X' us' H'.
    - apply RL_nil. intros i. rewrite HX. reflexivity.
    - destruct H' as [X' HX'|X' Y' X0' u' us' HX' HY' H'].
      + apply RL_nil. intros i. rewrite HX, HX'. reflexivity.
      + cbn [combine]. apply (RL_cons _ _ (fun i => (Y i, Y' i)) (fun i => combine (X0 i) (X0' i))).
        * intros i. rewrite HX, HX'. reflexivity.
        * cbn [fst snd]. split; assumption.
        * apply IH, H'.
  Qed.
  Lemma RL_const {T} (l : list T) : RL (fun (Y : pid -> T) u => forall i, Y i = u) (fun _ => l) l.
  Proof using Type. induction l; [apply RL_nil'|]. apply (RL_cons _ _ (fun _ => a) (fun _ => l)); auto. Qed.

  Lemma mod_sub_mod a b m : (a mod m - b mod m) mod m = (a - b) mod m.
  Proof using Type. symmetry. apply Zminus_mod. Qed.

  (** compare_iris_many on one chunk of the database *)
  Lemma compare_iris_many_ok g s X a Y (bs : list iris) : Inv g s -> wf_iris a -> Forall wf_iris bs ->
    Forall (enough_valid a) bs -> (0 < length bs)%nat ->
    RL AR X (code_vals (ir_code a)) -> RL (RL AR) Y (map (fun b => code_vals (ir_code b)) bs) ->
    wpM (fun i => compare_iris_many (E i) signed (X i) (Y i) (ir_mask a) (map ir_mask bs)) s
      (fun s' W => Inv (g_msb (length bs) (g_dot (length bs) g)) s' /\
         RL BR W (map (fun b => count (differ a b) <? 34 * count (both_valid a b) / 100) bs)).
  Proof using OK HK.
    intros Hs Ha Hbs Hv Hl HX HY.
    set (masks := map (fun b => code_and (ir_mask a) (ir_mask b)) bs).
    assert (Hmasks : mapM_res (combine_masks (ir_mask a)) (map ir_mask bs) = Ok masks).
    { unfold masks. clear HY. induction bs as [|b bs IH]; [reflexivity|].
      inversion Hbs; subst; inversion Hv; subst. cbn [map mapM_res].
      assert (combine_masks (ir_mask a) (ir_mask b) = Ok (code_and (ir_mask a) (ir_mask b))) as ->.
      { unfold combine_masks. destruct Ha as [_ Ha]. destruct H1 as [_ H1].
        rewrite count_ones_spec by (apply code_and_wf; assumption).
        rewrite (count_ext _ (both_valid a b)) by (intros; apply code_and_bit; assumption).
        rewrite mask_threshold_exact. unfold enough_valid in H3.
        destruct (Z.ltb_spec (count (both_valid a b)) 8960); [lia|reflexivity]. }
      destruct bs as [|b' bs]; [reflexivity|]. rewrite IH by (try assumption; cbn [length]; lia). reflexivity. }
    assert (Hlens : map count_ones masks = map (fun b => count (both_valid a b)) bs).
    { unfold masks. rewrite map_map. apply map_ext_in. intros b Hb.
      rewrite Forall_forall in Hbs. specialize (Hbs _ Hb). destruct Ha as [_ Ha], Hbs as [_ Hb'].
      rewrite count_ones_spec by (apply code_and_wf; assumption).
      apply count_ext. intros; apply code_and_bit; assumption. }
    assert (Hmw : Forall wf_code masks).
    { unfold masks. rewrite Forall_map. eapply Forall_impl; [|exact Hbs]. intros b [_ Hb]. apply code_and_wf; [apply Ha|exact Hb]. }
    assert (Lm : length masks = length bs) by (unfold masks; rewrite map_length; reflexivity).
    unfold compare_iris_many.
    apply (wpM_ext (fun i => bindM (masked_hamming_distance_many (E i) signed (X i) (Y i) masks)
             (fun hwds => compare_threshold_many (E i) signed hwds (map count_ones masks)))).
    { intros i. rewrite (RL_length _ _ _ HY), !map_length, Nat.eqb_refl.
      replace (Nat.eqb (length bs) 0) with false by (symmetry; apply Nat.eqb_neq; lia). cbn [negb orb].
      rewrite Hmasks. reflexivity. }
    unfold masked_hamming_distance_many.
    apply (wpM_bind (fun i => bindM (m_masked_dot_many (E i) (X i) (Y i) masks) (fun dots =>
         resM (mapM_res (fun bdm => masked_hamming_distance_post (E i) signed (X i) (fst (fst bdm)) (snd bdm) (snd (fst bdm)))
            (combine (combine (Y i) dots) masks)))) (fun i hwds => compare_threshold_many (E i) signed hwds (map count_ones masks))).
    apply (wpM_bind (fun i => m_masked_dot_many (E i) (X i) (Y i) masks) (fun i dots =>
         resM (mapM_res (fun bdm => masked_hamming_distance_post (E i) signed (X i) (fst (fst bdm)) (snd bdm) (snd (fst bdm)))
            (combine (combine (Y i) dots) masks)))).
    eapply wpM_mono; [|apply (mo_dot _ _ _ _ _ _ _ _ _ _ _ OK g s X _ Y _ masks Hs HX HY); try apply code_vals_length; rewrite ?map_length; auto].
    2:{ rewrite Forall_map. apply Forall_forall. intros; apply code_vals_length. }
    cbn beta. intros s1 D [Hs1 HD]. rewrite map_length in Hs1.
    assert (HD' : RL AR D (map (fun b => mdotp (code_vals (ir_code a)) (code_vals (ir_code b)) (mask_bits (code_and (ir_mask a) (ir_mask b))) mod 2 ^ K) bs)).
    { eapply (RL_mono AR AR) in HD; [|intros; assumption]. unfold masks in HD. rewrite map2_map in HD. exact HD. }
    clear HD.
    pose proof (RL_combine _ _ _ _ _ _ (RL_combine _ _ _ _ _ _ HY HD') (RL_const masks)) as HC.
    set (cmb := combine (combine _ _) masks) in HC.
    assert (Ecmb : cmb = map (fun b => (code_vals (ir_code b), mdotp (code_vals (ir_code a)) (code_vals (ir_code b)) (mask_bits (code_and (ir_mask a) (ir_mask b))) mod 2 ^ K, code_and (ir_mask a) (ir_mask b))) bs).
    { unfold cmb, masks. clear. induction bs as [|b bs IH]; [reflexivity|]. cbn [map combine]. rewrite IH. reflexivity. }
    rewrite Ecmb in HC. clear cmb Ecmb.
    (* the distances *)
    assert (HH : exists H, (forall i, mapM_res (fun bdm => masked_hamming_distance_post (E i) signed (X i) (fst (fst bdm)) (snd bdm) (snd (fst bdm)))
            (combine (combine (Y i) (D i)) masks) = Ok (H i)) /\ RL AR H (map (fun b => count (differ a b) mod 2 ^ K) bs)).
    { clear Hs Hs1 HD' Hlens Hmasks Lm HY. clearbody masks. pose (Q := fun i => combine (combine (Y i) (D i)) masks).
      change (fun i => combine (combine (Y i) (D i)) masks) with Q in HC.
      cut (exists H, (forall i, mapM_res (fun bdm => masked_hamming_distance_post (E i) signed (X i) (fst (fst bdm)) (snd bdm) (snd (fst bdm)))
            (Q i) = Ok (H i)) /\ RL AR H (map (fun b => count (differ a b) mod 2 ^ K) bs)); [exact (fun h => h)|].
      clearbody Q.
      clear Hl Hmw.
      assert (HC' : RL (fun Z0 b => wf_iris b /\ (RL AR (fun i => fst (fst (Z0 i))) (code_vals (ir_code b)) /\
          AR (fun i => snd (fst (Z0 i))) (mdotp (code_vals (ir_code a)) (code_vals (ir_code b)) (mask_bits (code_and (ir_mask a) (ir_mask b))) mod 2 ^ K)) /\
          (forall i, snd (Z0 i) = code_and (ir_mask a) (ir_mask b))) Q bs).
      { revert Q HC. induction bs as [|b bs IH]; intros Q HC.
        - constructor. apply (RL_inv_nil _ _ HC).
        - cbn [map] in HC. apply RL_inv_cons in HC. destruct HC as (Y1 & X1 & E1 & R1 & R2).
          inversion Hbs; subst; inversion Hv; subst.
          apply (RL_cons _ _ Y1 X1); [exact E1| |apply IH; assumption]. split; [assumption|]. exact R1. }
      eapply (mapM_res_RL _ AR (fun i bdm => masked_hamming_distance_post (E i) signed (X i) (fst (fst bdm)) (snd bdm) (snd (fst bdm)))
        (fun b => count (differ a b) mod 2 ^ K) Q bs); [|exact HC'].
      intros Y0 b _ (Wb & (R1 & R2) & R3).
      destruct (post_ok X (fun i => fst (fst (Y0 i))) (fun i => snd (fst (Y0 i))) _ _ _ HX R1 R2 (code_and (ir_mask a) (ir_mask b))) as (U & HU & HR).
      { apply code_and_wf; [apply Ha|apply Wb]. }
      exists U. split.
      - intros i. rewrite R3. apply HU.
      - rewrite <- hd_count by assumption. unfold hd.
        match goal with |- AR U ?z => match type of HR with AR U ?z' => replace z with z'; [exact HR|] end end.
        assert (0 <= K) by lia. modring. }
    destruct HH as (H & HH1 & HH2).
    apply (wpM_res _ H); [exact HH1|].
    (* the comparison *)
    unfold compare_threshold_many.
    assert (Hd : exists Q, (forall i, mapM_res (fun hl => get_cmp_diff (E i) signed (s1 i) (fst hl) (snd hl)) (combine (H i) (map count_ones masks)) = Ok (Q i))
      /\ RL AR Q (map (fun b => (count (differ a b) mod 2 ^ K - 34 * count (both_valid a b) / 100) mod 2 ^ K) bs)).
    { pose proof (RL_combine _ _ _ _ _ _ HH2 (RL_const (map count_ones masks))) as HC2. rewrite Hlens in HC2 |- *.
      assert (Ec : combine (map (fun b => count (differ a b) mod 2 ^ K) bs) (map (fun b => count (both_valid a b)) bs)
        = map (fun b => (count (differ a b) mod 2 ^ K, count (both_valid a b))) bs).
      { clear. induction bs as [|b bs IH]; [reflexivity|]. cbn. rewrite IH. reflexivity. }
      rewrite Ec in HC2.
      replace (map (fun b => (count (differ a b) mod 2 ^ K - 34 * count (both_valid a b) / 100) mod 2 ^ K) bs) with
       (map (fun u => (fst u - 34 * snd u / 100) mod 2 ^ K) (map (fun b => (count (differ a b) mod 2 ^ K, count (both_valid a b))) bs))
        by (rewrite map_map; reflexivity).
      eapply (mapM_res_RL _ AR (fun i hl => get_cmp_diff (E i) signed (s1 i) (fst hl) (snd hl))); [|exact HC2].
      intros Y0 u Hu [R1 R2]. apply in_map_iff in Hu. destruct Hu as (b & <- & Hb). cbn [fst snd] in *.
      pose proof (count_range (both_valid a b)) as Hr.
      assert (Ht : 0 <= 34 * count (both_valid a b) / 100 <= 12800) by (split; [apply Z.div_pos|apply Z.div_le_upper_bound]; lia).
      exists (fun i => m_sub_const (E i) (s1 i) (fst (Y0 i)) (34 * count (both_valid a b) / 100)). split.
      - intros i. unfold get_cmp_diff. rewrite R2, match_threshold_exact by exact Hr.
        rewrite (mo_width _ _ _ _ _ _ _ _ _ _ _ OK), try_from_ok by lia. reflexivity.
      - eapply (mo_subc _ _ _ _ _ _ _ _ _ _ _ OK); [exact Hs1|exact R1|].
        unfold inr. assert (2 ^ 16 <= 2 ^ K) by (apply Z.pow_le_mono_r; lia). change (2 ^ 16) with 65536 in H0. lia. }
    destruct Hd as (Q & HQ1 & HQ2).
    apply (wpM_ext (fun i => m_get_msb_many (E i) (Q i))).
    { intros i. rewrite (RL_length _ _ _ HH2), !map_length, Lm, Nat.eqb_refl. cbn [negb].
      unfold bindM, getM, resM, liftM. cbn [bind fst snd]. rewrite HQ1. reflexivity. }
    eapply wpM_mono; [|eapply (mo_msb _ _ _ _ _ _ _ _ _ _ _ OK _ s1 Q _ Hs1); [|exact HQ2]; rewrite map_length; exact Hl].
    cbn beta. intros s2 W [Hs2 HW]. rewrite map_length in Hs2. split; [exact Hs2|].
    rewrite map_map in HW. eapply (RL_mono BR BR) in HW; [|intros; assumption].
    match type of HW with RL _ _ ?l => match goal with |- RL _ _ ?l' => replace l' with l; [exact HW|] end end.
    apply map_ext. intros b.
    pose proof (count_range (both_valid a b)) as Hr. pose proof (count_range (differ a b)) as Hr'.
    assert (Ht : 0 <= 34 * count (both_valid a b) / 100 <= 12800) by (split; [apply Z.div_pos|apply Z.div_le_upper_bound]; lia).
    rewrite Zminus_mod_idemp_l. apply msb_lt; lia.
  Qed.

  (** Is [b] a match for [a]? *)
  Definition matches (a b : iris) : bool := count (differ a b) <? 34 * count (both_valid a b) / 100.

  Definition g_chunk (g : Gh) (m : nat) : Gh := g_msb m (g_dot m g).
  (** The ghost state just before verification, for a database of n entries. *)
  Definition g_db (n chunk : nat) (g : Gh) : Gh :=
    g_or n chunk (fold_left g_chunk (chunk_sizes chunk n) (g_pre (triples_requested K (Z.of_nat n) (Z.of_nat chunk)) g)).

  Lemma chunk_sizes_spec {T} chunk (l : list T) : chunk_sizes chunk (length l) = map (@length T) (chunks chunk l).
  Proof using Type.
    unfold chunk_sizes. replace (repeat tt (length l)) with (map (fun _ => tt) l).
    - rewrite chunks_map, map_map. apply map_ext. intros c. apply map_length.
    - induction l as [|x l IH]; [reflexivity|]. cbn. rewrite IH. reflexivity.
  Qed.

  Lemma chunks_fuel_nonempty {T} fuel n (l : list T) : (0 < n)%nat -> Forall (fun c => (0 < length c)%nat) (chunks_fuel fuel n l).
  Proof using Type.
    intros Hn. revert l. induction fuel as [|fuel IH]; intros l; [constructor|]. destruct l as [|x l]; [constructor|].
    cbn [chunks_fuel]. constructor; [|apply IH]. destruct n; [lia|]. cbn. lia.
  Qed.

  Lemma compare_chunks_ok a X (css : list (list iris)) : wf_iris a -> RL AR X (code_vals (ir_code a)) ->
    Forall (fun c => (0 < length c)%nat) css -> Forall (Forall wf_iris) css -> Forall (Forall (enough_valid a)) css ->
    forall g s Y acc accs, Inv g s -> RL (RL (RL AR)) Y (map (map (fun b => code_vals (ir_code b))) css) ->
    RL BR acc accs ->
    wpM (fun i => foldM (fun acc dm => bindM (compare_iris_many (E i) signed (X i) (fst dm) (ir_mask a) (snd dm)) (fun r => retM (acc ++ r)))
          (combine (Y i) (map (map ir_mask) css)) (acc i)) s
      (fun s' W => Inv (fold_left g_chunk (map (@length iris) css) g) s' /\ RL BR W (accs ++ concat (map (map (matches a)) css))).
  Proof using OK HK.
    intros Ha HX. induction css as [|c css IH]; intros Hne Hwf Hv g s Y acc accs Hs HY Hacc.
    - apply (wpM_ext (fun i => retM (acc i))). { intros i. rewrite (RL_inv_nil _ _ HY i). reflexivity. }
      apply wpM_ret. cbn [map fold_left concat]. rewrite app_nil_r. split; assumption.
    - inversion Hne; subst; inversion Hwf; subst; inversion Hv; subst.
      cbn [map] in HY. apply RL_inv_cons in HY. destruct HY as (D & Y0 & EY & HD & HY0).
      apply (wpM_ext (fun i => bindM (bindM (compare_iris_many (E i) signed (X i) (D i) (ir_mask a) (map ir_mask c)) (fun r => retM (acc i ++ r)))
         (fun c' => foldM (fun acc dm => bindM (compare_iris_many (E i) signed (X i) (fst dm) (ir_mask a) (snd dm)) (fun r => retM (acc ++ r)))
          (combine (Y0 i) (map (map ir_mask) css)) c'))).
      { intros i. rewrite EY. reflexivity. }
      apply (wpM_bind (fun i => bindM (compare_iris_many (E i) signed (X i) (D i) (ir_mask a) (map ir_mask c)) (fun r => retM (acc i ++ r)))
         (fun i c' => foldM (fun acc dm => bindM (compare_iris_many (E i) signed (X i) (fst dm) (ir_mask a) (snd dm)) (fun r => retM (acc ++ r)))
          (combine (Y0 i) (map (map ir_mask) css)) c')).
      apply (wpM_bind (fun i => compare_iris_many (E i) signed (X i) (D i) (ir_mask a) (map ir_mask c)) (fun i r => retM (acc i ++ r))).
      eapply wpM_mono; [|apply (compare_iris_many_ok g s X a D c Hs Ha); assumption].
      cbn beta. intros s1 W [Hs1 HW]. apply wpM_ret.
      eapply wpM_mono; [|apply (IH ltac:(assumption) ltac:(assumption) ltac:(assumption) _ s1 Y0 (fun i => acc i ++ W i) (accs ++ map (matches a) c) Hs1 HY0)].
      + cbn beta. intros s2 V [Hg1 Hg2]. split; [exact Hg1|]. cbn [map concat]. rewrite app_assoc. exact Hg2.
      + apply RL_app; assumption.
  Qed.

  Theorem iris_in_db_ok g s X a DB (bs : list iris) chunk : Inv g s -> wf_iris a -> Forall wf_iris bs ->
    Forall (enough_valid a) bs -> (0 < length bs)%nat -> (0 < chunk)%nat ->
    RL AR X (code_vals (ir_code a)) -> RL (RL AR) DB (map (fun b => code_vals (ir_code b)) bs) ->
    ver_ok (g_db (length bs) chunk g) ->
    wpM (fun i => iris_in_db (E i) signed (X i) (DB i) (ir_mask a) (map ir_mask bs) chunk) s
      (fun s' R => Inv (g_ver (g_db (length bs) chunk g)) s' /\ forall i, R i = existsb (matches a) bs).
  Proof using OK HK.
    intros Hs Ha Hbs Hv Hl Hc HX HD Hver. unfold iris_in_db.
    pose (N := triples_requested K (Z.of_nat (length bs)) (Z.of_nat chunk)).
    pose (body := fun i acc (dm : list (list A) * list code) => bindM (compare_iris_many (E i) signed (X i) (fst dm) (ir_mask a) (snd dm)) (fun r => retM (acc ++ r))).
    apply (wpM_ext (fun i => bindM (m_precompute (E i) N) (fun _ =>
      bindM (foldM (body i) (combine (chunks chunk (DB i)) (map (map ir_mask) (chunks chunk bs))) []) (fun bool_shares =>
      bindM (m_reduce_binary_or (E i) bool_shares chunk) (fun res =>
      bindM (unwrapM (m_verify (E i))) (fun _ => m_open_bit (E i) res)))))).
    { intros i. rewrite (RL_length _ _ _ HD), !map_length, Nat.eqb_refl.
      replace (Nat.eqb (length bs) 0) with false by (symmetry; apply Nat.eqb_neq; lia).
      replace (Nat.eqb chunk 0) with false by (symmetry; apply Nat.eqb_neq; lia). cbn [negb orb].
      rewrite chunks_map. unfold num_and_triples, msb_and_gates. rewrite (mo_width _ _ _ _ _ _ _ _ _ _ _ OK). reflexivity. }
    unfold body. apply (wpM_bind (fun i => m_precompute (E i) N)).
    eapply wpM_mono; [|apply (mo_pre _ _ _ _ _ _ _ _ _ _ _ OK g s N Hs)]. cbn beta. intros s1 _ Hs1.
    apply (wpM_bind (fun i => foldM (body i) (combine (chunks chunk (DB i)) (map (map ir_mask) (chunks chunk bs))) [])).
    assert (HCh : RL (RL (RL AR)) (fun i => chunks chunk (DB i)) (map (map (fun b => code_vals (ir_code b))) (chunks chunk bs))).
    { rewrite <- chunks_map. apply RL_chunks, HD. }
    eapply wpM_mono; [|apply (compare_chunks_ok a X (chunks chunk bs) Ha HX) with (g := g_pre N g) (s := s1) (acc := fun _ => []) (accs := @nil bool); auto].
    2:{ apply chunks_fuel_nonempty, Hc. }
    2:{ apply Forall_concat. rewrite chunks_concat by exact Hc. exact Hbs. }
    2:{ apply Forall_concat. rewrite chunks_concat by exact Hc. exact Hv. }
    2:{ apply RL_nil'. }
    cbn beta. intros s2 W [Hs2 HW]. cbn [app] in HW. rewrite <- concat_map, chunks_concat in HW by exact Hc.
    apply (wpM_bind (fun i => m_reduce_binary_or (E i) (W i) chunk)).
    eapply wpM_mono; [|eapply (mo_or _ _ _ _ _ _ _ _ _ _ _ OK _ s2 W _ chunk Hs2 Hc); [|exact HW]; rewrite map_length; exact Hl].
    cbn beta. intros s3 V [Hs3 HV]. rewrite map_length in Hs3.
    apply (wpM_bind (fun i => unwrapM (m_verify (E i)))). apply wpM_unwrap.
    rewrite <- chunk_sizes_spec in Hs3. fold (g_db (length bs) chunk g) in Hs3.
    eapply wpM_mono; [|apply (mo_ver _ _ _ _ _ _ _ _ _ _ _ OK _ s3 Hs3 Hver)]. cbn beta. intros s4 _ Hs4.
    eapply wpM_mono; [|apply (mo_open _ _ _ _ _ _ _ _ _ _ _ OK _ s4 V _ Hs4 HV)].
    cbn beta. intros s5 R [Hs5 HR]. split; [exact Hs5|]. intros i. rewrite HR.
    clear. induction bs as [|b bs IH]; [reflexivity|]. cbn. rewrite IH. reflexivity.
  Qed.
End Contract.

(** The answer in words. *)
Lemma matches_spec a bs : existsb (matches a) bs = true <-> Exists (close a) bs.
Proof.
  rewrite existsb_exists, Exists_exists. unfold matches, close.
  split; intros (b & Hb & H); exists b; (split; [exact Hb|]); lia.
Qed.
