(** The plain engine: meets the contract, and never communicates. *)
From Verif Require Import Base Ring RingProofs Prog Sched Rng Rel Net BinTrait BitArith BinProofs AddProofs Iris IrisSpec IrisProofs Protocol MpcSpec Plain ShareSpec Aby3Proofs Aby3Proofs2 SlicedProofs OrProofs ProtocolProofs EngineProofs.
From Coq Require Import ZifyBool ZifyNat.

(** ** Programs that neither send nor receive *)
Definition silent {A} (p : prog A) : Prop := match p with Ret _ | Fail _ => True | _ => False end.
Definition silentM {S A} (p : M S A) : Prop := forall s, silent (p s).

Lemma silent_bind {A B} (p : prog A) (f : A -> prog B) : silent p -> (forall a, silent (f a)) -> silent (bind p f).
Proof. destruct p; cbn; auto; contradiction. Qed.
Lemma silentM_ret {S A} (a : A) : silentM (S := S) (retM a). Proof. intros s. exact I. Qed.
Lemma silentM_fail {S A} e : silentM (S := S) (A := A) (failM e). Proof. intros s. exact I. Qed.
Lemma silentM_bind {S A B} (p : M S A) (f : A -> M S B) : silentM p -> (forall a, silentM (f a)) -> silentM (bindM p f).
Proof. intros Hp Hf s. apply silent_bind; [apply Hp|]. intros [s' a]. apply Hf. Qed.
Lemma silentM_res {S A} (r : res A) : silentM (S := S) (resM r). Proof. intros s. destruct r; exact I. Qed.
Lemma silentM_get {S} : silentM (@getM S). Proof. intros s. exact I. Qed.
Lemma silentM_unwrap {S A} (p : M S A) : silentM p -> silentM (unwrapM p).
Proof. intros H s. specialize (H s). unfold unwrapM. destruct (p s); cbn in *; auto. Qed.
Lemma silentM_mapM2 {S A A' B} (f : A -> A' -> M S B) l l' : (forall a a', silentM (f a a')) -> silentM (mapM2 f l l').
Proof.
  intros H. revert l'. induction l as [|a l IH]; intros [|a' l']; try apply silentM_ret.
  cbn [mapM2]. apply silentM_bind; [apply H|]. intros b. apply silentM_bind; [apply IH|]. intros; apply silentM_ret.
Qed.
Lemma silentM_foldM {S A C} (f : C -> A -> M S C) l : (forall c a, silentM (f c a)) -> forall c, silentM (foldM f l c).
Proof. intros H. induction l as [|a l IH]; intros c; [apply silentM_ret|]. cbn [foldM]. apply silentM_bind; [apply H|exact IH]. Qed.

Lemma evals_silent {A} (P : pid -> prog A) R : (forall i, silent (P i)) -> evals P R -> forall i, P i = Ret (R i).
Proof.
  intros Hs [sch H]. destruct sch as [|j sch].
  - inversion H; subst. intros []; assumption.
  - exfalso. inversion H; subst. match goal with H : step _ _ _ |- _ => inversion H; subst end;
      specialize (Hs j); unfold start in *; cbn [progs] in *; rewrite get_tabulate in *;
      match goal with H : P j = _ |- _ => rewrite H in Hs end; exact Hs.
Qed.

(** An engine none of whose operations communicates *)
Record silent_engine {S A B} (e : mpc S A B) : Prop := {
  se_pre : forall n, silentM (m_precompute e n);
  se_dot : forall a b m, silentM (m_masked_dot_many e a b m);
  se_msb : forall a, silentM (m_get_msb_many e a);
  se_or : forall a c, silentM (m_reduce_binary_or e a c);
  se_ver : silentM (m_verify e);
  se_open : forall b, silentM (m_open_bit e b) }.

Lemma iris_in_db_silent {S A B} (e : mpc S A B) sg x db m ms c : silent_engine e -> silentM (iris_in_db e sg x db m ms c).
Proof.
  intros [H1 H2 H3 H4 H5 H6]. unfold iris_in_db.
  destruct (negb _ || _); [apply silentM_fail|]. destruct (Nat.eqb c 0); [apply silentM_fail|].
  apply silentM_bind; [apply H1|]. intros _. apply silentM_bind.
  - apply silentM_foldM. intros acc dm. apply silentM_bind; [|intros; apply silentM_ret].
    unfold compare_iris_many. destruct (negb _ || _); [apply silentM_fail|].
    apply silentM_bind; [apply silentM_res|]. intros masks. apply silentM_bind.
    + unfold masked_hamming_distance_many. apply silentM_bind; [apply H2|]. intros; apply silentM_res.
    + intros hw. unfold compare_threshold_many. destruct (negb _); [apply silentM_fail|].
      apply silentM_bind; [apply silentM_get|]. intros s. apply silentM_bind; [apply silentM_res|]. intros; apply H3.
  - intros bs. apply silentM_bind; [apply H4|]. intros r. apply silentM_bind; [apply silentM_unwrap, H5|]. intros _. apply H6.
Qed.

Section Plain.
  Variable signed : bool.
  Variable K : Z.
  Hypothesis HW : In K widths.
  Hypothesis HK : 16 <= K.

  Definition plain_holds (X : pid -> Z) (x : Z) : Prop := inr K x /\ forall i, X i = x.
  Definition plain_bit (X : pid -> Z) (b : bool) : Prop := forall i, X i = Z.b2z b.
  Lemma RL_plain X xs : RL plain_holds X xs -> (forall i, X i = xs) /\ Forall (inr K) xs.
  Proof using Type.
    induction 1 as [X HX|X Y X0 y ys HX [Hy HY] H [IH1 IH2]]; [split; [exact HX|constructor]|].
    split; [|constructor; assumption]. intros i. rewrite HX, HY, IH1. reflexivity.
  Qed.
  Lemma plain_RL X xs : (forall i, X i = xs) -> Forall (inr K) xs -> RL plain_holds X xs.
  Proof using Type.
    intros E H. apply (RL_ext _ (fun _ => xs)); [intros; symmetry; apply E|]. clear E.
    induction H as [|x xs Hx H IH]; [apply RL_nil'|]. apply (RL_cons' plain_holds (fun _ => x)); [split; auto|exact IH].
  Qed.

  Lemma fold_plain_dot xs ys z : inr K z ->
    fold_left (fun r xy => radd K r (rmul K (fst xy) (snd xy))) (combine xs ys) z = (z + dotp xs ys) mod 2 ^ K.
  Proof using HK.
    revert ys z. induction xs as [|x xs IH]; intros [|y ys] z Hz; try (unfold dotp; cbn; rewrite Z.add_0_r, Z.mod_small by exact Hz; reflexivity).
    cbn [combine fold_left fst snd]. rewrite IH by (apply inr_mod; lia). unfold dotp. cbn [map2 fold_right]. modring.
  Qed.
  Lemma plain_dot_many_ok (g : unit) (s : pid -> unit) X xss Y yss : True -> RL (RL plain_holds) X xss -> RL (RL plain_holds) Y yss ->
    Forall2 (fun xs ys => length xs = IRIS_CODE_SIZE /\ length ys = IRIS_CODE_SIZE) xss yss -> (0 < length xss)%nat ->
    wpM (fun i => plain_dot_many K (X i) (Y i)) s
      (fun s' W => True /\ RL plain_holds W (map2 (fun xs ys => dotp xs ys mod 2 ^ K) xss yss)).
  Proof using HK.
    intros _ HX HY Hl _. unfold plain_dot_many.
    apply (wpM_ext (fun i => mapM2 (plain_dot K) (X i) (Y i))).
    { intros i. rewrite (RL_length _ _ _ HX), (RL_length _ _ _ HY).
      replace (length yss) with (length xss) by (clear -Hl; induction Hl; cbn; congruence). rewrite Nat.eqb_refl. reflexivity. }
    clear g. revert X Y s HX HY. induction Hl as [|xs ys xss yss [L1 L2] Hl IH]; intros X Y s HX HY.
    - apply (wpM_ext (fun _ => retM [])). { intros i. rewrite (RL_inv_nil _ _ HX i). reflexivity. }
      apply wpM_ret. split; [exact I|apply RL_nil'].
    - apply RL_inv_cons in HX. destruct HX as (A & X0 & EX & HA & HX0). apply RL_inv_cons in HY. destruct HY as (B & Y0 & EY & HB & HY0).
      apply RL_plain in HA, HB. destruct HA as [EA FA], HB as [EB FB].
      apply (wpM_ext (fun i => bindM (mapM2 (plain_dot K) (X0 i) (Y0 i)) (fun bs => retM ((dotp xs ys mod 2 ^ K) :: bs)))).
      { intros i. rewrite EX, EY. cbn [mapM2]. unfold plain_dot at 2. rewrite EA, EB, L1, L2, Nat.eqb_refl. cbn [negb].
        rewrite fold_plain_dot by (unfold inr; assert (0 < 2 ^ K) by (apply Z.pow_pos_nonneg; lia); lia). reflexivity. }
      apply (wpM_bind (fun i => mapM2 (plain_dot K) (X0 i) (Y0 i)) (fun i bs => retM ((dotp xs ys mod 2 ^ K) :: bs))).
      eapply wpM_mono; [|apply (IH X0 Y0 s HX0 HY0)]. intros s' W [_ HWs]. apply wpM_ret. split; [exact I|].
      cbn [map2]. apply (RL_cons' plain_holds (fun _ => dotp xs ys mod 2 ^ K)); [|exact HWs]. split; [apply inr_mod; lia|reflexivity].
  Qed.

  Lemma plain_sum_ok xs bs acc : Forall (inr 1) xs -> 0 <= acc -> acc + Z.of_nat (length xs) <= 12800 ->
    plain_sum signed K xs bs acc = Ok (acc + msum xs bs).
  Proof using HK.
    intros H. revert bs acc. induction H as [|x xs Hx H IH]; intros bs acc Ha Hl.
    - destruct bs; cbn; rewrite Z.add_0_r; reflexivity.
    - cbn [length] in Hl. unfold inr in Hx. change (2 ^ 1) with 2 in Hx. destruct bs as [|b bs]; [rewrite msum_nil_r; cbn; rewrite Z.add_0_r; reflexivity|].
      rewrite msum_cons. cbn [plain_sum]. destruct b.
      + assert (Hq : 2 ^ 15 <= 2 ^ (K - 1)) by (apply Z.pow_le_mono_r; lia). change (2 ^ 15) with 32768 in Hq.
        assert (Hp : 2 ^ K = 2 * 2 ^ (K - 1)) by (rewrite <- Z.pow_succ_r by lia; f_equal; lia).
        assert (Es : forall v, 0 <= v <= 12800 -> sval signed K v = v).
        { intros v Hv. unfold sval. replace (2 ^ (K - 1) <=? v) with false by lia. rewrite andb_false_r. reflexivity. }
        unfold checked_add. rewrite !Es by lia.
        replace (_ && _) with true by (destruct signed; lia). cbn [rbind].
        rewrite Z.mod_small by lia. rewrite IH by lia. f_equal. lia.
      + rewrite IH by lia. f_equal.
  Qed.

  Lemma get_msb_plain x : inr K x -> get_msb K x = Z.b2z (Z.testbit x (K - 1)).
  Proof using HW. apply get_msb_bit, HW. Qed.
  Lemma fold_ror bs : forall z, fold_left ror (map Z.b2z bs) (Z.b2z z) = Z.b2z (z || existsb (fun b => b) bs).
  Proof using Type.
    induction bs as [|b bs IH]; intros z; cbn [map fold_left existsb]; [rewrite orb_false_r; reflexivity|].
    rewrite orb_assoc, <- IH. f_equal. destruct z, b; reflexivity.
  Qed.

  Lemma plain_mpc_ok : mpc_ok (fun _ : pid => plain_engine signed K) K plain_holds plain_bit (fun (_ : unit) _ => True)
    (fun _ g => g) (fun _ g => g) (fun _ g => g) (fun _ _ g => g) (fun _ => True) (fun g => g).
  Proof using HW HK.
    assert (H0 : 0 < 2 ^ K) by (apply Z.pow_pos_nonneg; lia).
    constructor; cbn [plain_engine m_K m_precompute m_masked_dot_many m_filter_reduce_add_twice m_add m_sub m_mul_const m_sub_const m_get_msb_many m_reduce_binary_or m_verify m_open_bit].
    - reflexivity.
    - intros. apply wpM_ret. exact I.
    - intros g s X xs Y yss masks Hs HX HY Lx Ly Hm Hl Hlm.
      refine (default_masked_dot_many_ok plain_holds K (fun (_ : unit) (_ : pid -> unit) => True) (fun _ => 0) _ _ (fun _ => plain_dot_many K)
        (fun _ (g : unit) => g) plain_dot_many_ok tt s X xs Y yss masks I HX HY Lx Ly Hm Hl Hlm).
      + intros Q Q' x E [E1 E2]. split; [exact E1|]. intros; rewrite <- E; auto.
      + split; [unfold inr; lia|reflexivity].
    - intros X xs Y ys m HX HY Lx Ly Bx By Hm. apply RL_plain in HX, HY. destruct HX as [EX _], HY as [EY _].
      pose proof iris_size_nat as Hsz.
      assert (HR : forall l, length l = IRIS_CODE_SIZE -> Forall (inr 1) l -> forall b, 0 <= msum l b <= 12800).
      { intros l Ll HF b. enough (0 <= msum l b <= Z.of_nat (length l)) by lia. clear -HF. revert b.
        induction HF as [|x l Hx HF IH]; intros b; [cbn; lia|]. destruct b as [|b0 b]; [rewrite msum_nil_r; cbn [length]; lia|].
        rewrite msum_cons. specialize (IH b). unfold inr in Hx. change (2 ^ 1) with 2 in Hx. cbn [length]. destruct b0; lia. }
      assert (Hq : 2 ^ 15 <= 2 ^ K) by (apply Z.pow_le_mono_r; lia). change (2 ^ 15) with 32768 in Hq.
      pose proof (HR xs Lx Bx (mask_bits m)). pose proof (HR ys Ly By (mask_bits m)).
      exists (fun _ => msum xs (mask_bits m)), (fun _ => msum ys (mask_bits m)). rewrite !Z.mod_small by lia. split; [|split].
      + intros i. rewrite EX, EY. unfold plain_filter_reduce_add_twice. rewrite Lx, Ly, Nat.eqb_refl.
        assert (Hz : Nat.eqb IRIS_CODE_SIZE 0 = false) by (apply Nat.eqb_neq; lia).
        rewrite Hz. cbn [orb negb]. rewrite bits_spec by exact Hm. cbn [rbind]. fold (mask_bits m).
        rewrite !plain_sum_ok by (auto; lia). reflexivity.
      + split; [unfold inr; lia|reflexivity].
      + split; [unfold inr; lia|reflexivity].
    - intros X x Y y [_ HX] [_ HY]. split; [apply inr_mod; lia|]. intros i. rewrite HX, HY. reflexivity.
    - intros X x Y y [_ HX] [_ HY]. split; [apply inr_mod; lia|]. intros i. rewrite HX, HY. reflexivity.
    - intros X x c [_ HX] _. split; [apply inr_mod; lia|]. intros i. rewrite HX. reflexivity.
    - intros _ s X x c _ [_ HX] _. split; [apply inr_mod; lia|]. intros i. rewrite HX. reflexivity.
    - intros g s X xs _ Hl HX. apply wpM_ret. split; [exact I|].
      apply (RL_map plain_holds plain_bit (fun _ => get_msb K)); [|exact HX].
      intros Q q [Hq HQ] i. rewrite HQ. apply get_msb_plain, Hq.
    - intros g s X bs chunk _ _ _ HX. apply wpM_ret. split; [exact I|]. intros i.
      assert (E : X i = map Z.b2z bs).
      { clear -HX. induction HX as [X HX|X Y X0 y ys HX HY H IH]; rewrite HX; [reflexivity|]. rewrite IH, HY. reflexivity. }
      rewrite E. apply (fold_ror bs false).
    - intros. apply wpM_ret. exact I.
    - intros g s X b _ HX. apply wpM_ret. split; [exact I|]. intros i. rewrite HX. destruct b; reflexivity.
  Qed.

  Lemma plain_silent : silent_engine (plain_engine signed K).
  Proof using Type.
    constructor; cbn [plain_engine m_precompute m_masked_dot_many m_get_msb_many m_reduce_binary_or m_verify m_open_bit]; intros; try apply silentM_ret.
    unfold default_masked_dot_many. apply silentM_bind; [apply silentM_res|]. intros v. unfold plain_dot_many.
    destruct (negb _); [apply silentM_fail|]. apply silentM_mapM2. intros u w. unfold plain_dot.
    destruct (negb _); [apply silentM_fail|apply silentM_ret].
  Qed.

  (** The plain engine's answer. *)
  Theorem plain_iris_in_db a bs chunk : wf_iris a -> Forall wf_iris bs -> Forall (enough_valid a) bs ->
    (0 < length bs)%nat -> (0 < chunk)%nat ->
    iris_in_db (plain_engine signed K) signed (code_vals (ir_code a)) (map (fun b => code_vals (ir_code b)) bs)
      (ir_mask a) (map ir_mask bs) chunk tt = Ret (tt, existsb (matches a) bs).
  Proof using HW HK.
    intros Ha Hbs Hv Hl Hc.
    assert (HF : forall c, Forall (inr K) (code_vals c)).
    { intros c. eapply Forall_impl; [|apply code_vals_bits]. unfold inr. change (2 ^ 1) with 2. intros x Hx.
      assert (2 ^ 1 <= 2 ^ K) by (apply Z.pow_le_mono_r; lia). change (2 ^ 1) with 2 in H. lia. }
    pose proof (iris_in_db_ok _ K _ _ _ _ _ _ _ _ _ plain_mpc_ok HK signed tt (fun _ => tt)
       (fun _ => code_vals (ir_code a)) a (fun _ => map (fun b => code_vals (ir_code b)) bs) bs chunk I Ha Hbs Hv Hl Hc) as H.
    destruct H as (R & HR & _ & HA).
    - apply plain_RL; auto.
    - clear -HF. induction bs as [|b bs IH]; [apply RL_nil'|]. cbn [map].
      apply (RL_cons' (RL plain_holds) (fun _ => code_vals (ir_code b))); [|exact IH]. apply plain_RL; auto.
    - exact I.
    - pose proof (evals_silent _ _ (fun i => iris_in_db_silent _ signed _ _ _ _ chunk plain_silent tt) HR P0) as E.
      cbn beta in E. rewrite E. specialize (HA P0). destruct (R P0) as [[] r]. cbn [snd] in HA. rewrite HA. reflexivity.
  Qed.
End Plain.
