(** Any program over the public interface of the semi-honest engine: a party learns only what is opened. *)
From Verif Require Import Base Ring RingProofs BitArith Prog Sched Rel Rng Net BinTrait BinProofs Iris Protocol MpcSpec Aby3 ShareSpec Aby3Proofs SlicedProofs EngineProofs Client ClientProofs Apis ApiProofs ViewSpec Private PrivateOps PrivateAby3 PrivateCirc PrivateSliced.
From Verif Require Import PolyProofs.

(** ** Openings *)
Section Open.
  Variable i : pid.
  Notation MT := (M (prf tape)).
  Lemma priv_swap {T A} (D : (pid -> T) -> Prop) (f : pid -> T -> MT A) (ms : pid -> T -> msg) (out : pid -> T -> msg -> A) :
    (forall X, D X -> forall j s, exists kk, f j (X j) s = Send (next j) (ms j (X j)) (Recv (prev j) kk) /\
       kk (ms (prev j) (X (prev j))) = Ret (s, out j (X j) (ms (prev j) (X (prev j))))) ->
    (forall X X', D X -> D X' -> X i = X' i -> ms (prev i) (X (prev i)) = ms (prev i) (X' (prev i))) ->
    priv i D f (fun _ _ => True).
  Proof.
    intros Hf Hm. exists O, 1%nat. intros X X' HX HX' HXX a b w Hw. destruct w; [|discriminate].
    assert (R : forall Y, D Y -> runs i 0 (fun j => f j (Y j)) a b [] (fun j => [ms (prev j) (Y (prev j))]) (fun j => out j (Y j) (ms (prev j) (Y (prev j))))).
    { intros Y HY h. cbn [app skipn].
      destruct (Hf Y HY P0 (deal i a b h P0)) as (k0 & E0 & F0), (Hf Y HY P1 (deal i a b h P1)) as (k1 & E1 & F1), (Hf Y HY P2 (deal i a b h P2)) as (k2 & E2 & F2).
      apply (evals_exchange _ (fun j => ms j (Y j)) (fun j => match j with P0 => k0 | P1 => k1 | P2 => k2 end)
              (fun j => (deal i a b h j, out j (Y j) (ms (prev j) (Y (prev j)))))).
      - intros []; assumption.
      - intros []; assumption. }
    eexists _, _, [], _, _. split; [reflexivity|]. split; [apply (R X HX)|]. split; [apply (R X' HX')|]. cbn beta.
    rewrite (Hm X X' HX HX' HXX). split; [reflexivity|]. split; [reflexivity|]. split; [rewrite HXX; reflexivity|]. split; [auto|].
    intros [|] ? ? Hl ? ?; [reflexivity|discriminate].
  Qed.
  (** What the others hold of an opened value is determined by the value and one's own shares. *)
  Lemma open_fixed K Y Y' o : 0 <= K -> arith_shared K Y o -> arith_shared K Y' o -> Y i = Y' i -> sb (Y (prev i)) = sb (Y' (prev i)).
  Proof.
    intros HK (R1 & N1 & S1) (R2 & N2 & S2) E. rewrite N1, N2.
    assert (Ea : sa (Y i) = sa (Y' i)) by (rewrite E; reflexivity).
    assert (Eb : sa (Y (prev i)) = sa (Y' (prev i))) by (rewrite <- N1, <- N2, E; reflexivity).
    apply (mod_add_inj K (sa (Y i) + sa (Y (prev i)))); [exact HK|apply R1|apply R2|].
    transitivity o.
    - rewrite S1. f_equal. destruct i; cbn [prev next]; lia.
    - rewrite S2, Ea, Eb. f_equal. destruct i; cbn [prev next]; lia.
  Qed.
  Lemma open_bit_fixed Y Y' o : aby3_bit Y o -> aby3_bit Y' o -> Y i = Y' i -> sb (Y (prev i)) = sb (Y' (prev i)).
  Proof.
    intros (R1 & N1 & S1) (R2 & N2 & S2) E. rewrite N1, N2.
    assert (Ea : sa (Y i) = sa (Y' i)) by (rewrite E; reflexivity).
    assert (Eb : sa (Y (prev i)) = sa (Y' (prev i))) by (rewrite <- N1, <- N2, E; reflexivity).
    assert (G : forall a b c, c = Z.lxor (Z.lxor a b) (Z.lxor (Z.lxor a b) c)) by (intros; bitsolve).
    rewrite (G (sa (Y i)) (sa (Y (prev i))) (sa (Y (prev (prev i))))), (G (sa (Y i)) (sa (Y (prev i))) (sa (Y' (prev (prev i))))).
    f_equal. transitivity (Z.b2z o).
    - rewrite S1. destruct i; cbn [prev]; bitsolve.
    - rewrite S2, Ea, Eb. destruct i; cbn [prev]; bitsolve.
  Qed.
  Lemma RL_fixed {B} (R : (pid -> share) -> B -> Prop) :
    (forall Y Y' o, R Y o -> R Y' o -> Y i = Y' i -> sb (Y (prev i)) = sb (Y' (prev i))) ->
    forall os X X', RL R X os -> RL R X' os -> X i = X' i -> map sb (X (prev i)) = map sb (X' (prev i)).
  Proof.
    intros HR. induction os as [|o os IH]; intros X X' H H' E.
    - rewrite (RL_inv_nil _ _ H), (RL_inv_nil _ _ H'). reflexivity.
    - apply RL_inv_cons in H, H'. destruct H as (Y & Z & HX & HY & HZ), H' as (Y' & Z' & HX' & HY' & HZ').
      rewrite HX, HX' in E. injection E as E1 E2. rewrite HX, HX'. cbn [map]. f_equal; [eapply HR; eassumption|apply IH; assumption].
  Qed.
End Open.

(** ** Reading registers *)
Definition rdA (m : mem share share) (n : nat) : share := nth n (areg m) szero.
Definition rdB (m : mem share share) (n : nat) : share := nth n (breg m) szero.
Definition rdsA (m : mem share share) (ns : list nat) : list share := match gets (areg m) ns with Some l => l | None => [] end.
Definition rdsB (m : mem share share) (ns : list nat) : list share := match gets (breg m) ns with Some l => l | None => [] end.
Definition rdssA (m : mem share share) (ns : list (list nat)) : list (list share) := match getss (areg m) ns with Some l => l | None => [] end.
Lemma bind_need {S A B} (o : option A) (v : A) (f : A -> M S B) s : o = Some v -> bindM (need o) f s = f v s.
Proof. intros ->. reflexivity. Qed.

Lemma RL_nth {A B} (R : (pid -> A) -> B -> Prop) (d : A) X xs n x : (forall X X' x, (forall i, X i = X' i) -> R X x -> R X' x) ->
  RL R X xs -> nth_error xs n = Some x -> (forall j, nth_error (X j) n = Some (nth n (X j) d)) /\ R (fun j => nth n (X j) d) x.
Proof.
  intros HE H Hn. destruct (RL_nth_error _ _ _ _ _ H Hn) as (Y & HY & HR). assert (E : forall j, nth n (X j) d = Y j) by (intros j; apply nth_error_nth, HY).
  split; [intros j; rewrite E; apply HY|]. eapply HE; [|exact HR]. intros j. symmetry. apply E.
Qed.
Lemma arith_ok K X x j : 0 <= K -> arith_shared K X x -> okS K (X j).
Proof. intros HK (H1 & H2 & _). split; [apply H1|rewrite H2; apply H1]. Qed.
Lemma bit_ok X x j : aby3_bit X x -> okS 1 (X j).
Proof. intros (H1 & H2 & _). split; [apply H1|rewrite H2; apply H1]. Qed.
Lemma RL_ok {B} K (R : (pid -> share) -> B -> Prop) X xs j : (forall Y y, R Y y -> okS K (Y j)) -> RL R X xs -> okL K (length xs) (X j).
Proof.
  intros HR H. induction H as [X HX|X Y X' y ys HX HY HRL IH]; rewrite HX; [split; [reflexivity|constructor]|].
  cbn [length]. destruct IH as [I1 I2]. split; [cbn; lia|]. constructor; [eapply HR; exact HY|exact I2].
Qed.

Section Exec.
  Context (i : pid) (K : Z) (HW : In K widths) (HK3 : 3 <= K).
  Notation MT := (M (prf tape)).
  Notation mm := (mem share share).
  Notation E := (aby3_api tape K).
  Notation shared := (mem_shared (arith_shared K) aby3_bit).
  Lemma HK0' : 0 <= K. Proof using HK3. lia. Qed.

  (** A party's own copy of a command: it does not know the inputs of the others. *)
  Definition own (j : pid) (c : cmd) : cmd := match c with CInput p x => if pid_eqb j p then c else CInput p 0 | _ => c end.
  Lemma own_exec j c m s : exec_cmd (E j) j (own j c) m s = exec_cmd (E j) j c m s.
  Proof using. destruct c; try reflexivity. cbn [own]. destruct (pid_eqb j p) eqn:H; [reflexivity|]. cbn [exec_cmd]. rewrite H. reflexivity. Qed.

  (** The joint inputs of one command [c0] (as party i knows it), before which [lA], [lB] and after which [lA'], [lB']
      have been opened. *)
  Definition stepD (c0 : cmd) (lA lA' : list Z) (lB lB' : list bool) (X : pid -> cmd * mm) : Prop :=
    exists c p p', (forall j, fst (X j) = own j c) /\ own i c = c0 /\ shared (fun j => snd (X j)) p /\
      eval_cmd K c p = Some p' /\ aout p = lA /\ aout p' = lA' /\ bout p = lB /\ bout p' = lB'.
  Definition stepE (X : pid -> cmd * mm) (R : pid -> mm) : Prop :=
    forall c p p', (forall j, fst (X j) = own j c) -> shared (fun j => snd (X j)) p -> eval_cmd K c p = Some p' -> shared R p'.
  Notation f := (fun j z => exec_cmd (E j) j (fst z) (snd z)).

  Lemma priv_local (D : (pid -> cmd * mm) -> Prop) (k : pid -> cmd * mm -> mm) :
    (forall X, D X -> forall j s, f j (X j) s = Ret (s, k j (X j))) -> priv i D f (fun _ _ => True).
  Proof using.
    intros H. eapply (priv_pre _ _ _ _ _ _ _ (fun _ z => z) (priv_ret i D k)); [auto|exact H|auto].
  Qed.
  Lemma priv_gate {T A} (D0 : T -> Prop) (f0 : pid -> T -> MT A) (E0 : T -> A -> Prop) (D : (pid -> cmd * mm) -> Prop) (h : pid -> cmd * mm -> T) (k : pid -> cmd * mm -> A -> mm) :
    ppriv i D0 f0 E0 -> (forall X, D X -> forall j, D0 (h j (X j)) /\ forall s, f j (X j) s = bindM (f0 j (h j (X j))) (fun r => retM (k j (X j) r)) s) ->
    priv i D f (fun _ _ => True).
  Proof using.
    intros H0 H. eapply (priv_pre _ D (fun j z => bindM (f0 j (h j z)) (fun r => retM (k j z r))) (fun _ _ => True) _ _ _ (fun _ z => z)); [|auto|intros X HX j s; apply H, HX|auto].
    eapply (priv_bind _ _ (fun j z => f0 j (h j z)) (fun _ _ => True) (fun j z r => retM (k j z r)) (fun _ _ => True)).
    - eapply (priv_pre _ _ _ _ _ _ _ h H0); [intros X HX j; apply H, HX|reflexivity|auto].
    - eapply (priv_conseq _ _ _ _ _ _ (priv_ret i _ (fun j z => k j (fst z) (snd z)))); [intros X HX; exact HX|auto].
  Qed.

  Lemma rdA_ok (m : pid -> mm) p n x : shared m p -> nth_error (areg p) n = Some x ->
    (forall j, nth_error (areg (m j)) n = Some (rdA (m j) n)) /\ arith_shared K (fun j => rdA (m j) n) x.
  Proof using. intros (Ha & _) H. apply (RL_nth (arith_shared K) szero (fun j => areg (m j)) (areg p) n x); auto. apply arel_ext. Qed.
  Lemma rdB_ok (m : pid -> mm) p n x : shared m p -> nth_error (breg p) n = Some x ->
    (forall j, nth_error (breg (m j)) n = Some (rdB (m j) n)) /\ aby3_bit (fun j => rdB (m j) n) x.
  Proof using. intros (_ & Hb & _) H. apply (RL_nth aby3_bit szero (fun j => breg (m j)) (breg p) n x); auto. intros X X' y HE. apply brel_ext, HE. Qed.
  Lemma rdsA_ok (m : pid -> mm) p ns xs : shared m p -> gets (areg p) ns = Some xs ->
    (forall j, gets (areg (m j)) ns = Some (rdsA (m j) ns)) /\ RL (arith_shared K) (fun j => rdsA (m j) ns) xs.
  Proof using.
    intros (Ha & _) H. destruct (gets_RL _ _ _ _ _ Ha H) as (W & HW' & HR). unfold rdsA. split; [intros j; rewrite HW'; reflexivity|].
    eapply RL_ext; [|exact HR]. intros j. cbn beta. rewrite HW'. reflexivity.
  Qed.
  Lemma rdsB_ok (m : pid -> mm) p ns xs : shared m p -> gets (breg p) ns = Some xs ->
    (forall j, gets (breg (m j)) ns = Some (rdsB (m j) ns)) /\ RL aby3_bit (fun j => rdsB (m j) ns) xs.
  Proof using.
    intros (_ & Ha & _) H. destruct (gets_RL _ _ _ _ _ Ha H) as (W & HW' & HR). unfold rdsB. split; [intros j; rewrite HW'; reflexivity|].
    eapply RL_ext; [|exact HR]. intros j. cbn beta. rewrite HW'. reflexivity.
  Qed.
  Lemma rdssA_ok (m : pid -> mm) p ns xs : shared m p -> getss (areg p) ns = Some xs ->
    (forall j, getss (areg (m j)) ns = Some (rdssA (m j) ns)).
  Proof using.
    intros (Ha & _) H. destruct (getss_RL _ _ _ _ _ Ha H) as (W & HW' & HR). unfold rdssA. intros j; rewrite HW'; reflexivity.
  Qed.

  Ltac bound He :=
    cbn [eval_cmd] in He; unfold guard, obind in He;
    repeat match type of He with
           | (if ?b then _ else _) = _ => destruct b eqn:?; [|discriminate He]
           | match nth_error ?l ?n with _ => _ end = _ => destruct (nth_error l n) eqn:?; [|discriminate He]
           | match gets ?l ?n with _ => _ end = _ => destruct (gets l n) eqn:?; [|discriminate He]
           | match getss ?l ?n with _ => _ end = _ => destruct (getss l n) eqn:?; [|discriminate He]
           end; injection He as <-.
  Ltac same_cmd c Hc0 := destruct c; cbn [own] in Hc0;
    try discriminate Hc0; try (match type of Hc0 with context [if ?b then _ else _] => destruct b end; discriminate Hc0); inversion Hc0; subst; clear Hc0.
  Ltac take X HX := intros X HX; destruct HX as (cc & pp & pp' & Hc & Hc0 & Hm & He & EA & EA' & EB & EB'); same_cmd cc Hc0; bound He;
    repeat match goal with
    | Hm : mem_shared _ _ _ ?p, H : nth_error (areg ?p) _ = Some _ |- _ => apply (rdA_ok _ _ _ _ Hm) in H; destruct H
    | Hm : mem_shared _ _ _ ?p, H : nth_error (breg ?p) _ = Some _ |- _ => apply (rdB_ok _ _ _ _ Hm) in H; destruct H
    | H : in_range K _ = true |- _ => apply in_range_spec in H
    end.
  Ltac run j := cbn beta; match goal with H : forall j, fst _ = own j _ |- _ => rewrite (H j) end; cbn [own exec_cmd]; repeat (erewrite bind_need by eauto).
  Lemma step_priv c0 lA lA' lB lB' : priv i (stepD c0 lA lA' lB lB') f (fun _ _ => True).
  Proof using HW HK3.
    pose proof HK0' as HK0. destruct c0.
    - (* input *)
      apply (priv_gate (inr K) _ _ _ (fun j z => match fst z with CInput _ y => y | _ => 0 end) (fun j z r => pushA (snd z) [r]) (pp_input i K HW p)).
      intros X (cc & pp & pp' & Hc & Hc0 & Hm & He & _) j.
      assert (Q : exists y, cc = CInput p y /\ inr K y).
      { destruct cc as [q y| | | | | | | | | | | | | | | |]; try discriminate Hc0. cbn [own] in Hc0. exists y.
        cbn [eval_cmd] in He; unfold guard in He. destruct (in_range K y) eqn:Ey; [|discriminate]. apply in_range_spec in Ey.
        destruct (pid_eqb i q); inversion Hc0; subst; auto. }
      destruct Q as (y & -> & Hy). split.
      + rewrite Hc. cbn [own]. destruct (pid_eqb j p); [exact Hy|]. pose proof (pow2_pos K HK0). unfold inr. lia.
      + intros s. cbn beta. rewrite (Hc j). cbn [own]. destruct (pid_eqb j p) eqn:Ej; cbn [exec_cmd fst]; rewrite Ej; reflexivity.
    - apply (priv_local _ (fun j z => pushA (snd z) [sh_add K (rdA (snd z) m) (rdA (snd z) n)])). take X HX. intros j s. run j. reflexivity.
    - apply (priv_local _ (fun j z => pushA (snd z) [sh_sub K (rdA (snd z) m) (rdA (snd z) n)])). take X HX. intros j s. run j. reflexivity.
    - apply (priv_local _ (fun j z => pushA (snd z) [sh_add_const j K (rdA (snd z) m) c])). take X HX. intros j s. run j. reflexivity.
    - apply (priv_local _ (fun j z => pushA (snd z) [sh_sub_const j K (rdA (snd z) m) c])). take X HX. intros j s. run j. reflexivity.
    - apply (priv_local _ (fun j z => pushA (snd z) [sh_mulc K (rdA (snd z) m) c])). take X HX. intros j s. run j. reflexivity.
    - apply (priv_gate (fun _ => True) _ _ _ (fun j z => (rdA (snd z) m, rdA (snd z) n)) (fun j z r => pushA (snd z) [r]) (pp_mul i K HW)). take X HX. intros j. split; [exact I|]. intros s. run j. reflexivity.
    - apply (priv_gate _ _ _ _ (fun j z => (rdsA (snd z) ms, rdsA (snd z) ns)) (fun j z r => pushA (snd z) [r]) (pp_dot i K HW (length ms))). take X HX. intros j.
      apply andb_true_iff in Heqb as [Hl _]. apply Nat.eqb_eq in Hl.
      destruct (rdsA_ok _ _ _ _ Hm Heqo) as [G1 _], (rdsA_ok _ _ _ _ Hm Heqo0) as [G2 _]. split; [|intros s; run j; reflexivity].
      cbn [fst snd]. rewrite (gets_length _ _ _ (G1 j)), (gets_length _ _ _ (G2 j)). auto.
    - apply (priv_gate _ _ _ _ (fun j z => (rdssA (snd z) ms, rdssA (snd z) ns)) (fun j z r => pushA (snd z) r) (pp_dot_many i K HW (length ms))). take X HX. intros j.
      apply andb_true_iff in Heqb as [Hl _]. apply same_lens_spec in Hl.
      pose proof (rdssA_ok _ _ _ _ Hm Heqo) as G1. pose proof (rdssA_ok _ _ _ _ Hm Heqo0) as G2. split; [|intros s; run j; reflexivity].
      cbn [fst snd]. pose proof (getss_lens _ _ _ (G1 j)) as L1. pose proof (getss_lens _ _ _ (G2 j)) as L2.
      cbv beta in L1, L2. revert Hl L1 L2. clear. generalize (rdssA (snd (X j)) ms) (rdssA (snd (X j)) ns). intros l1 l2 Hl L1 L2.
      pose proof (Forall2_len _ _ _ Hl) as Q0. pose proof (Forall2_len _ _ _ L1) as Q1. pose proof (Forall2_len _ _ _ L2) as Q2.
      split; [exact Q1|]. split; [congruence|]. clear Q0 Q1 Q2. revert l1 l2 L1 L2. induction Hl as [|a b ms ns [Hab _] HF IH]; intros l1 l2 L1 L2; inversion L1; inversion L2; subst; constructor; [congruence|auto].
    - apply (priv_gate _ _ _ _ (fun j z => rdA (snd z) m) (fun j z r => pushB (snd z) [r]) (pp_msb i K HW)). take X HX. intros j.
      split; [apply (arith_ok K _ _ j HK0 H0)|]. intros s. run j. reflexivity.
    - destruct (length ms) as [|len] eqn:El.
      { eapply (priv_conseq _ (fun _ => False) _ f (fun _ _ => True)); [|take X HX; rewrite El in Heqb; discriminate|auto]. exists O, O. intros X X' []. }
      apply (priv_gate _ _ _ _ (fun j z => rdsA (snd z) ms) (fun j z r => pushB (snd z) r) (pp_msb_many i K (S len) HW HK3 ltac:(lia))). take X HX. intros j.
      destruct (rdsA_ok _ _ _ _ Hm Heqo) as [G1 G2]. split; [|intros s; run j; reflexivity].
      rewrite <- El, <- (gets_length _ _ _ Heqo). apply (RL_ok K (arith_shared K) _ _ j (fun Y y HY => arith_ok K Y y j HK0 HY) G2).
    - apply (priv_gate _ _ _ _ (fun j z => (rdB (snd z) m, rdB (snd z) n)) (fun j z r => pushB (snd z) [r]) (pp_or i 1 W1)). take X HX. intros j.
      split; [|intros s; run j; reflexivity]. cbn [fst snd]. split; [apply (bit_ok _ _ j H2)|apply (bit_ok _ _ j H0)].
    - destruct (Nat.ltb 0 (length ms) && Nat.ltb 0 chunk) eqn:El.
      2: { eapply (priv_conseq _ (fun _ => False) _ f (fun _ _ => True)); [|take X HX; rewrite El in Heqb; discriminate|auto]. exists O, O. intros X X' []. }
      apply andb_true_iff in El as [L1 L2]. apply Nat.ltb_lt in L1, L2.
      apply (priv_gate _ _ _ _ (fun j z => rdsB (snd z) ms) (fun j z r => pushB (snd z) [r]) (pp_reduce_or i (length ms) chunk L2 L1)). take X HX. intros j.
      destruct (rdsB_ok _ _ _ _ Hm Heqo) as [G1 G2]. split; [|intros s; run j; reflexivity].
      rewrite <- (gets_length _ _ _ Heqo). apply (RL_ok 1 aby3_bit _ _ j (fun Y y HY => bit_ok Y y j HY) G2).
    - apply (priv_swap i _ _ (fun j z => to_bytes K (sb (rdA (snd z) m))) (fun j z mg => outA (snd z) [radd K (radd K (sa (rdA (snd z) m)) (sb (rdA (snd z) m))) (match from_bytes K mg with Ok v => v | Err _ => 0 end)])).
      + take X HX. intros j s. eexists. split; [run j; cbn [aby3_api a_open]; unfold open, bindM, liftM, send_and_receive_value, send_and_receive; cbn [bind]; reflexivity|].
        cbn beta. rewrite from_to_bytes by first [exact HW|apply (arith_ok K _ _ (prev j) HK0 H0)]. reflexivity.
      + intros X X' HX HX' HXX. revert X' HX' HXX. revert X HX. take X HX. intros X' (cc & pp1 & pp1' & Hc' & Hc0 & Hm' & He & EA1 & EA1' & EB1 & EB1') HXX. same_cmd cc Hc0. bound He.
        apply (rdA_ok _ _ _ _ Hm') in Heqo. destruct Heqo as [_ H1]. cbn [outA aout] in EA1'. rewrite EA1 in EA1'. apply app_inv_head in EA1'. injection EA1' as ->.
        rewrite (open_fixed i K (fun j => rdA (snd (X j)) m) (fun j => rdA (snd (X' j)) m) z HK0 H0 H1); [reflexivity|]. cbn beta. rewrite HXX. reflexivity.
    - apply (priv_swap i _ _ (fun j z => ring_slice_to_bytes K (map sb (rdsA (snd z) ms))) (fun j z mg => outA (snd z)
         (map2 (fun s c => radd K (radd K c (sa s)) (sb s)) (rdsA (snd z) ms) (match ring_iter_from_bytes K mg (length ms) with Ok v => v | Err _ => [] end)))).
      + take X HX. intros j s. destruct (rdsA_ok _ _ _ _ Hm Heqo) as [G1 G2]. pose proof (gets_length _ _ _ Heqo) as L.
        eexists. split; [run j; cbn [aby3_api a_open_many]; unfold open_many, bindM, liftM, send_slice_and_receive_iter, send_and_receive; cbn [bind]; reflexivity|].
        cbn beta. destruct (RL_ok K (arith_shared K) _ _ (prev j) (fun Y y HY => arith_ok K Y y (prev j) HK0 HY) G2) as [R1 R2].
        rewrite map_length, (gets_length _ _ _ (G1 j)). replace (length ms) with (length (map sb (rdsA (snd (X (prev j))) ms))) by (rewrite map_length; congruence).
        rewrite iter_roundtrip; [reflexivity|exact HW|]. apply Forall_map. eapply Forall_impl; [|exact R2]. intros x Hx. apply Hx.
      + intros X X' HX HX' HXX. revert X' HX' HXX. revert X HX. take X HX. intros X' (cc & pp1 & pp1' & Hc' & Hc0 & Hm' & He & EA1 & EA1' & EB1 & EB1') HXX. same_cmd cc Hc0. bound He.
        destruct (rdsA_ok _ _ _ _ Hm Heqo) as [G1 G2]. destruct (rdsA_ok _ _ _ _ Hm' Heqo0) as [G1' G2']. cbn [outA aout] in EA1'. rewrite EA1 in EA1'. apply app_inv_head in EA1'. subst l0.
        f_equal. apply (RL_fixed i (arith_shared K) (fun Y Y' o HY HY' => open_fixed i K Y Y' o HK0 HY HY') _ _ _ G2 G2'). cbn beta. rewrite HXX. reflexivity.
    - apply (priv_swap i _ _ (fun j z => to_bytes 1 (sb (rdB (snd z) m))) (fun j z mg => outB (snd z) [rxor (rxor (sa (rdB (snd z) m)) (sb (rdB (snd z) m))) (match from_bytes 1 mg with Ok v => v | Err _ => 0 end) =? 1])).
      + take X HX. intros j s. eexists. split; [run j; cbn [aby3_api a_mpc aby3_engine m_open_bit]; unfold open_bit, bindM, liftM, send_and_receive_value, send_and_receive; cbn [bind]; reflexivity|].
        cbn beta. rewrite from_to_bytes by first [exact W1|apply (bit_ok _ _ (prev j) H0)]. reflexivity.
      + intros X X' HX HX' HXX. revert X' HX' HXX. revert X HX. take X HX. intros X' (cc & pp1 & pp1' & Hc' & Hc0 & Hm' & He & EA1 & EA1' & EB1 & EB1') HXX. same_cmd cc Hc0. bound He.
        apply (rdB_ok _ _ _ _ Hm') in Heqo. destruct Heqo as [_ H1]. cbn [outB bout] in EB1'. rewrite EB1 in EB1'. apply app_inv_head in EB1'. injection EB1' as ->.
        rewrite (open_bit_fixed i (fun j => rdB (snd (X j)) m) (fun j => rdB (snd (X' j)) m) b H0 H1); [reflexivity|]. cbn beta. rewrite HXX. reflexivity.
    - apply (priv_swap i _ _ (fun j z => ring_slice_to_bytes 1 (map sb (rdsB (snd z) ms))) (fun j z mg => outB (snd z)
         (map2 (fun s c => rxor (rxor c (sa s)) (sb s) =? 1) (rdsB (snd z) ms) (match ring_iter_from_bytes 1 mg (length ms) with Ok v => v | Err _ => [] end)))).
      + take X HX. intros j s. destruct (rdsB_ok _ _ _ _ Hm Heqo) as [G1 G2]. pose proof (gets_length _ _ _ Heqo) as L.
        eexists. split; [run j; cbn [aby3_api a_open_bit_many]; unfold open_bit_many, bindM, liftM, send_slice_and_receive_iter, send_and_receive; cbn [bind]; reflexivity|].
        cbn beta. destruct (RL_ok 1 aby3_bit _ _ (prev j) (fun Y y HY => bit_ok Y y (prev j) HY) G2) as [R1 R2].
        rewrite map_length, (gets_length _ _ _ (G1 j)). replace (length ms) with (length (map sb (rdsB (snd (X (prev j))) ms))) by (rewrite map_length; congruence).
        rewrite iter_roundtrip; [reflexivity|exact W1|]. apply Forall_map. eapply Forall_impl; [|exact R2]. intros x Hx. apply Hx.
      + intros X X' HX HX' HXX. revert X' HX' HXX. revert X HX. take X HX. intros X' (cc & pp1 & pp1' & Hc' & Hc0 & Hm' & He & EA1 & EA1' & EB1 & EB1') HXX. same_cmd cc Hc0. bound He.
        destruct (rdsB_ok _ _ _ _ Hm Heqo) as [G1 G2]. destruct (rdsB_ok _ _ _ _ Hm' Heqo0) as [G1' G2']. cbn [outB bout] in EB1'. rewrite EB1 in EB1'. apply app_inv_head in EB1'. subst l0.
        f_equal. apply (RL_fixed i aby3_bit (fun Y Y' o HY HY' => open_bit_fixed i Y Y' o HY HY') _ _ _ G2 G2'). cbn beta. rewrite HXX. reflexivity.
  Qed.

  Lemma deal_synced a b h : prf_synced (deal i a b h).
  Proof using. intros j. rewrite !(st_tapes i a b h). reflexivity. Qed.
  Lemma shared_ext m m' p : (forall j, m j = m' j) -> shared m p -> shared m' p.
  Proof using.
    intros H (H1 & H2 & H3 & H4). split; [eapply RL_ext; [|exact H1]; intros j; cbn beta; rewrite H; reflexivity|].
    split; [eapply RL_ext; [|exact H2]; intros j; cbn beta; rewrite H; reflexivity|]. split; intros j; rewrite <- H; auto.
  Qed.
  Lemma step_priv' c0 lA lA' lB lB' : priv i (stepD c0 lA lA' lB lB') f stepE.
  Proof using HW HK3.
    eapply (priv_conseq _ _ _ _ (fun X R => True /\ stepE X R)); [apply (priv_know _ _ f (fun _ _ => True) stepE (step_priv c0 lA lA' lB lB'))|auto|intros X R _ [_ H]; exact H].
    - intros X R R' HR H c p p' Hc Hm He. eapply shared_ext; [exact HR|]. eapply H; eassumption.
    - intros X a b h (c & p & p' & Hc & _ & Hm & He & _).
      assert (G : forall c p p', (forall j, fst (X j) = own j c) -> shared (fun j => snd (X j)) p -> eval_cmd K c p = Some p' ->
         wpM (fun j => f j (X j)) (deal i a b h) (fun _ R => shared R p')).
      { intros c1 p1 p1' Hc1 Hm1 He1. eapply wpM_mono; [|apply (wpM_ext (fun j => exec_cmd (E j) j c1 (snd (X j))))].
        3: apply (exec_cmd_ok _ _ _ _ _ (aby3_api_ok tape K HW HK3) c1 (fun j => snd (X j)) p1 p1' _ (deal_synced a b h) Hm1 He1).
        - cbn beta. intros s' R [_ HR]. exact HR.
        - intros j. cbn beta. rewrite Hc1, own_exec. reflexivity. }
      destruct (G c p p' Hc Hm He) as (R & HR & HQ). exists R. split; [exact HR|].
      intros c1 p1 p1' Hc1 Hm1 He1. destruct (G c1 p1 p1' Hc1 Hm1 He1) as (R1 & HR1 & HQ1). cbn beta in HQ1.
      pose proof (evals_unique _ _ _ HR1 HR) as U. eapply shared_ext; [|exact HQ1]. intros j. cbn beta. rewrite U. reflexivity.
  Qed.

  (** *** Whole programs *)
  Definition outsA (c : cmd) : nat := match c with COpen _ => 1 | COpenMany ms => length ms | _ => 0 end.
  Definition outsB (c : cmd) : nat := match c with COpenBit _ => 1 | COpenBitMany ms => length ms | _ => 0 end.
  Lemma eval_cmd_outs c p p' : eval_cmd K c p = Some p' ->
    exists u v, aout p' = aout p ++ u /\ bout p' = bout p ++ v /\ length u = outsA c /\ length v = outsB c.
  Proof using.
    intros He. destruct c; bound He; cbn [pushA pushB outA outB aout bout outsA outsB];
      first [exists [], []; rewrite !app_nil_r; repeat split; reflexivity
            |eexists _, []; split; [reflexivity|]; split; [symmetry; apply app_nil_r|]; split; [first [reflexivity|eapply gets_length; eassumption]|reflexivity]
            |eexists [], _; split; [symmetry; apply app_nil_r|]; split; [reflexivity|]; split; [reflexivity|first [reflexivity|eapply gets_length; eassumption]]].
  Qed.
  Lemma eval_outs cs : forall p p', eval K cs p = Some p' -> exists u v, aout p' = aout p ++ u /\ bout p' = bout p ++ v.
  Proof using.
    induction cs as [|c cs IH]; intros p p' He.
    - injection He as <-. exists [], []. rewrite !app_nil_r. auto.
    - cbn [eval] in He. unfold obind in He. destruct (eval_cmd K c p) as [p1|] eqn:E1; [|discriminate].
      destruct (eval_cmd_outs _ _ _ E1) as (u & v & A1 & B1 & _). destruct (IH _ _ He) as (u' & v' & A2 & B2).
      exists (u ++ u'), (v ++ v'). rewrite A2, B2, A1, B1, !app_assoc. auto.
  Qed.
  Lemma own_outs j c : outsA (own j c) = outsA c /\ outsB (own j c) = outsB c.
  Proof using. destruct c; auto. cbn [own]. destruct (pid_eqb j p); auto. Qed.
  Definition progD (oA : list Z) (oB : list bool) (cs0 : list cmd) (lA : list Z) (lB : list bool) (X : pid -> list cmd * mm) : Prop :=
    exists cs p pf, (forall j, fst (X j) = map (own j) cs) /\ map (own i) cs = cs0 /\ shared (fun j => snd (X j)) p /\
      eval K cs p = Some pf /\ aout p = lA /\ bout p = lB /\ aout pf = oA /\ bout pf = oB.
  Lemma exec_priv oA oB cs0 : forall lA lB, priv i (progD oA oB cs0 lA lB) (fun j z => exec (E j) j (fst z) (snd z)) (fun _ _ => True).
  Proof using HW HK3.
    induction cs0 as [|c0 cs0 IH]; intros lA lB.
    - eapply (priv_pre _ _ _ _ _ _ _ (fun _ z => z) (priv_ret i (progD oA oB [] lA lB) (fun _ z => snd z))); [auto| |auto].
      intros X (cs & p & pf & Hc & Hc0 & _) j s. destruct cs; [|discriminate]. rewrite Hc. reflexivity.
    - set (lA' := firstn (length lA + outsA c0) oA). set (lB' := firstn (length lB + outsB c0) oB).
      eapply (priv_eq _ _ (fun j z => bindM (exec_cmd (E j) j (hd c0 (fst z)) (snd z)) (fun m => exec (E j) j (tl (fst z)) m))).
      2: { intros X (cs & p & pf & Hc & Hc0 & _) j s. destruct cs as [|c cs]; [discriminate|]. rewrite Hc. reflexivity. }
      assert (Hout : forall c p p1 pf cs, own i c = c0 -> eval_cmd K c p = Some p1 -> eval K cs p1 = Some pf -> aout p = lA -> bout p = lB -> aout pf = oA -> bout pf = oB -> aout p1 = lA' /\ bout p1 = lB').
      { intros c p p1 pf cs Hc E1 E2 HA HB HoA HoB. destruct (eval_cmd_outs _ _ _ E1) as (u & v & A1 & B1 & LA & LB). destruct (eval_outs _ _ _ E2) as (u' & v' & A2 & B2).
        destruct (own_outs i c) as [N1 N2]. rewrite Hc in N1, N2. unfold lA', lB'. rewrite N1, N2, <- LA, <- LB, <- HoA, <- HoB, A2, B2, A1, B1, HA, HB.
        split; symmetry; apply firstn_len_app; rewrite app_length; reflexivity. }
      eapply (priv_bind _ _ (fun j z => exec_cmd (E j) j (hd c0 (fst z)) (snd z)) (fun X R => stepE (fun j => (hd c0 (fst (X j)), snd (X j))) R) (fun j z m => exec (E j) j (tl (fst z)) m) (fun _ _ => True)).
      + eapply (priv_pre _ _ _ _ _ _ _ (fun _ z => (hd c0 (fst z), snd z)) (step_priv' c0 lA lA' lB lB')); [|reflexivity|auto].
        intros X (cs & p & pf & Hc & Hc0 & Hm & He & HA & HB & HoA & HoB). destruct cs as [|c cs]; [discriminate|]. injection Hc0 as Hc0 Hcs.
        cbn [eval] in He. unfold obind in He. destruct (eval_cmd K c p) as [p1|] eqn:E1; [|discriminate].
        exists c, p, p1. destruct (Hout _ _ _ _ _ Hc0 E1 He HA HB HoA HoB). cbn [fst snd]. repeat (split; [first [assumption|intros j; rewrite Hc; reflexivity]|]). assumption.
      + eapply (priv_pre _ _ _ _ _ _ _ (fun _ z => (tl (fst (fst z)), snd z)) (IH lA' lB')); [|reflexivity|auto].
        intros X [(cs & p & pf & Hc & Hc0 & Hm & He & HA & HB & HoA & HoB) HE]. cbn [fst snd] in *. destruct cs as [|c cs]; [discriminate|]. injection Hc0 as Hc0 Hcs.
        cbn [eval] in He. unfold obind in He. destruct (eval_cmd K c p) as [p1|] eqn:E1; [|discriminate].
        exists cs, p1, pf. destruct (Hout _ _ _ _ _ Hc0 E1 He HA HB HoA HoB). cbn [fst snd].
        split; [intros j; rewrite Hc; reflexivity|]. split; [exact Hcs|]. split; [|auto].
        apply (HE c p p1); cbn [fst snd]; [intros j; rewrite Hc; reflexivity|exact Hm|exact E1].
  Qed.
End Exec.

(** ** From the calculus to what a party sees *)
Lemma sees_det {S A} i (P : pid -> M S A) s v r v' r' : sees i P s v r -> sees i P s v' r' -> v = v' /\ r = r'.
Proof.
  intros (R & H & <- & <-) (R' & H' & <- & <-).
  assert (G : forall Q, always_evals (fun j => spied (P j (s j))) Q -> evals (fun j => spied (P j (s j))) Q).
  { intros Q [n HQ]. destruct (HQ [] _ (steps_nil _)) as (_ & (s' & Hs & _) & _). exists s'. exact Hs. }
  pose proof (evals_unique _ _ _ (G _ H) (G _ H')) as U.
  rewrite U. auto.
Qed.
Lemma priv_same {T A} i (D : (pid -> T) -> Prop) (f : pid -> T -> M (prf tape) A) E : priv i D f E -> forall X X', D X -> D X' -> X i = X' i ->
  same_to i (fun j => f j (X j)) (fun j => f j (X' j)).
Proof.
  intros (n & m & C) X X' HX HX' HXX. exists n. intros a b matched.
  assert (G : forall X X', D X -> D X' -> X i = X' i -> matched (fun j => f j (X j)) (fun j => f j (X' j))).
  { clear X X' HX HX' HXX. intros X X' HX HX' HXX w Hw.
    assert (RS : forall Y w V R h, runs i n (fun j => f j (Y j)) a b w V R -> sees i (fun j => f j (Y j)) (deal i a b (w ++ h)) (V i) (R i)).
    { intros Y w0 V R h H. exists (fun j => (V j, (deal i (skipn n a) (skipn n b) h j, R j))). split; [|split; reflexivity]. apply evals_always, H. }
    destruct (C X X' HX HX' HXX a b w Hw) as (V & R & w' & V' & R' & K1 & K2 & K3 & K4 & K5 & K6 & _ & K8).
    exists (V i), (R i). split; [intros h; apply RS, K2|]. exists w'. split.
    - split; [exact K1|]. intros h. rewrite K4, K6. apply RS, K3.
    - intros w2 [Hw2 Hs]. symmetry.
      destruct (C X' X HX' HX (eq_sym HXX) a b w2 Hw2) as (V2 & R2 & w3 & V3 & R3 & J1 & J2 & _).
      apply (K8 w2 V2 R2 Hw2 J2). destruct (sees_det i _ _ _ _ _ _ (RS X' w2 V2 R2 [] J2) (Hs [])) as [E1 _]. exact E1. }
  split; apply G; auto.
Qed.
