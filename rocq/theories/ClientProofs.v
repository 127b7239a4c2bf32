(** Any sequence of engine calls computes the plain result. *)
From Verif Require Import Base Ring Prog Sched Rel Protocol MpcSpec Client.

Lemma all_some_RL {A B} (R : (pid -> A) -> B -> Prop) (X : pid -> list (option A)) (ys : list (option B)) zs :
  RL (fun Y y => forall z, y = Some z -> exists W, (forall i, Y i = Some (W i)) /\ R W z) X ys -> all_some ys = Some zs ->
  exists W, (forall i, all_some (X i) = Some (W i)) /\ RL R W zs.
Proof.
  intros H. revert zs. induction H as [X HX|X Y X' y ys HX HY HR IH]; intros zs Hz.
  - injection Hz as <-. exists (fun _ => []). split; [|apply RL_nil']. intros i. rewrite HX. reflexivity.
  - cbn [all_some] in Hz. destruct y as [z|]; [|discriminate].
    destruct (all_some ys) as [r|] eqn:E; [|discriminate]. injection Hz as <-.
    destruct (HY z eq_refl) as (W & HW & HRW). destruct (IH r eq_refl) as (W' & HW' & HRW').
    exists (fun i => W i :: W' i). split; [|apply RL_cons'; assumption].
    intros i. rewrite HX. cbn [all_some]. rewrite HW, HW'. reflexivity.
Qed.
Lemma RL_of_list {A B T} (R : (pid -> A) -> B -> Prop) (f : pid -> T -> A) (g : T -> B) (l : list T) :
  (forall t, R (fun i => f i t) (g t)) -> RL R (fun i => map (f i) l) (map g l).
Proof. intros H. induction l as [|t l IH]; [apply RL_nil'|]. cbn [map]. apply (RL_cons' R (fun i => f i t)); [apply H|exact IH]. Qed.
Lemma gets_RL {A B} (R : (pid -> A) -> B -> Prop) X xs ns zs : RL R X xs -> gets xs ns = Some zs ->
  exists W, (forall i, gets (X i) ns = Some (W i)) /\ RL R W zs.
Proof.
  intros H Hz. unfold gets. eapply all_some_RL; [|exact Hz].
  apply (RL_of_list _ (fun i n => nth_error (X i) n) (fun n => nth_error xs n)).
  intros n z Hn. apply (RL_nth_error _ _ _ _ _ H Hn).
Qed.
Lemma getss_RL {A B} (R : (pid -> A) -> B -> Prop) X xs ns zs : RL R X xs -> getss xs ns = Some zs ->
  exists W, (forall i, getss (X i) ns = Some (W i)) /\ RL (RL R) W zs.
Proof.
  intros H Hz. unfold getss. eapply all_some_RL; [|exact Hz].
  apply (RL_of_list _ (fun i n => gets (X i) n) (fun n => gets xs n)).
  intros n z Hn. apply (gets_RL _ _ _ _ _ H Hn).
Qed.
Lemma all_some_length {A} (l : list (option A)) r : all_some l = Some r -> length r = length l.
Proof.
  revert r. induction l as [|[a|] l IH]; intros r H; [injection H as <-; reflexivity| |discriminate].
  cbn [all_some] in H. destruct (all_some l); [|discriminate]. injection H as <-. cbn. f_equal. auto.
Qed.
Lemma gets_length {A} (l : list A) ns r : gets l ns = Some r -> length r = length ns.
Proof. intros H. apply all_some_length in H. rewrite map_length in H. exact H. Qed.
Lemma getss_lens {A} (l : list A) nss r : getss l nss = Some r -> Forall2 (fun x ns => length x = length ns) r nss.
Proof.
  revert r. induction nss as [|ns nss IH]; intros r H; [injection H as <-; constructor|].
  unfold getss in *. cbn [map all_some] in H. destruct (gets l ns) as [x|] eqn:E; [|discriminate].
  destruct (all_some (map (gets l) nss)) as [r'|] eqn:E'; [|discriminate]. injection H as <-.
  constructor; [apply (gets_length _ _ _ E)|auto].
Qed.
Lemma same_lens_spec {A B} (a : list (list A)) (b : list (list B)) : same_lens a b = true ->
  Forall2 (fun x y => length x = length y /\ (0 < length x)%nat) a b.
Proof.
  unfold same_lens. rewrite andb_true_iff, Nat.eqb_eq. intros [Hl Hf]. revert b Hl Hf.
  induction a as [|x a IH]; intros [|y b] Hl Hf; try discriminate; [constructor|].
  cbn [combine forallb fst snd] in Hf. rewrite !andb_true_iff, Nat.eqb_eq, Nat.ltb_lt in Hf.
  constructor; [tauto|]. apply IH; [cbn in Hl; congruence|tauto].
Qed.
Lemma in_range_spec K x : in_range K x = true -> inr K x.
Proof. unfold in_range, inr. rewrite andb_true_iff, Z.leb_le, Z.ltb_lt. tauto. Qed.

Section Client.
  Context {S A B : Type} (E : pid -> api S A B) (K : Z) (AR : (pid -> A) -> Z -> Prop) (BR : (pid -> B) -> bool -> Prop)
          (J : (pid -> S) -> Prop) (ok : api_ok E K AR BR J).

  Lemma wpM_need {T} (o : pid -> option T) (v : pid -> T) (s : pid -> S) (Q : (pid -> S) -> (pid -> T) -> Prop) :
    (forall i, o i = Some (v i)) -> Q s v -> wpM (fun i => need (o i)) s Q.
  Proof.
    intros H HQ. apply (wpM_ext (fun i => retM (v i))). { intros i. rewrite H. reflexivity. }
    apply wpM_ret, HQ.
  Qed.
  Lemma wpM_need_bind {T U} (o : pid -> option T) (v : pid -> T) (f : pid -> T -> M S U) (s : pid -> S) Q :
    (forall i, o i = Some (v i)) -> wpM (fun i => f i (v i)) s Q -> wpM (fun i => bindM (need (o i)) (f i)) s Q.
  Proof.
    intros H HQ. apply (wpM_bind (fun i => need (o i)) f). eapply wpM_need; [exact H|exact HQ].
  Qed.
  Lemma wpM_op {T U} (P : pid -> M S T) (f : pid -> T -> U) (s : pid -> S) (Q : (pid -> S) -> (pid -> T) -> Prop) (Q' : (pid -> S) -> (pid -> U) -> Prop) :
    wpM P s Q -> (forall s' v, Q s' v -> Q' s' (fun i => f i (v i))) ->
    wpM (fun i => bindM (P i) (fun r => retM (f i r))) s Q'.
  Proof.
    intros H HQ. apply (wpM_bind P (fun i r => retM (f i r))). eapply wpM_mono; [|exact H].
    intros s' v Hv. apply wpM_ret, HQ, Hv.
  Qed.

  Notation Q p := (fun s' m' => J s' /\ mem_shared AR BR m' p).
  Lemma pushA_ok m p W ws : mem_shared AR BR m p -> RL AR W ws -> mem_shared AR BR (fun i => pushA (m i) (W i)) (pushA p ws).
  Proof. intros (Ha & Hb & H1 & H2) HW. repeat split; cbn; auto. apply RL_app; assumption. Qed.
  Lemma pushB_ok m p W ws : mem_shared AR BR m p -> RL BR W ws -> mem_shared AR BR (fun i => pushB (m i) (W i)) (pushB p ws).
  Proof. intros (Ha & Hb & H1 & H2) HW. repeat split; cbn; auto. apply RL_app; assumption. Qed.
  Lemma outA_ok m p W ws : mem_shared AR BR m p -> (forall i, W i = ws) -> mem_shared AR BR (fun i => outA (m i) (W i)) (outA p ws).
  Proof. intros (Ha & Hb & H1 & H2) HW. repeat split; cbn; auto. intros i. rewrite H1, HW. reflexivity. Qed.
  Lemma outB_ok m p W ws : mem_shared AR BR m p -> (forall i, W i = ws) -> mem_shared AR BR (fun i => outB (m i) (W i)) (outB p ws).
  Proof. intros (Ha & Hb & H1 & H2) HW. repeat split; cbn; auto. intros i. rewrite H2, HW. reflexivity. Qed.
  Lemma one {T U} (R : (pid -> T) -> U -> Prop) W w : R W w -> RL R (fun i => [W i]) [w].
  Proof. intros H. apply (RL_cons' R W w (fun _ => [])); [exact H|apply RL_nil']. Qed.

  Lemma exec_cmd_ok c m p p' s : J s -> mem_shared AR BR m p -> eval_cmd K c p = Some p' ->
    wpM (fun i => exec_cmd (E i) i c (m i)) s (Q p').
  Proof using ok.
    intros Hs Hm He. destruct Hm as (Ha & Hb & H1 & H2) eqn:EHm. pose proof Hm as Hm'. clear EHm.
    destruct c; cbn [eval_cmd exec_cmd] in *; unfold guard, obind in He;
      repeat match type of He with
             | (if ?b then _ else _) = _ => destruct b eqn:?; [|discriminate]
             | match nth_error ?l ?n with _ => _ end = _ => destruct (nth_error l n) eqn:?; [|discriminate]
             | match gets ?l ?n with _ => _ end = _ => destruct (gets l n) eqn:?; [|discriminate]
             | match getss ?l ?n with _ => _ end = _ => destruct (getss l n) eqn:?; [|discriminate]
             end; injection He as <-;
      repeat match goal with
             | H : nth_error (areg p) ?n = Some _ |- _ => apply (RL_nth_error _ _ _ _ _ Ha) in H; destruct H as (? & ? & ?)
             | H : nth_error (breg p) ?n = Some _ |- _ => apply (RL_nth_error _ _ _ _ _ Hb) in H; destruct H as (? & ? & ?)
             | H : in_range K _ = true |- _ => apply in_range_spec in H
             end;
      repeat first [eapply wpM_need_bind; [eassumption|]].
    - (* input *)
      eapply wpM_op; [apply (ao_input _ _ _ _ _ ok s p0 x (fun i => if pid_eqb i p0 then Some x else None)); auto; rewrite pid_eqb_refl; reflexivity|].
      intros s' v [HJ HW]. split; [exact HJ|]. apply pushA_ok; [exact Hm'|]. apply one, HW.
    - apply wpM_ret. split; [exact Hs|]. apply pushA_ok; [exact Hm'|]. apply (one AR (fun i => m_add (a_mpc (E i)) (x0 i) (x i))). apply (ao_add _ _ _ _ _ ok); assumption.
    - apply wpM_ret. split; [exact Hs|]. apply pushA_ok; [exact Hm'|]. apply (one AR (fun i => m_sub (a_mpc (E i)) (x0 i) (x i))). apply (ao_sub _ _ _ _ _ ok); assumption.
    - apply (wpM_bind (fun _ => getM) (fun i s => retM (pushA (m i) [a_add_const (E i) s (x i) c]))). apply wpM_get.
      apply wpM_ret. split; [exact Hs|]. apply pushA_ok; [exact Hm'|]. apply (one AR (fun i => a_add_const (E i) (s i) (x i) c)). apply (ao_addc _ _ _ _ _ ok); assumption.
    - apply (wpM_bind (fun _ => getM) (fun i s => retM (pushA (m i) [m_sub_const (a_mpc (E i)) s (x i) c]))). apply wpM_get.
      apply wpM_ret. split; [exact Hs|]. apply pushA_ok; [exact Hm'|]. apply (one AR (fun i => m_sub_const (a_mpc (E i)) (s i) (x i) c)). apply (ao_subc _ _ _ _ _ ok); assumption.
    - apply wpM_ret. split; [exact Hs|]. apply pushA_ok; [exact Hm'|]. apply (one AR (fun i => m_mul_const (a_mpc (E i)) (x i) c)). apply (ao_mulc _ _ _ _ _ ok); assumption.
    - eapply wpM_op; [eapply (ao_mul _ _ _ _ _ ok s x0 z x z0); assumption|].
      intros s' v [HJ HW]. split; [exact HJ|]. apply pushA_ok; [exact Hm'|]. apply one, HW.
    - (* dot *)
      apply andb_true_iff in Heqb as [Hl H0]. apply Nat.eqb_eq in Hl. apply Nat.ltb_lt in H0.
      pose proof (gets_length _ _ _ Heqo) as L1. pose proof (gets_length _ _ _ Heqo0) as L2.
      destruct (gets_RL _ _ _ _ _ Ha Heqo) as (X & HX & HRX). destruct (gets_RL _ _ _ _ _ Ha Heqo0) as (Y & HY & HRY).
      eapply wpM_need_bind; [exact HX|]. eapply wpM_need_bind; [exact HY|].
      eapply wpM_op; [eapply (ao_dot _ _ _ _ _ ok s X l Y l0); try assumption; lia|].
      intros s' v [HJ HW]. split; [exact HJ|]. apply pushA_ok; [exact Hm'|]. apply one, HW.
    - (* dot_many *)
      apply andb_true_iff in Heqb as [Hl H0]. apply same_lens_spec in Hl. apply Nat.ltb_lt in H0.
      pose proof (getss_lens _ _ _ Heqo) as L1. pose proof (getss_lens _ _ _ Heqo0) as L2.
      destruct (getss_RL _ _ _ _ _ Ha Heqo) as (X & HX & HRX). destruct (getss_RL _ _ _ _ _ Ha Heqo0) as (Y & HY & HRY).
      eapply wpM_need_bind; [exact HX|]. eapply wpM_need_bind; [exact HY|].
      eapply wpM_op; [eapply (ao_dot_many _ _ _ _ _ ok s X l Y l0); try assumption|].
      + clear - L1 L2 Hl. revert l l0 L1 L2. induction Hl; intros l0 l1 L1 L2; inversion L1; inversion L2; subst; constructor; [lia|auto].
      + clear - L1 H0. inversion L1; subst; cbn [length] in *; lia.
      + intros s' v [HJ HW]. split; [exact HJ|]. apply pushA_ok; [exact Hm'|]. exact HW.
    - eapply wpM_op; [eapply (ao_msb _ _ _ _ _ ok s x z); assumption|].
      intros s' v [HJ HW]. split; [exact HJ|]. apply pushB_ok; [exact Hm'|]. apply one, HW.
    - (* msb_many *)
      apply Nat.ltb_lt in Heqb. pose proof (gets_length _ _ _ Heqo) as L1.
      destruct (gets_RL _ _ _ _ _ Ha Heqo) as (X & HX & HRX).
      eapply wpM_need_bind; [exact HX|].
      eapply wpM_op; [eapply (ao_msb_many _ _ _ _ _ ok s X l); try assumption; lia|].
      intros s' v [HJ HW]. split; [exact HJ|]. apply pushB_ok; [exact Hm'|]. exact HW.
    - eapply wpM_op; [eapply (ao_or _ _ _ _ _ ok s x0 _ x _); eassumption|].
      intros s' v [HJ HW]. split; [exact HJ|]. apply pushB_ok; [exact Hm'|]. apply one, HW.
    - (* reduce_or *)
      apply andb_true_iff in Heqb as [Hl H0]. apply Nat.ltb_lt in Hl, H0. pose proof (gets_length _ _ _ Heqo) as L1.
      destruct (gets_RL _ _ _ _ _ Hb Heqo) as (X & HX & HRX).
      eapply wpM_need_bind; [exact HX|].
      eapply wpM_op; [eapply (ao_reduce_or _ _ _ _ _ ok s X l chunk); try assumption; lia|].
      intros s' v [HJ HW]. split; [exact HJ|]. apply pushB_ok; [exact Hm'|]. apply one, HW.
    - eapply wpM_op; [eapply (ao_open _ _ _ _ _ ok s x z); assumption|].
      intros s' v [HJ HW]. split; [exact HJ|]. apply (outA_ok m p (fun i => [v i])); [exact Hm'|]. intros i. rewrite HW. reflexivity.
    - destruct (gets_RL _ _ _ _ _ Ha Heqo) as (X & HX & HRX).
      eapply wpM_need_bind; [exact HX|].
      eapply wpM_op; [eapply (ao_open_many _ _ _ _ _ ok s X l); assumption|].
      intros s' v [HJ HW]. split; [exact HJ|]. apply outA_ok; [exact Hm'|exact HW].
    - eapply wpM_op; [eapply (ao_open_bit _ _ _ _ _ ok s x); eassumption|].
      intros s' v [HJ HW]. split; [exact HJ|]. apply (outB_ok m p (fun i => [v i])); [exact Hm'|]. intros i. rewrite HW. reflexivity.
    - destruct (gets_RL _ _ _ _ _ Hb Heqo) as (X & HX & HRX).
      eapply wpM_need_bind; [exact HX|].
      eapply wpM_op; [eapply (ao_open_bit_many _ _ _ _ _ ok s X l); assumption|].
      intros s' v [HJ HW]. split; [exact HJ|]. apply outB_ok; [exact Hm'|exact HW].
  Qed.

  Theorem exec_ok cs : forall m p p' s, J s -> mem_shared AR BR m p -> eval K cs p = Some p' ->
    wpM (fun i => exec (E i) i cs (m i)) s (Q p').
  Proof using ok.
    induction cs as [|c cs IH]; intros m p p' s Hs Hm He.
    - injection He as <-. apply wpM_ret. split; assumption.
    - cbn [eval exec] in *. unfold obind in He. destruct (eval_cmd K c p) as [p1|] eqn:E1; [|discriminate].
      apply (wpM_bind (fun i => exec_cmd (E i) i c (m i)) (fun i m' => exec (E i) i cs m')).
      eapply wpM_mono; [|apply (exec_cmd_ok c m p p1 s Hs Hm E1)].
      intros s1 m1 [Hs1 Hm1]. apply (IH m1 p1 p' s1 Hs1 Hm1 He).
  Qed.
  Lemma mem0_shared : mem_shared AR BR (fun _ => mem0) mem0.
  Proof. repeat split; auto; apply RL_nil'. Qed.
End Client.
