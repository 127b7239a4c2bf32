(** Programs that send only bytes. *)
From Verif Require Import Base Ring RingProofs Prog Sched Conc Duo Rng Net Aby3 Aby3Proofs Jmp JmpProofs Aby3MalProofs2 Poly Dzkp DzkpSpec Swift3 Swift3Setup Swift3Verify.
Local Open Scope list_scope.

Inductive emits {A} : prog A -> Prop :=
| em_ret a : emits (Ret a)
| em_fail e : emits (Fail e)
| em_send to m k : bytes m -> emits k -> emits (Send to m k)
| em_recv from k : (forall m, emits (k m)) -> emits (Recv from k).
Lemma emits_sends {A} (p : prog A) : emits p -> sends_bytes p.
Proof.
  intros HE tr q j L. induction L as [p|to m k tr p L IH|from k m tr p L IH]; [constructor| |].
  - inversion_clear HE. cbn. destruct (pid_eqb to j); auto.
  - inversion_clear HE. cbn. auto.
Qed.
Lemma emits_bind {A B} (p : prog A) (k : A -> prog B) : emits p -> (forall a, emits (k a)) -> emits (bind p k).
Proof. intros Hp Hk. induction Hp; cbn; try (constructor; auto); apply Hk. Qed.
Definition emitsM {S A} (p : M S A) : Prop := forall s, emits (p s).
Lemma emitsM_bind {S A B} (p : M S A) (k : A -> M S B) : emitsM p -> (forall a, emitsM (k a)) -> emitsM (bindM p k).
Proof. intros Hp Hk s. unfold bindM. apply emits_bind; [apply Hp|]. intros [s' a]. apply Hk. Qed.
Lemma emitsM_ret {S A} (a : A) : emitsM (S := S) (retM a). Proof. intros s. constructor. Qed.
Lemma emitsM_fail {S A} e : emitsM (S := S) (A := A) (failM e). Proof. intros s. constructor. Qed.
Lemma emitsM_get {S} : emitsM (S := S) getM. Proof. intros s. constructor. Qed.
Lemma emitsM_put {S} (s : S) : emitsM (putM s). Proof. intros s'. constructor. Qed.
Lemma emitsM_lift {S A} (p : prog A) : emits p -> emitsM (S := S) (liftM p).
Proof. intros Hp s. unfold liftM. apply emits_bind; [exact Hp|]. intros a. constructor. Qed.
Lemma emitsM_res {S A} (r : res A) : emitsM (S := S) (resM r).
Proof. unfold resM. apply emitsM_lift. destruct r; constructor. Qed.
Lemma emitsM_res_bind {S A B} (r : res A) (k : A -> M S B) : (forall a, r = Ok a -> emitsM (k a)) -> emitsM (bindM (resM r) k).
Proof. intros HK s. destruct r as [a|e]; [exact (HK a eq_refl s)|constructor]. Qed.
Lemma emits_broadcast i d : bytes d -> emits (broadcast i d).
Proof. intros Hd. destruct i; cbn; repeat (constructor; try exact Hd; intros). Qed.

Lemma to_be_bytes n v : bytes (to_be n v).
Proof. unfold bytes. revert v. induction n as [|n IH]; intros v; cbn; [constructor|]. apply Forall_app. split; [apply IH|]. repeat constructor; unfold inr; change (2 ^ 8) with 256; pose proof (Z.mod_pos_bound v 256); lia. Qed.
Lemma uint_bytes n v : bytes (bc_uint n v).
Proof. unfold bc_uint, to_le, bytes. apply Forall_rev. apply to_be_bytes. Qed.
Lemma flat_bytes {A} (f : A -> list Z) l : (forall a, bytes (f a)) -> bytes (flat_map f l).
Proof. intros Hf. induction l as [|a l IH]; cbn; [constructor|]. apply Forall_app. split; [apply Hf|exact IH]. Qed.
Lemma vec_bytes {A} (f : A -> list Z) l : (forall a, bytes (f a)) -> bytes (bc_vec f l).
Proof. intros Hf. apply Forall_app. split; [apply uint_bytes|apply flat_bytes, Hf]. Qed.

Section Dz.
  Variables (G : rng) (H : hasher).
  Hypothesis HH : forall x, bytes (hfun H x).
  Context {A : Type} (O : rops A) (red : A -> res A) (eqb : A -> A -> bool) (n : nat) (cf : forall B : Type, rops B -> list B -> B) (enc : A -> list Z) (dec : list Z -> res (A * list Z)).
  Hypothesis Henc : forall a, bytes (enc a).
  Variables (draw_el : rstate G -> rstate G * A) (again : A -> bool) (fuel : nat).

  Lemma coin_emits i q : emitsM (w_coin G H i (snd (draw_bytes G 32 q)) (snd (draw_bytes G 32 (fst (draw_bytes G 32 q))))).
  Proof using HH.
    assert (B : forall q, bytes (snd (draw_bytes G 32 q))) by (intros; apply draw_bytes_range).
    unfold w_coin. apply emitsM_bind; [apply emitsM_lift, emits_broadcast; apply HH|]. intros r. destruct (_ || _); [apply emitsM_fail|].
    apply emitsM_bind; [apply emitsM_lift, emits_broadcast|].
    - cbn [commit_with_rand c_values c_rand]. apply Forall_app. split; [rewrite bytes_id by apply draw_bytes_range; apply B|apply B].
    - intros qs. destruct (_ || _); [apply emitsM_fail|]. destruct (negb _); [apply emitsM_fail|]. destruct (negb _); [apply emitsM_fail|]. apply emitsM_ret.
  Qed.
  Theorem dz_emits i l m lag coords V Vp Vn ent : emitsM (dz_verify O red eqb n cf enc dec G H draw_el again fuel i l m lag coords V Vp Vn ent).
  Proof using HH Henc.
    unfold dz_verify. apply emitsM_bind; [|intros; apply emitsM_res]. unfold dz_exchange.
    apply emitsM_bind. { intros s. unfold gen_seed. destruct (draw_bytes G 32 (w_p G s)). constructor. }
    intros seed. cbv zeta. apply emitsM_res_bind. intros pr Epr.
    assert (Bs : bytes (fst (snd pr))).
    { unfold prove_rng in Epr. destruct (draw_els _ _ _ _) as [s1 w]. destruct (prove _ _ _ _ _ _ _ _ _ _) as [g|]; [|discriminate]. cbn [rbind] in Epr. pose proof (draw_bytes_range G 32 s1) as R.
      destruct (draw_bytes G 32 s1) as [s2 sd]. injection Epr as <-. exact R. }
    apply emitsM_bind.
    { unfold exchange_proofs. apply emitsM_bind.
      - apply emitsM_lift. constructor; [apply Forall_app; split; apply vec_bytes, Henc|]. constructor; [exact Bs|]. constructor. intros b. constructor.
      - intros b. apply emitsM_bind; [apply emitsM_res|]. intros pp. apply emitsM_bind; [apply emitsM_lift; constructor; intros; constructor|]. intros b2. destruct (negb _); [apply emitsM_fail|apply emitsM_ret]. }
    intros ps. pose proof (coin_emits i (fst pr)) as HCo. destruct (draw_bytes G 32 (fst pr)) as [s1 cseed]. cbn [fst snd] in HCo. destruct (draw_bytes G 32 s1) as [s2 crand]. cbn [fst snd] in HCo.
    apply emitsM_bind; [exact HCo|]. intros coin. destruct (draw_three G draw_el m (rseed G coin)) as [s3 betas].
    apply emitsM_bind; [apply emitsM_res|]. intros sp. apply emitsM_bind; [apply emitsM_res|]. intros sn.
    apply emitsM_bind; [apply emitsM_lift; constructor; [|constructor; intros; constructor]|].
    - unfold share_enc. apply Forall_app. split; [apply vec_bytes, Henc|]. apply Forall_app. split; apply Henc.
    - intros b. apply emitsM_bind; [apply emitsM_res|]. intros rcv. apply emitsM_ret.
  Qed.
End Dz.
Lemma gf_enc_bytes x : bytes (gf_enc x). Proof. apply uint_bytes. Qed.
Lemma poly_enc_bytes K p : bytes (poly_enc K p). Proof. apply vec_bytes. intros a. apply uint_bytes. Qed.
