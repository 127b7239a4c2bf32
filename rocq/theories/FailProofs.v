(** Honest runs in which all three parties stop with an error. *)
From Verif Require Import Base Prog Sched ShareSpec.

Definition failed {A} (e : err) : cfg A := Cfg (tabulate (fun _ => Fail e)) noq.
Definition fails {A} (P : pid -> prog A) (e : err) : Prop := exists s, steps s (start P) (failed e).
Definition failsM {S A} (P : pid -> M S A) (s : pid -> S) (e : err) : Prop := fails (fun i => P i (s i)) e.

Lemma failed_stuck {A} e : stuck (@failed A e).
Proof. intros i c' Hs. inversion Hs as [c to m k E|c from k m rest E Q]; subst; cbn in E; rewrite get_tabulate in E; discriminate. Qed.
Lemma failsM_honest {S A} (P : pid -> M S A) s e : failsM P s e -> honest_failure P s e.
Proof.
  intros [sc Hs]. exists (length sc). intros sched c Hc.
  destruct (any_steps_complete _ _ _ Hc _ _ Hs (failed_stuck e)) as (s' & H1 & H2).
  split; [lia|]. split; [exists s'; split; [exact H1|lia]|].
  intros Hst. inversion H1; subst; [reflexivity|]. exfalso. eapply Hst; eassumption.
Qed.
Lemma start_ext {A} (P P' : pid -> prog A) : (forall i, P i = P' i) -> start P = start P'.
Proof. intros HE. unfold start, tabulate. rewrite !HE. reflexivity. Qed.
Lemma failsM_ext {S A} (P P' : pid -> M S A) s e : (forall i, P i (s i) = P' i (s i)) -> failsM P s e -> failsM P' s e.
Proof. intros HE [sc Hs]. exists sc. rewrite <- (start_ext (fun i => P i (s i))) by exact HE. exact Hs. Qed.
Lemma failsM_fail {S A} (s : pid -> S) e : failsM (fun _ => @failM S A e) s e.
Proof. exists []. constructor. Qed.
Lemma bind_start {A B} (P : pid -> prog A) (F : pid -> A -> prog B) : bind_cfg (start P) F = start (fun i => bind (P i) (F i)).
Proof. reflexivity. Qed.
Lemma failsM_bind {S A B} (P : pid -> M S A) (F : pid -> A -> M S B) s e :
  wpM P s (fun s' a => failsM (fun i => F i (a i)) s' e) -> failsM (fun i => bindM (P i) (F i)) s e.
Proof.
  intros (R & [sc Hs] & [sc' Hs']). exists (sc ++ sc').
  eapply steps_app; [apply (bind_steps _ _ _ (fun i sa => F i (snd sa) (fst sa))) in Hs; exact Hs|exact Hs'].
Qed.
Lemma failsM_stop {S A B} (P : pid -> M S A) (F : pid -> A -> M S B) s e :
  failsM P s e -> failsM (fun i => bindM (P i) (F i)) s e.
Proof.
  intros [sc Hs]. exists sc. apply (bind_steps _ _ _ (fun i sa => F i (snd sa) (fst sa))) in Hs. exact Hs.
Qed.
Lemma failsM_unwrap {S A} (P : pid -> M S A) s e : failsM P s e -> failsM (fun i => unwrapM (P i)) s EPanic.
Proof. intros [sc Hs]. exists sc. apply unwrap_steps in Hs. exact Hs. Qed.
