(** Any program over the interface of the semi-honest engine: what a party sees depends only on its own inputs and on
    what is opened. *)
From Verif Require Import Base Ring RingProofs BitArith Prog Sched Rel Rng Net BinTrait BinProofs Iris Protocol MpcSpec Aby3 ShareSpec Aby3Proofs SlicedProofs EngineProofs Client ClientProofs Apis ApiProofs ViewSpec Private PrivateOps PrivateAby3 PrivateCirc PrivateSliced PrivateClient.
From Verif Require Import PolyProofs.

Lemma peq_bind {A B} (p p' : prog A) (f f' : A -> prog B) : peq p p' -> (forall a, peq (f a) (f' a)) -> peq (bind p f) (bind p' f').
Proof. intros H Hf. induction H; cbn [bind]; [apply Hf|constructor|constructor; assumption|constructor; assumption]. Qed.
Lemma peq_sym {A} (p q : prog A) : peq p q -> peq q p.
Proof. intros H. induction H; constructor; auto. Qed.
Lemma peq_spied {A} (p q : prog A) : peq p q -> peq (spied p) (spied q).
Proof. intros H. induction H; cbn [spied]; constructor; auto. intros m. apply peq_bind; [auto|intros; apply peq_refl]. Qed.
Lemma always_evals_evals {A} (P : pid -> prog A) R : always_evals P R -> evals P R.
Proof. intros [n HQ]. destruct (HQ [] _ (steps_nil _)) as (_ & (s' & Hs & _) & _). exists s'. exact Hs. Qed.
Lemma sees_peq {S A} i (P Q : pid -> M S A) s v r : (forall j s, peq (P j s) (Q j s)) -> sees i P s v r -> sees i Q s v r.
Proof.
  intros H (R & HR & Hv & Hr). exists R. split; [|auto]. apply evals_always. eapply evals_peq; [|apply always_evals_evals, HR].
  intros j. apply peq_spied, H.
Qed.
Lemma same_to_peq {A} i (P P' Q Q' : pid -> M (prf tape) A) : (forall j s, peq (P j s) (Q j s)) -> (forall j s, peq (P' j s) (Q' j s)) ->
  same_to i P P' -> same_to i Q Q'.
Proof.
  intros H H' (n & G). exists n. intros a b matched.
  assert (T : forall P P' Q Q' : pid -> M (prf tape) A, (forall j s, peq (P j s) (Q j s)) -> (forall j s, peq (P' j s) (Q' j s)) -> matched P P' -> matched Q Q').
  { clear. intros P P' Q Q' H H' G w Hw. destruct (G w Hw) as (v & r & G1 & w' & (G2 & G3) & G4). exists v, r.
    split; [intros h; eapply sees_peq; [exact H|apply G1]|]. exists w'. split.
    - split; [exact G2|]. intros h. eapply sees_peq; [exact H'|apply G3].
    - intros w2 [L2 S2]. apply G4. split; [exact L2|]. intros h. eapply sees_peq; [|apply S2]. intros j s. apply peq_sym, H'. }
  destruct (G a b) as [G1 G2]. split; [eapply (T P P'); eassumption|eapply (T P' P); eassumption].
Qed.

Section Final.
  Context (i : pid) (K : Z) (HW : In K widths) (HK3 : 3 <= K).
  Notation E := (aby3_api tape K).
  Lemma exec_own j cs : forall m s, peq (exec (E j) j (map (own j) cs) m s) (exec (E j) j cs m s).
  Proof using.
    induction cs as [|c cs IH]; intros m s; [apply peq_refl|]. cbn [map exec]. unfold bindM. rewrite own_exec.
    apply peq_bind; [apply peq_refl|]. intros [s' m']. apply IH.
  Qed.
  Lemma exec_same (hideable : cmd -> cmd -> Prop) cs cs' p p' :
    (forall c c', hideable c c' -> own i c = own i c') ->
    Forall2 hideable cs cs' -> eval K cs mem0 = Some p -> eval K cs' mem0 = Some p' -> aout p = aout p' -> bout p = bout p' ->
    same_to i (fun j => exec (E j) j cs mem0) (fun j => exec (E j) j cs' mem0).
  Proof using HW HK3.
    intros Hh H He He' HA HB.
    eapply (same_to_peq i (fun j => exec (E j) j (map (own j) cs) mem0) (fun j => exec (E j) j (map (own j) cs') mem0)); [intros; apply exec_own|intros; apply exec_own|].
    assert (Hmap : map (own i) cs = map (own i) cs').
    { clear - H Hh. induction H as [|c c' cs cs' H1 H2 IH]; [reflexivity|]. cbn [map]. rewrite IH. f_equal. apply Hh, H1. }
    apply (priv_same i _ (fun j z => exec (E j) j (fst z) (snd z)) _ (exec_priv i K HW HK3 (aout p) (bout p) (map (own i) cs) [] [])
       (fun j => (map (own j) cs, mem0)) (fun j => (map (own j) cs', mem0))).
    - exists cs, mem0, p. cbn [fst snd]. repeat (split; [first [reflexivity|assumption|apply mem0_shared]|]). reflexivity.
    - exists cs', mem0, p'. cbn [fst snd]. repeat (split; [first [reflexivity|assumption|apply mem0_shared|symmetry; assumption]|]). auto.
    - cbn beta. rewrite Hmap. reflexivity.
  Qed.
End Final.
