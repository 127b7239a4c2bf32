(** The openings of the engines, and the queries that end with them. *)
From Coq Require Import ZifyBool ZifyNat.
From Verif Require Import Base Ring RingProofs Prog Sched Conc Rng Rel Net BinTrait BitArith BinProofs AddProofs Iris IrisSpec IrisProofs
  Protocol MpcSpec ProtocolProofs Plain Aby3 ShareSpec Aby3Proofs Aby3Proofs2 SlicedProofs OrProofs EngineProofs Client ApiProofs Jmp JmpProofs Aby3Mal Aby3MalProofs Aby3MalProofs2
  Spdz TripleSpec TripleProofs SpdzProofs SpdzProofs2 SpdzProofs3 SpdzProofs4 FailProofs SpecProofs PropLemmas2 BudgetProofs SpdzProofs5 Swift3 Swift3Spec Swift3Proofs Swift3Open
  Shutdown ShutdownProofs ShutdownRace.

Lemma open_bit_racy (G : rng) X b (s : pid -> prf G) : aby3_bit X b -> racyM (fun i => open_bit G i (X i)) s.
Proof.
  intros HX. destruct (open_bit_ok G X (Z.b2z b) s) as (R & HE & _); [exact HX|].
  eapply (racy_exchange _ R P0 P1 _ _ HE); [|reflexivity|discriminate].
  intros i. unfold open_bit, bindM, liftM, send_and_receive_value, send_and_receive. cbn [bind]. apply gv_send, gv_takes, tk_recv. intros m.
  apply takes_bind; [apply takes_bind; [apply takes_res|]|]; intros; constructor.
Qed.

Section Mal.
  Local Open Scope M_scope.
  Variables (G : rng) (H : hasher).
  Lemma jmp_end_racy {A} (f : pid -> A) (s : pid -> jst G) : jmp_inv G s -> racyM (fun i => jmp_verify G H i ;;; retM (f i)) s.
  Proof.
    intros Hs.
    assert (HW : wpM (fun i => jmp_verify G H i ;;; retM (f i)) s (fun _ _ => True)).
    { wbind. eapply wpM_mono; [|apply (jmp_verify_ok G H s Hs)]. cbn beta. intros. apply wpM_ret. exact I. }
    destruct HW as (R & HE & _).
    eapply (racy_exchange _ R P0 P2 _ _ HE); [|reflexivity|discriminate].
    intros i. unfold jmp_verify, bindM, getM, putM, liftM. cbn [bind]. apply gv_send, gv_takes, tk_recv. intros m. cbn [bind].
    destruct (bytes_eqb _ _); cbn [bind]; constructor.
  Qed.
  Lemma mal_open_bit_racy X b (s : pid -> jst G) : jmp_inv G s -> aby3_bit X b -> racyM (fun i => mal_open_bit G H i (X i)) s.
  Proof.
    intros Hs (A1 & A2 & A3). unfold mal_open_bit.
    apply (racyM_bind (fun i => jmp_verify G H i)). eapply wpM_mono; [|apply (jmp_verify_ok G H s Hs)]. cbn beta. intros s1 ? [Hs1 _].
    apply (racyM_bind (fun i => jmp_send_receive G i 1 (sb (X i)) (sa (X i)))).
    eapply wpM_mono; [|apply (jmp_send_receive_ok G 1 (fun i => sb (X i)) (fun i => sa (X i)) s1 (or_introl eq_refl)); auto].
    - cbn beta. intros s2 v [Hs2 _]. apply (jmp_end_racy (fun i => rxor (rxor (sa (X i)) (sb (X i))) (v i) =? 1) s2 Hs2).
    - intros i. cbn beta. rewrite A2. apply A1.
    - intros i. cbn beta. rewrite A2, prev_prev. reflexivity.
  Qed.
End Mal.

Section Spdz.
  Variables (G : rng) (H : hasher).
  Lemma spdz_open_bit_racy X b (s : pid -> Spdz.sst G) : jmp_inv G (fun i => s_j G (s i)) -> aby3_bit X b -> racyM (fun i => spdz_open_bit G H i (X i)) s.
  Proof.
    intros Hs HX. unfold racyM, spdz_open_bit, on_j, zoom. apply racy_bind_l; [intros i [j a]; exact I|].
    exact (mal_open_bit_racy G H X b _ Hs HX).
  Qed.
End Spdz.

Section Swift.
  Local Open Scope M_scope.
  Variables (G : rng) (H : hasher) (KU : Z).
  Lemma w_end_racy {A} (f : pid -> A) (s : pid -> Swift3.sst G) : winv G KU s -> racyM (fun i => w_verify G H i ;;; retM (f i)) s.
  Proof.
    intros Hs.
    assert (HW : wpM (fun i => w_verify G H i ;;; retM (f i)) s (fun _ _ => True)).
    { wbind. eapply wpM_mono; [|apply (w_verify_ok G H KU s Hs)]. cbn beta. intros. apply wpM_ret. exact I. }
    destruct HW as (R & HE & _).
    eapply (racy_exchange _ R P0 P1 _ _ HE); [|reflexivity|discriminate].
    intros i. unfold w_verify, bindM, getM, putM, liftM. cbn [bind]. apply gv_send, gv_send, gv_takes, tk_recv. intros m. apply tk_recv. intros m'. cbn [bind].
    match goal with |- takes (bind ((if ?b then _ else _) _) _) => destruct b end; cbn [bind]; constructor.
  Qed.
  Lemma w_open_bit_racy X b (s : pid -> Swift3.sst G) : winv G KU s -> bin3 1 X (Z.b2z b) -> racyM (fun i => w_open_bit G H i (X i)) s.
  Proof.
    intros Hs HX. unfold w_open_bit. pose proof HX as (A1 & A2 & _).
    apply (racyM_bind (fun i => w_verify G H i)). eapply wpM_mono; [|apply (w_verify_ok G H KU s Hs)]. cbn beta. intros s1 ? Hs1.
    apply (racyM_bind (fun i => open_exchange G i 1 (X i))).
    eapply wpM_mono; [|apply (open_exchange_ok G KU 1 X (fun i => ta (X i))); [exact in1|exact Hs1|intros i; apply A1|reflexivity|intros i; apply A2]].
    cbn beta. intros s2 r (Hs2 & _). apply (w_end_racy (fun i => rxor (rxor (rxor (tc (X i)) (ta (X i))) (tb (X i))) (r i) =? 1) s2 Hs2).
  Qed.
End Swift.
