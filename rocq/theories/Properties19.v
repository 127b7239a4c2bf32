(** More of C07 and C50: every party inputs a value at once (Aby3::input_all). *)
From Verif Require Import Base Ring RingProofs BitArith Prog Sched Rel Rng Net Iris Aby3 ShareSpec Aby3Proofs SpecProofs PropLemmas ViewSpec Private PrivateOps PrivateAby3 PrivateClient PrivateFinal PrivateInput.

(** The three parties input x 0, x 1, x 2 at once: they get sharings of these three values, in this order,
    and opening returns them at every party. *)
Theorem C07_input_all : forall (G : rng) K (x : pid -> Z) (s : pid -> prf G), In K widths -> (forall i, inr K (x i)) -> prf_synced s ->
  honest_run (fun i => input_all G i K (x i)) s (fun s' X => prf_synced s' /\ vec_shared (arith_shared K) X [x P0; x P1; x P2]) /\
  honest_run (fun i => bindM (input_all G i K (x i)) (open_many G i K)) s (fun s' r => prf_synced s' /\ forall i, r i = [x P0; x P1; x P2]).
Proof.
  intros G K x s HK Hx Hs. split; apply wpM_honest.
  - eapply wpM_mono; [|apply (input_all_ok G K x s HK Hx Hs)]. intros s1 X [H1 HX]. split; [exact H1|apply RL_vec, HX].
  - apply (wpM_bind (fun i => input_all G i K (x i)) (fun i => open_many G i K)).
    eapply wpM_mono; [|apply (input_all_ok G K x s HK Hx Hs)]. intros s1 X [H1 HX].
    eapply wpM_mono; [|apply (open_many_ok G K X _ s1 HK HX)]. intros s2 r [-> Hr]. auto.
Qed.
Print Assumptions C07_input_all.
(** Party i's view does not depend on the others' inputs. *)
Theorem C50_input_all : forall i K (x x' : pid -> Z), In K widths -> (forall j, inr K (x j) /\ inr K (x' j)) -> x i = x' i ->
  same_to i (fun j => input_all tape j K (x j)) (fun j => input_all tape j K (x' j)).
Proof.
  intros i K x x' HW L Ex. apply (priv_same i _ _ _ (pp_input_all i K HW) x x'); [intros j; apply L|intros j; apply L|exact Ex].
Qed.
Print Assumptions C50_input_all.
Example C50_input_all_example : same_to P0 (fun j => input_all tape j 16 (match j with P0 => 5 | P1 => 40000 | P2 => 7 end)) (fun j => input_all tape j 16 (match j with P0 => 5 | P1 => 0 | P2 => 65535 end)).
Proof. apply C50_input_all; [cbn; tauto|intros []; unfold inr; lia|reflexivity]. Qed.
