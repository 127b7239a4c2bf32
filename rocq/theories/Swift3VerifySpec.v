(** Specification vocabulary for Swift3's verify. *)
From Verif Require Import Base Ring Prog Poly Swift3 Dzkp GaloisSpec.
Local Open Scope list_scope.

(** What party i ends with when the proof of party i+1 gets the verdict v (i+1): its new state, or the error. *)
Definition by_verdict {S} (v : pid -> res unit) (s : pid -> S) (i : pid) : res (S * unit) := rbind (v (next i)) (fun u => Ok (s i, u)).

(** v is the verdict on the proof of party j: the prover's statements are those it registered, the verifiers'
    statements those registered by the parties after and before it, and the outcome is that of the checks of
    C35 and C43 for some random elements. *)
Definition mul_judged (K : Z) (f : list Z) (l m : nat) (E : pid -> list (entry (pinput Z))) (j : pid) (v : res unit) : Prop :=
  let gates1 := map e_prev (E (next j)) in let gates2 := map e_next (E (prev j)) in
  exists thetas betas r w g p2 s1 s2, polys K l thetas /\ polys K m betas /\ Forall (inr K) r /\ polys K (6 * l) w /\ gr_share K 6 l m p2 /\
    mul_prover K f l m (map e_proof (E j)) thetas w = Ok g /\
    let p1 := explicit_share (pz_ops K) w g p2 in
    mul_verdicts K f l m gates1 gates2 betas r p1 p2 = Ok (s1, s2) /\
    v = mul_check K f l m gates1 gates2 thetas betas r p1 p2 /\
    (leading (p_add (zk_ops K) (ds_pr s1) (ds_pr s2)) -> v = Ok tt) /\
    (~ leading (p_add (zk_ops K) (ds_pr s1) (ds_pr s2)) -> v = Err EDZKPVerify).
Definition dot_judged (K : Z) (f : list Z) (dot l m : nat) (E : pid -> list (entry dinput)) (j : pid) (v : res unit) : Prop :=
  let gates1 := map e_prev (E (next j)) in let gates2 := map e_next (E (prev j)) in
  exists thetas betas r w g p2 s1 s2, polys K l thetas /\ polys K m betas /\ Forall (inr K) r /\ polys K ((4 * dot + 2) * l) w /\ gr_share K (4 * dot + 2) l m p2 /\
    dot_prover K f dot l m (map e_proof (E j)) thetas w = Ok g /\
    let p1 := explicit_share (pz_ops K) w g p2 in
    dot_verdicts K f dot l m gates1 gates2 betas r p1 p2 = Ok (s1, s2) /\
    v = dot_check K f dot l m gates1 gates2 thetas betas r p1 p2 /\
    (leading (p_add (zk_ops K) (ds_pr s1) (ds_pr s2)) -> v = Ok tt) /\
    (~ leading (p_add (zk_ops K) (ds_pr s1) (ds_pr s2)) -> v = Err EDZKPVerify).
