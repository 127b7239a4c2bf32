(** Property C58: programs with inputs on the maliciously secure ABY3 engine, one party being malicious. *)
From Verif Require Import Base Ring RingProofs Prog Sched Conc Rng Rel Net BinTrait BitArith BinProofs AddProofs MpcSpec Aby3 ShareSpec Aby3Proofs Jmp JmpProofs Session SessionProofs Aby3Mal Aby3MalProofs Aby3MalProofs2
  SacrificeProofs PropLemmas PropLemmas2 SpecProofs Duo DuoProofs PropLemmas5 MacSpec MacProofs Client ClientProofs Emits TripleMalMet Properties4 Properties22
  ProgMalSpec ProgMalDuo ProgMalOps ProgMalOps2 ProgMalOps3 ProgMalOps4 ProgMalExec ProgMalMet ProgMalSpec2 ProgMalInput ProgMalExec2 Properties23.
From Coq Require Import ZifyBool ZifyNat.

(** C58.  i and i+1 are honest; they run a program that shares inputs of all three parties.  If both finish, they
    have opened the plain results of the program in which the inputs of i and i+1 are their own and those of
    the third party are some fixed values, or the hash collides, or the challenge of some sacrifice missed a
    wrong product. *)
Theorem C58_programs : forall G H i K cs X xs p0 (s t s' t' : jst G) m m' ti tj, In K widths -> forallb sharing cs = true ->
  vec_shared (arith_shared K) X xs -> eval K cs (Mem xs [] [] []) = Some p0 ->
  next_prf G (j_prf G t) = my_prf G (j_prf G s) -> j_rcv G s = j_snd G t ->
  duo_acts i (exec (mal_api G H i K) i cs (Mem (X i) [] [] [])) (exec (mal_api G H (next i) K) (next i) cs (Mem (X (next i)) [] [] [])) s t s' t' m m' ti tj ->
  hash_collision G H s' t' \/ lucky_run G H i K cs (Mem (X i) [] [] []) (Mem (X (next i)) [] [] []) s t ti tj \/
  exists p, eval K (third_inputs (prev i) K (areg m) (areg m') (length xs) cs) (Mem xs [] [] []) = Some p /\ aout m = aout p /\ aout m' = aout p.
Proof.
  intros G H i K cs X xs p0 s t s' t' m m' ti tj HK Ha HX He Hs Hc HD. apply vec_RL in HX.
  assert (HI : inv G K s t (Mem (X i) [] [] []) (Mem (X (next i)) [] [] []) (Mem xs [] [] [])).
  { split; [exact Hs|]. split; [|split; reflexivity]. cbn [areg]. destruct (RL_rows i K X xs HX) as [P E].
    split; [apply (RL_length _ _ _ HX)|]. split; [apply (RL_length _ _ _ HX)|].
    assert (F : Forall (ranged K) (X i) /\ Forall (ranged K) (X (next i))) by (clear -P; induction P as [|x y xs ys (P1 & P2 & _) P [I1 I2]]; split; constructor; assumption).
    split; [apply F|]. split; [apply F|]. intros _. split; assumption. }
  pose proof (duoB_acts i _ _ _ _ _ _ _ _ _ _ _ (exec_B2 G H i K cs HK _ _ _ _ _ _ Ha He HI) HD) as D. cbn [fst snd areg] in D.
  destruct D as [D|[D|(p & E & _ & _ & D1 & D2)]]; [left; exact D|right; left; exact D|right; right; exists p; auto].
Qed.
Print Assumptions C58_programs.
(** The third party is bound to its inputs as soon as they are shared: whatever part of a program a party has done,
    the shares it holds then are those it holds at the end. *)
Theorem C58_bound : forall G H i K cs1 cs2 mi (s : jst G) tr s' m', lrun (exec (mal_api G H i K) i (cs1 ++ cs2) mi s) tr (Ret (s', m')) ->
  exists tr1 tr2 s1 m1 l, lrun (exec (mal_api G H i K) i cs1 mi s) tr1 (Ret (s1, m1)) /\ lrun (exec (mal_api G H i K) i cs2 m1 s1) tr2 (Ret (s', m')) /\ tr = tr1 ++ tr2 /\
    areg m' = areg m1 ++ l.
Proof.
  intros G H i K cs1. induction cs1 as [|c cs1 IH]; intros cs2 mi s tr s' m' L; cbn [app exec] in *.
  - destruct (exec_appends _ _ _ _ _ _ _ _ L) as [l E]. exists [], tr, s, mi, l. split; [constructor|]. auto.
  - apply lrun_bind in L. destruct L as (t1 & [s1 m1] & t2 & L1 & L2 & ->). destruct (IH cs2 m1 s1 t2 s' m' L2) as (u1 & u2 & s2 & m2 & l & R1 & R2 & -> & E).
    exists (t1 ++ u1), u2, s2, m2, l. split; [exact (lrun_bind_intro _ _ _ _ _ _ L1 R1)|]. split; [exact R2|]. split; [apply app_assoc|exact E].
Qed.
Print Assumptions C58_bound.

(** The hypotheses are met by every program: if the third party is honest too, i and i+1 finish. *)
Theorem C58_met : forall G H i K cs X xs p (s : pid -> jst G), In K widths -> 40 <= verif_width K - K -> (forall x, bytes (hfun H x)) -> forallb sharing cs = true ->
  vec_shared (arith_shared K) X xs -> eval K cs (Mem xs [] [] []) = Some p -> mal_ready s ->
  next_prf G (j_prf G (s (next i))) = my_prf G (j_prf G (s i)) /\ j_rcv G (s i) = j_snd G (s (next i)) /\
  exists s' t' m m' ti tj,
    duo_acts i (exec (mal_api G H i K) i cs (Mem (X i) [] [] [])) (exec (mal_api G H (next i) K) (next i) cs (Mem (X (next i)) [] [] [])) (s i) (s (next i)) s' t' m m' ti tj.
Proof.
  intros G H i K cs X xs p s HK HU HH Ha HX He Hs. split; [destruct Hs as [Hs _]; rewrite Hs; destruct i; reflexivity|]. split; [apply Hs|].
  assert (HM : mem_shared (arith_shared K) (fun X b => bin_shared 1 X (Z.b2z b)) (fun q => Mem (X q) [] [] []) (Mem xs [] [] [])).
  { split; [apply vec_RL, HX|]. split; [apply RL_nil; reflexivity|]. split; reflexivity. }
  destruct (exec_ok _ _ _ _ _ (mal_api_ok G H K HK HU) cs _ _ _ s Hs HM He) as (R & HE & _).
  pose proof (honest_duo i (fun q => exec (mal_api G H q K) q cs (Mem (X q) [] [] [])) s R HE (exec_emits2 G H HH (prev i) K cs _ Ha)) as HD.
  destruct (duo_run_acts _ _ _ _ _ _ _ _ _ HD) as (ti & tj & HA). do 6 eexists. exact HA.
Qed.
Print Assumptions C58_met.
Example C58_example :
  let cs := [CInput P0 3; CInput P1 15; CInput P2 4; CDot [0; 2]%nat [1; 1]%nat; COpen 3] in
  forallb sharing cs = true /\ eval 16 cs (Mem [] [] [] []) = Some (Mem [3; 15; 4; 105] [] [105] []) /\
  (** party 2 shares 5 instead of 4 *)
  let cs' := third_inputs P2 16 [Share 1 2; Share 7 65535; Share 2 1; Share 0 0] [Share 0 1; Share 9 7; Share 2 2; Share 0 0] 0 cs in
  cs' = [CInput P0 3; CInput P1 15; CInput P2 5; CDot [0; 2]%nat [1; 1]%nat; COpen 3] /\
  eval 16 cs' (Mem [] [] [] []) = Some (Mem [3; 15; 5; 120] [] [120] []).
Proof. cbv zeta. repeat split; vm_compute; reflexivity. Qed.
