(** Property C57: whole arithmetic programs on the maliciously secure ABY3 engine, one party being malicious. *)
From Verif Require Import Base Ring RingProofs Prog Sched Conc Rng Rel Net BinTrait BitArith BinProofs AddProofs MpcSpec Aby3 ShareSpec Aby3Proofs Jmp JmpProofs Session SessionProofs Aby3Mal Aby3MalProofs Aby3MalProofs2
  SacrificeProofs PropLemmas PropLemmas2 SpecProofs Duo DuoProofs PropLemmas5 MacSpec MacProofs Client ClientProofs Emits TripleMalMet Properties4 Properties22
  ProgMalSpec ProgMalDuo ProgMalOps ProgMalOps2 ProgMalOps3 ProgMalOps4 ProgMalExec ProgMalMet.
From Coq Require Import ZifyBool ZifyNat.

(** C57.  i and i+1 are honest and hold their shares of xs; the third party does what it likes.  If both finish
    the program, they have opened the plain results, or the hash collides, or the challenge of some sacrifice
    missed a wrong product. *)
Theorem C57_programs : forall G H i K cs X xs p (s t s' t' : jst G) m m' ti tj, In K widths -> forallb arithmetic cs = true ->
  vec_shared (arith_shared K) X xs -> eval K cs (Mem xs [] [] []) = Some p ->
  next_prf G (j_prf G t) = my_prf G (j_prf G s) -> j_rcv G s = j_snd G t ->
  duo_acts i (exec (mal_api G H i K) i cs (Mem (X i) [] [] [])) (exec (mal_api G H (next i) K) (next i) cs (Mem (X (next i)) [] [] [])) s t s' t' m m' ti tj ->
  hash_collision G H s' t' \/ lucky_run G H i K cs (Mem (X i) [] [] []) (Mem (X (next i)) [] [] []) s t ti tj \/ (aout m = aout p /\ aout m' = aout p).
Proof.
  intros G H i K cs X xs p s t s' t' m m' ti tj HK Ha HX He Hs Hc HD. apply vec_RL in HX.
  assert (HI : inv G K s t (Mem (X i) [] [] []) (Mem (X (next i)) [] [] []) (Mem xs [] [] [])).
  { split; [exact Hs|]. split; [|split; reflexivity]. cbn [areg]. destruct (RL_rows i K X xs HX) as [P E].
    split; [apply (RL_length _ _ _ HX)|]. split; [apply (RL_length _ _ _ HX)|].
    assert (F : Forall (ranged K) (X i) /\ Forall (ranged K) (X (next i))) by (clear -P; induction P as [|x y xs ys (P1 & P2 & _) P [I1 I2]]; split; constructor; assumption).
    split; [apply F|]. split; [apply F|]. intros _. split; assumption. }
  pose proof (duoB_acts i _ _ _ _ _ _ _ _ _ _ _ (exec_B G H i K cs HK _ _ _ _ _ _ Ha He HI) HD) as D. cbn [fst snd] in D.
  destruct D as [D|[D|(_ & _ & D1 & D2)]]; [left; exact D|right; left; exact D|right; right; auto].
Qed.
Print Assumptions C57_programs.
(** What the luck amounts to: whatever i and i+1 hold when a sacrifice starts, at most 2^(K-1) of the 2^U challenges
    miss a product that is wrong in the K low bits.  The challenge is drawn afterwards, from a coin to which the
    generator shared by i and i+1 contributes. *)
Theorem C57_luck : forall K x y n, In K widths -> exists bad, Z.of_nat (length bad) <= 2 ^ (K - 1) /\
  forall r, inr (verif_width K) r -> lucky K r x y n -> In r bad.
Proof.
  intros K x y n HK. destruct (Z.eq_dec (error0 (verif_width K) x y n mod 2 ^ K) 0) as [E|E].
  - exists []. split; [cbn; apply Z.pow_nonneg; lia|]. intros r _ (_ & NE & _). contradiction.
  - exists (bad_challenges (verif_width K) (error0 (verif_width K) x y n) (error1 (verif_width K) x y n)). split; [apply bad_few; [apply verif_ge, HK|exact E]|].
    intros r Hr (_ & _ & EQ). apply bad_in; assumption.
Qed.
Print Assumptions C57_luck.
Theorem C57_challenge : forall G K (s t : jst G), In K widths -> inr (verif_width K) (challenge G (verif_width K) (duo_seed G s t)).
Proof. intros G K s t HK. apply challenge_range. pose proof (verif_ge K HK). lia. Qed.
Print Assumptions C57_challenge.

(** The hypotheses are met by every program: if the third party is honest too, i and i+1 finish. *)
Theorem C57_met : forall G H i K cs X xs p (s : pid -> jst G), In K widths -> 40 <= verif_width K - K -> (forall x, bytes (hfun H x)) -> forallb arithmetic cs = true ->
  vec_shared (arith_shared K) X xs -> eval K cs (Mem xs [] [] []) = Some p -> mal_ready s ->
  next_prf G (j_prf G (s (next i))) = my_prf G (j_prf G (s i)) /\ j_rcv G (s i) = j_snd G (s (next i)) /\
  exists s' t' m m' ti tj,
    duo_acts i (exec (mal_api G H i K) i cs (Mem (X i) [] [] [])) (exec (mal_api G H (next i) K) (next i) cs (Mem (X (next i)) [] [] [])) (s i) (s (next i)) s' t' m m' ti tj.
Proof.
  intros G H i K cs X xs p s HK HU HH Ha HX He Hs. split; [destruct Hs as [Hs _]; rewrite Hs; destruct i; reflexivity|]. split; [apply Hs|].
  assert (HM : mem_shared (arith_shared K) (fun X b => bin_shared 1 X (Z.b2z b)) (fun q => Mem (X q) [] [] []) (Mem xs [] [] [])).
  { split; [apply vec_RL, HX|]. split; [apply RL_nil; reflexivity|]. split; reflexivity. }
  destruct (exec_ok _ _ _ _ _ (mal_api_ok G H K HK HU) cs _ _ _ s Hs HM He) as (R & HE & _).
  pose proof (honest_duo i (fun q => exec (mal_api G H q K) q cs (Mem (X q) [] [] [])) s R HE (exec_emits G H (prev i) HH K cs _ Ha)) as HD.
  destruct (duo_run_acts _ _ _ _ _ _ _ _ _ HD) as (ti & tj & HA). do 6 eexists. exact HA.
Qed.
Print Assumptions C57_met.
Definition three (p : pid) : list share := match p with P0 => [Share 1 2; Share 7 65535] | P1 => [Share 0 1; Share 9 7] | P2 => [Share 2 0; Share 65535 9] end.
Example C57_example :
  let cs := [CMul 0 1; CDot [0; 2]%nat [1; 1]%nat; CDotMany [[0; 1]; [3]]%nat [[1; 1]; [2]]%nat; CSub 3 0; COpenMany [2; 3]%nat; CAddConst 4 10; COpen 7] in
  forallb arithmetic cs = true /\ vec_shared (arith_shared 16) three [3; 15] /\
  eval 16 cs (Mem [3; 15] [] [] []) = Some (Mem [3; 15; 45; 720; 270; 32400; 717; 280] [] [45; 720; 280] []) /\
  (exists x y : sac, lucky 16 3 x y 0 /\ length (sac_b x) = 1%nat).
Proof.
  cbv zeta. split; [reflexivity|]. split.
  - apply RL_vec. apply (RL_cons _ three (fun p => hd szero (three p)) (fun p => tl (three p)) 3 [15]); [intros []; reflexivity| |
      apply (RL_cons _ (fun p => tl (three p)) (fun p => hd szero (tl (three p))) (fun p => []) 15 []); [intros []; reflexivity| |apply RL_nil; reflexivity]].
    all: split; [intros []; unfold inr; cbn; lia|split; [intros []; reflexivity|reflexivity]].
  - split; [vm_compute; reflexivity|].
    exists (Sac [[Share 2 0]] [[Share 5 0]] [[Share 1 0]] [Share 3 0; Share 8 0]), (Sac [[Share 0 2]] [[Share 0 5]] [[Share 0 1]] [Share 0 3; Share 0 8]).
    split; [|reflexivity]. split; [cbn; lia|]. split; [vm_compute; discriminate|vm_compute; reflexivity].
Qed.
