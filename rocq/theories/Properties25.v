(** Property C59: all programs, comparisons and Boolean operations included, on the maliciously secure ABY3 engine, one party being malicious. *)
From Verif Require Import Base Ring RingProofs Prog Sched Conc Rng Rel Net BinTrait BitArith BinProofs AddProofs MpcSpec Aby3 ShareSpec Aby3Proofs Aby3Proofs2 EngineProofs Jmp JmpProofs Session SessionProofs Aby3Mal Aby3MalProofs Aby3MalProofs2
  SacrificeProofs PropLemmas PropLemmas2 SpecProofs Duo DuoProofs PropLemmas5 MacSpec MacProofs Client ClientProofs Emits TripleMalMet Properties4 Properties22
  ProgMalSpec ProgMalDuo ProgMalOps ProgMalOps2 ProgMalOps3 ProgMalOps4 ProgMalExec ProgMalMet ProgMalSpec2 ProgMalInput ProgMalExec2 Properties23
  ProgMalBinSpec ProgMalBin ProgMalBin2 ProgMalBin3 ProgMalBin4 ProgMalBin5 ProgMalBin6 ProgMalExec3.
From Coq Require Import ZifyBool ZifyNat.

(** C59.  i and i+1 are honest; they run any program: inputs of all three parties, arithmetic, inner products, most
    significant bits, OR of two and of many bits, openings of ring elements and of bits.  If both finish, they
    have opened the plain results of the program in which the inputs of i and i+1 are their own and those of
    the third party are some fixed values, or the hash collides, or the challenge of some sacrifice (of products,
    of bit triples) missed a wrong product. *)
Theorem C59_programs : forall G H i K cs X xs B bs p0 (s t s' t' : jst G) m m' ti tj, In K widths ->
  vec_shared (arith_shared K) X xs -> vec_shared (fun Y b => bin_shared 1 Y (Z.b2z b)) B bs -> eval K cs (Mem xs bs [] []) = Some p0 ->
  next_prf G (j_prf G t) = my_prf G (j_prf G s) -> j_rcv G s = j_snd G t ->
  let mi := Mem (X i) (B i) [] [] in let mj := Mem (X (next i)) (B (next i)) [] [] in
  let runi := exec (mal_api G H i K) i cs mi in let runj := exec (mal_api G H (next i) K) (next i) cs mj in
  duo_acts i runi runj s t s' t' m m' ti tj ->
  hash_collision G H s' t' \/ lucky_run G H i K cs mi mj s t ti tj \/ lucky_bits G H i (runi s) (runj t) ti tj \/
  exists p, eval K (third_inputs (prev i) K (areg m) (areg m') (length xs) cs) (Mem xs bs [] []) = Some p /\
    aout m = aout p /\ aout m' = aout p /\ bout m = bout p /\ bout m' = bout p.
Proof.
  intros G H i K cs X xs B bs p0 s t s' t' m m' ti tj HK HX HB He Hs Hc mi mj runi runj HD. apply vec_RL in HX. apply vec_RL in HB.
  assert (HI : inv3 G i K s t mi mj (Mem xs bs [] [])).
  { unfold mi, mj. split; [|split; [|split; reflexivity]].
    - split; [exact Hs|]. split; [|split; reflexivity]. cbn [areg]. destruct (RL_rows i K X xs HX) as [P E].
      split; [apply (RL_length _ _ _ HX)|]. split; [apply (RL_length _ _ _ HX)|].
      assert (F : Forall (ranged K) (X i) /\ Forall (ranged K) (X (next i))) by (clear -P; induction P as [|x y xs ys (P1 & P2 & _) P [I1 I2]]; split; constructor; assumption).
      split; [apply F|]. split; [apply F|]. intros _. split; assumption.
    - cbn [breg]. apply RL_bits in HB. apply (RL_mono _ (brel 1)) in HB; [|intros Y y HY; split; [left; reflexivity|exact HY]].
      split; [apply (RL_ranged _ _ _ _ HB)|]. split; [apply (RL_ranged _ _ _ _ HB)|]. split; [apply (RL_length _ _ _ HB)|]. split; [apply (RL_length _ _ _ HB)|].
      intros _. right. exists B. auto. }
  pose proof (duoB_acts i _ _ _ _ _ _ _ _ _ _ _ (exec_B3 G H i K cs HK _ _ _ _ _ _ He HI) HD) as D. cbn [fst snd areg] in D.
  destruct D as [D|[D|[D|(p & E & (_ & _ & D1 & D2) & _ & D3 & D4)]]]; [left; exact D|right; left; exact D|right; right; left; exact D|do 3 right; exists p; auto].
Qed.
Print Assumptions C59_programs.

(** The hypotheses are met by every program: if the third party is honest too, i and i+1 finish. *)
Theorem C59_met : forall G H i K cs X xs B bs p (s : pid -> jst G), In K widths -> 40 <= verif_width K - K -> (forall x, bytes (hfun H x)) ->
  vec_shared (arith_shared K) X xs -> vec_shared (fun Y b => bin_shared 1 Y (Z.b2z b)) B bs -> eval K cs (Mem xs bs [] []) = Some p -> mal_ready s ->
  next_prf G (j_prf G (s (next i))) = my_prf G (j_prf G (s i)) /\ j_rcv G (s i) = j_snd G (s (next i)) /\
  exists s' t' m m' ti tj,
    duo_acts i (exec (mal_api G H i K) i cs (Mem (X i) (B i) [] [])) (exec (mal_api G H (next i) K) (next i) cs (Mem (X (next i)) (B (next i)) [] [])) (s i) (s (next i)) s' t' m m' ti tj.
Proof.
  intros G H i K cs X xs B bs p s HK HU HH HX HB He Hs. split; [destruct Hs as [Hs _]; rewrite Hs; destruct i; reflexivity|]. split; [apply Hs|].
  assert (HM : mem_shared (arith_shared K) (fun X b => bin_shared 1 X (Z.b2z b)) (fun q => Mem (X q) (B q) [] []) (Mem xs bs [] [])).
  { split; [apply vec_RL, HX|]. split; [apply vec_RL, HB|]. split; reflexivity. }
  destruct (exec_ok _ _ _ _ _ (mal_api_ok G H K HK HU) cs _ _ _ s Hs HM He) as (R & HE & _).
  pose proof (honest_duo i (fun q => exec (mal_api G H q K) q cs (Mem (X q) (B q) [] [])) s R HE (exec_emits3 G H HH (prev i) K cs _)) as HD.
  destruct (duo_run_acts _ _ _ _ _ _ _ _ _ HD) as (ti & tj & HA). do 6 eexists. exact HA.
Qed.
Print Assumptions C59_met.
Example C59_example :
  (** is one of |x - y|-like differences negative, as in the iris-code protocol: two comparisons, one OR *)
  let cs := [CInput P0 3; CInput P1 15; CInput P2 4; CSub 0 1; CSub 2 0; CMsbMany [3; 4]%nat; CReduceOr [0; 1]%nat 1; COpenBitMany [0; 1; 2]%nat; COpen 3] in
  eval 16 cs (Mem [] [] [] []) = Some (Mem [3; 15; 4; 65524; 1] [true; false; true] [65524] [true; false; true]) /\
  (** party 2 shares 1 instead of 4 *)
  let cs' := third_inputs P2 16 [Share 1 2; Share 7 65535; Share 0 1; Share 0 0; Share 0 0] [Share 0 1; Share 9 7; Share 0 0; Share 0 0; Share 0 0] 0 cs in
  cs' = [CInput P0 3; CInput P1 15; CInput P2 1; CSub 0 1; CSub 2 0; CMsbMany [3; 4]%nat; CReduceOr [0; 1]%nat 1; COpenBitMany [0; 1; 2]%nat; COpen 3] /\
  eval 16 cs' (Mem [] [] [] []) = Some (Mem [3; 15; 1; 65524; 65534] [true; true; true] [65524] [true; true; true]).
Proof. cbv zeta. repeat split; vm_compute; reflexivity. Qed.
