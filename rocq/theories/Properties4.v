(** Properties C21 - C24, C32, and C38 for malicious ABY3. *)
From Verif Require Import Base Ring RingProofs Prog Sched Conc Rng Rel Net BinTrait Iris IrisSpec BitArith BinProofs AddProofs MpcSpec Protocol Client ClientProofs Aby3 ShareSpec
  Aby3Proofs Jmp JmpProofs Session SessionProofs Aby3Mal Aby3MalProofs Aby3MalProofs2 SacrificeProofs PropLemmas PropLemmas2 PropLemmas3 PropLemmas4 ProtocolProofs SpecProofs Duo DuoProofs PropLemmas5.

(** A generator that always answers 1, to instantiate the theorems. *)
Definition one_rng : rng := {| rstate := unit; rseed := fun _ => tt; rdraw := fun _ _ => (tt, 1) |}.
(** A byte-valued hash function: pad to 64 bytes. *)
Definition pad_hasher : hasher.
Proof.
  refine (Hasher (fun m => firstn 64 (map (fun b => b mod 256) m ++ repeat 0 64)) _).
  intros m. rewrite firstn_length, app_length, repeat_length. lia.
Defined.
Definition fresh : jst one_rng := JSt one_rng (Prf one_rng tt tt) [] [] [].

(** C21.  [session i ops] is an arbitrary sequence of sends, buffered values, receives and
    verifications of party i.  In every (partial) execution with parties i and i+1 running sessions and
    the third party running any program at all: if i finishes, then for each of its verifications the
    values it had received since the previous one have the same bytes as the values i+1 buffered, or
    the two differ and collide under the hash. *)
Theorem C21_detect : forall (G : rng) (H : hasher) (P : pid -> prog (jst G * list (list (Z * Z)))) i opsi opsj si sj sched c si' log,
  j_rcv G si = [] -> j_snd G sj = [] ->
  P i = session G H i opsi [] si -> P (next i) = session G H (next i) opsj [] sj ->
  steps sched (start P) c -> get (progs c) i = Ret (si', log) ->
  forall n seg, nth_error log n = Some seg ->
    exists buf, nth_error (buffered opsj []) n = Some buf /\ (wire seg = wire buf \/ collision H (wire seg) (wire buf)).
Proof. exact session_detect. Qed.
Print Assumptions C21_detect.
(** Equal bytes of equally typed in-range sequences are equal values. *)
Theorem C21_values : forall a b, map fst a = map fst b ->
  Forall (fun Kv => In (fst Kv) widths /\ inr (fst Kv) (snd Kv)) a -> Forall (fun Kv => In (fst Kv) widths /\ inr (fst Kv) (snd Kv)) b ->
  wire a = wire b -> a = b.
Proof. exact wire_inj. Qed.
Print Assumptions C21_values.
(** If nobody cheats (in each round party i sends x_i to i+1 and i-1 buffers x_i), verification
    succeeds and everybody has received its predecessor's values; any number of rounds of any types. *)
Theorem C21_honest : forall (G : rng) (H : hasher) (rounds : list (Z * (pid -> list Z))) (s : pid -> jst G),
  prf_synced (fun i => j_prf G (s i)) -> (forall i, j_rcv G (s i) = j_snd G (s (next i))) ->
  Forall (fun Kx => In (fst Kx) widths /\ (forall i, Forall (inr (fst Kx)) (snd Kx i)) /\ exists n, forall i, length (snd Kx i) = n) rounds ->
  honest_run (fun i => session G H i (flat_map (fun Kx => [OBufferMany (fst Kx) (snd Kx (next i)); OSendMany (fst Kx) (snd Kx i); OReceiveMany (fst Kx) (length (snd Kx i))]) rounds ++ [OVerify]) []) s
    (fun _ log => forall i, log i = [flat_map (fun Kx => map (pair (fst Kx)) (snd Kx (prev i))) rounds]).
Proof.
  intros G H rounds s H1 H2 HF. apply wpM_honest.
  eapply wpM_mono; [|apply (session_honest G H rounds (fun _ => []) s (conj H1 H2) HF)]. intros s' log [_ Hl]. exact Hl.
Qed.
Print Assumptions C21_honest.
(** P2 sends 7 to P0 but told P1 to vouch for 8: P0 ends in the verification error. *)
Example C21_example :
  let P := fun i => match i with
    | P0 => session one_rng pad_hasher P0 [OReceive 8; OVerify] [] fresh
    | P1 => session one_rng pad_hasher P1 [OBuffer 8 8; OVerify] [] fresh
    | P2 => Send P0 [7] (Fail EOther)
    end in
  exists sched c, steps sched (start P) c /\ get (progs c) P0 = Fail EJmpVerify.
Proof.
  exists [P2; P0; P0; P1; P0]. eexists. split.
  - repeat (eapply steps_cons; [first [eapply step_send; reflexivity|eapply step_recv; reflexivity]|]). apply steps_nil.
  - reflexivity.
Qed.

(** C22: commitments. *)
Theorem C22_opens : forall H K v r, o_verify H K (c_open (commit_with_rand H K v r)) (c_comm (commit_with_rand H K v r)) = true.
Proof. exact opens_itself. Qed.
Print Assumptions C22_opens.
Theorem C22_binding : forall H K com o o', In K widths -> Forall (inr K) (o_values o) -> Forall (inr K) (o_values o') ->
  length (o_rand o) = length (o_rand o') -> o_verify H K o com = true -> o_verify H K o' com = true ->
  o = o' \/ collision H (ring_slice_to_bytes K (o_values o) ++ o_rand o) (ring_slice_to_bytes K (o_values o') ++ o_rand o').
Proof. exact binding. Qed.
Print Assumptions C22_binding.
(** Both alternatives occur. *)
Example C22_example : (exists o com, o_verify pad_hasher 16 o com = true /\ o_values o = [513; 77]) /\
  exists o o' com, o_verify pad_hasher 8 o com = true /\ o_verify pad_hasher 8 o' com = true /\ o <> o' /\ length (o_rand o) = length (o_rand o').
Proof.
  split.
  - exists (c_open (commit_with_rand pad_hasher 16 [513; 77] (repeat 5 32))), (c_comm (commit_with_rand pad_hasher 16 [513; 77] (repeat 5 32))). split; reflexivity.
  - exists (Opening (repeat 9 40) (repeat 1 30 ++ [2])), (Opening (repeat 9 40) (repeat 1 30 ++ [3])), (repeat 9 40 ++ repeat 1 24).
    split; [reflexivity|]. split; [reflexivity|]. split; [discriminate|reflexivity].
Qed.

(** C23: malicious ABY3 in an honest run.  [40 <= verif_width K - K] selects the types whose
    verification type has the 40 spare bits the code demands (u8, u16, u64 and Bit); the others panic. *)
Definition mal_ready {G} (s : pid -> jst G) : Prop :=
  prf_synced (fun i => j_prf G (s i)) /\ forall i, j_rcv G (s i) = j_snd G (s (next i)).
Theorem C23_mul : forall G H K X x Y y s, In K widths -> 40 <= verif_width K - K -> mal_ready s ->
  arith_shared K X x -> arith_shared K Y y ->
  honest_run (fun i => mal_mul G H i K (X i) (Y i)) s (fun s' W => mal_ready s' /\ arith_shared K W ((x * y) mod 2 ^ K)).
Proof. intros. apply wpM_honest, mal_mul_ok; assumption. Qed.
Print Assumptions C23_mul.
Theorem C23_dot : forall G H K X xs Y ys s, In K widths -> 40 <= verif_width K - K -> mal_ready s ->
  vec_shared (arith_shared K) X xs -> vec_shared (arith_shared K) Y ys -> length xs = length ys ->
  honest_run (fun i => mal_dot G H i K (X i) (Y i)) s (fun s' W => mal_ready s' /\ arith_shared K W (dotp xs ys mod 2 ^ K)).
Proof. intros. apply wpM_honest, mal_dot_ok; auto using vec_RL. Qed.
Print Assumptions C23_dot.
Theorem C23_dot_many : forall G H K X xs Y ys s, In K widths -> 40 <= verif_width K - K -> mal_ready s ->
  vec_shared (vec_shared (arith_shared K)) X xs -> vec_shared (vec_shared (arith_shared K)) Y ys -> Forall2 (fun x y => length x = length y) xs ys ->
  honest_run (fun i => mal_dot_many G H i K (X i) (Y i)) s
    (fun s' W => mal_ready s' /\ vec_shared (arith_shared K) W (map2 (fun x y => dotp x y mod 2 ^ K) xs ys)).
Proof.
  intros. apply wpM_honest. eapply wpM_mono; [|apply mal_dot_many_ok; eauto using vec2_RL]. intros s' W [? ?]. split; [assumption|]. apply RL_vec. assumption.
Qed.
Print Assumptions C23_dot_many.
Theorem C23_and : forall G H K X x Y y s, In K widths -> mal_ready s -> bin_shared K X x -> bin_shared K Y y ->
  honest_run (fun i => mal_and G H i K (X i) (Y i)) s (fun s' W => mal_ready s' /\ bin_shared K W (Z.land x y)).
Proof.
  intros G H K X x Y y s HK Hs HX HY. apply wpM_honest. eapply wpM_mono; [|apply (mal_and_ok G H K X x Y y s HK Hs (conj HK HX) (conj HK HY))]. intros s' W [? [_ ?]]. auto.
Qed.
Print Assumptions C23_and.
Theorem C23_a2b : forall G H K X x s, In K widths -> mal_ready s -> arith_shared K X x ->
  honest_run (fun i => mal_get_msb G H i K (X i)) s (fun s' W => mal_ready s' /\ bin_shared 1 W (Z.b2z (Z.testbit x (K - 1)))).
Proof. intros. apply wpM_honest, mal_get_msb_ok; assumption. Qed.
Print Assumptions C23_a2b.
(** From key set-up on, any client program: everybody obtains the plain results, no check fails. *)
Theorem C23_any_program : forall G H K cs p (sd1 sd2 rd1 rd2 : pid -> list Z) (s : pid -> prf G), In K widths -> 40 <= verif_width K - K ->
  (forall i, length (sd1 i) = 32%nat /\ length (sd2 i) = 32%nat /\ length (rd1 i) = 32%nat /\ length (rd2 i) = 32%nat) ->
  (forall i, Forall (inr 8) (sd1 i) /\ Forall (inr 8) (sd2 i)) ->
  eval K cs mem0 = Some p ->
  honest_run (fun i => bindM (setup_prf_mal G H i (sd1 i) (sd2 i) (rd1 i) (rd2 i)) (fun _ => exec (mal_api G H i K) i cs mem0))
    (fun i => JSt G (s i) [] [] [])
    (fun s' m => mal_ready s' /\ (forall i, aout (m i) = aout p) /\ (forall i, bout (m i) = bout p)).
Proof.
  intros G H K cs p sd1 sd2 rd1 rd2 s HK HU HL HR He. apply wpM_honest.
  apply (wpM_bind (fun i => setup_prf_mal G H i (sd1 i) (sd2 i) (rd1 i) (rd2 i)) (fun i _ => exec (mal_api G H i K) i cs mem0)).
  eapply wpM_mono; [|apply (setup_prf_mal_ok G H sd1 sd2 rd1 rd2 _ HL HR); intros i; reflexivity]. intros s1 ? [Hs1 _].
  eapply wpM_mono; [|apply (exec_ok _ _ _ _ _ (mal_api_ok G H K HK HU) cs (fun _ => mem0) mem0 p s1 Hs1 (mem0_shared _ _) He)].
  intros s' m [H1 (H2 & H3 & H4 & H5)]. auto.
Qed.
Print Assumptions C23_any_program.
(** For the other two types every product panics at every party before a message is sent. *)
Theorem C23_unsupported : forall G H i K s, In K widths -> ~ 40 <= verif_width K - K ->
  (K = 32 \/ K = 128) /\ (forall x y, mal_mul G H i K x y s = Fail EPanic) /\ (forall xs ys, length xs = length ys -> mal_dot G H i K xs ys s = Fail EPanic).
Proof.
  intros G H i K s HK HU. assert (K = 32 \/ K = 128) as [-> | ->] by (cbn in HK; destruct HK as [<-|[<-|[<-|[<-|[<-|[<-|[]]]]]]]; cbn in HU; lia).
  - split; [auto|]. split; intros; [reflexivity|]. unfold mal_dot. rewrite H0, Nat.eqb_refl. reflexivity.
  - split; [auto|]. split; intros; [reflexivity|]. unfold mal_dot. rewrite H0, Nat.eqb_refl. reflexivity.
Qed.
Print Assumptions C23_unsupported.
Example C23_example : (In 16 widths /\ 40 <= verif_width 16 - 16) /\
  eval 16 [CInput P0 300; CInput P2 65000; CMul 0 1; CDot [0; 1]%nat [1; 2]%nat; CMsb 2; COpenMany [2; 3]%nat; COpenBit 0] mem0 =
  Some (Mem [300; 65000; 35808; 44768] [true] [35808; 44768] [true]).
Proof. split; [split; [cbn; tauto|cbn; lia]|vm_compute; reflexivity]. Qed.

(** C24.  The value under test: with correct products it is 0 for every challenge r; with errors e0
    and e1 in the two products it is e1 - r * e0. *)
Theorem C24_triple_value : forall U r a a' b e0 e1 V B C0 C1, 0 <= U -> (forall i : pid, V i = (a * r - a') mod 2 ^ U) ->
  arith_shared U B b -> arith_shared U C0 ((a * b + e0) mod 2 ^ U) -> arith_shared U C1 ((a' * b + e1) mod 2 ^ U) ->
  arith_shared U (fun i => triple_check U r (V i) (B i) (C0 i) (C1 i)) ((e1 - r * e0) mod 2 ^ U).
Proof. exact triple_check_value. Qed.
Print Assumptions C24_triple_value.
(** At most 2^(K-1) of the 2^U challenges miss an error that is visible in the K low bits. *)
Theorem C24_missed : forall K U e0 e1 l, 1 <= K <= U -> e0 mod 2 ^ K <> 0 -> NoDup l ->
  Forall (fun r => inr U r /\ (e1 - r * e0) mod 2 ^ U = 0) l -> Z.of_nat (length l) <= 2 ^ (K - 1).
Proof. exact missed_challenges. Qed.
Print Assumptions C24_missed.

(** Executions against a malicious party.  [duo_run i p q s t s' t' x y]: i and i+1 run p and q, the
    third party sends arbitrary bytes; i and i+1 both finish.  The shares of the factors and of the two
    alleged products c0, c1 are fixed before the protocol starts.  If c0 is not a * b modulo 2^K, there is
    a set of at most 2^(K-1) challenges (fixed by the factors and products alone) such that both honest
    parties finish only if the challenge drawn from the three coins falls into it, or the
    strings they hashed collide. *)
Theorem C24_mul : forall K a a' b c0 c1, In K widths -> (c0 - a * b) mod 2 ^ K <> 0 ->
  exists bad, Z.of_nat (length bad) <= 2 ^ (K - 1) /\
    forall G H i A A' B C0 C1 (s t s' t' : jst G) x y, let U := verif_width K in
    next_prf G (j_prf G t) = my_prf G (j_prf G s) ->
    arith_shared U A a -> arith_shared U A' a' -> arith_shared U B b -> arith_shared U C0 c0 -> arith_shared U C1 c1 ->
    duo_run i (mul_triple_check G H i K (A i) (A' i) (B i) [C0 i; C1 i])
              (mul_triple_check G H (next i) K (A (next i)) (A' (next i)) (B (next i)) [C0 (next i); C1 (next i)]) s t s' t' x y ->
    hash_collision G H s' t' \/ In (challenge G U (duo_seed G s t)) bad.
Proof.
  intros K a a' b c0 c1 HK He. exists (bad_challenges (verif_width K) (c0 - a * b) (c1 - a' * b)). split; [apply bad_few; [apply verif_ge, HK|exact He]|].
  intros G H i A A' B C0 C1 s t s' t' x y U Hs HA HA' HB HC0 HC1 HR. eapply triple_run; eassumption.
Qed.
Print Assumptions C24_mul.
(** The same for each position of a batch, *)
Theorem C24_mul_many : forall K n u u' w z z', In K widths -> (z - u * w) mod 2 ^ K <> 0 ->
  exists bad, Z.of_nat (length bad) <= 2 ^ (K - 1) /\
    forall G H i len A a A' a' B b C c0 c1 (s t s' t' : jst G) x y, let U := verif_width K in
    next_prf G (j_prf G t) = my_prf G (j_prf G s) ->
    length a = len -> length a' = len -> length b = len -> length c0 = len -> length c1 = len ->
    nth_error a n = Some u -> nth_error a' n = Some u' -> nth_error b n = Some w -> nth_error c0 n = Some z -> nth_error c1 n = Some z' ->
    vec_shared (arith_shared U) A a -> vec_shared (arith_shared U) A' a' -> vec_shared (arith_shared U) B b -> vec_shared (arith_shared U) C (c0 ++ c1) ->
    duo_run i (mul_triple_check_many G H i K len (A i) (A' i) (B i) (C i))
              (mul_triple_check_many G H (next i) K len (A (next i)) (A' (next i)) (B (next i)) (C (next i))) s t s' t' x y ->
    hash_collision G H s' t' \/ In (challenge G U (duo_seed G s t)) bad.
Proof.
  intros K n u u' w z z' HK He. exists (bad_challenges (verif_width K) (z - u * w) (z' - u' * w)). split; [apply bad_few; [apply verif_ge, HK|exact He]|].
  intros G H i len A a A' a' B b C c0 c1 s t s' t' x y U Hs La La' Lb L0 L1 N1 N2 N3 N4 N5 HA HA' HB HC HR.
  destruct (triple_many_run G H i K len A a A' a' B b C c0 c1 s t s' t' x y HK Hs La La' Lb L0 L1 HA HA' HB HC HR) as [HX|HF]; [left; exact HX|right; eapply HF; eassumption].
Qed.
Print Assumptions C24_mul_many.
(** for dot products, *)
Theorem C24_dot : forall K a a' b c0 c1, In K widths -> (c0 - dotp a b) mod 2 ^ K <> 0 -> length a = length b -> length a' = length b ->
  exists bad, Z.of_nat (length bad) <= 2 ^ (K - 1) /\
    forall G H i A A' B C0 C1 (s t s' t' : jst G) x y, let U := verif_width K in
    next_prf G (j_prf G t) = my_prf G (j_prf G s) ->
    vec_shared (arith_shared U) A a -> vec_shared (arith_shared U) A' a' -> vec_shared (arith_shared U) B b -> arith_shared U C0 c0 -> arith_shared U C1 c1 ->
    duo_run i (dot_sacrifice_check G H i K (A i) (A' i) (B i) [C0 i; C1 i])
              (dot_sacrifice_check G H (next i) K (A (next i)) (A' (next i)) (B (next i)) [C0 (next i); C1 (next i)]) s t s' t' x y ->
    hash_collision G H s' t' \/ In (challenge G U (duo_seed G s t)) bad.
Proof.
  intros K a a' b c0 c1 HK He La La'. exists (bad_challenges (verif_width K) (c0 - dotp a b) (c1 - dotp a' b)). split; [apply bad_few; [apply verif_ge, HK|exact He]|].
  intros G H i A A' B C0 C1 s t s' t' x y U Hs HA HA' HB HC0 HC1 HR. eapply dot_run2; eassumption.
Qed.
Print Assumptions C24_dot.
(** and for batches of dot products. *)
Theorem C24_dot_many : forall K n u u' w z z', In K widths -> (z - dotp u w) mod 2 ^ K <> 0 ->
  exists bad, Z.of_nat (length bad) <= 2 ^ (K - 1) /\
    forall G H i A a A' a' B b C c0 c1 (s t s' t' : jst G) x y, let U := verif_width K in
    next_prf G (j_prf G t) = my_prf G (j_prf G s) ->
    Forall2 (fun x y => length x = length y) a b -> Forall2 (fun x y => length x = length y) a' b -> length c0 = length b -> length c1 = length b ->
    nth_error a n = Some u -> nth_error a' n = Some u' -> nth_error b n = Some w -> nth_error c0 n = Some z -> nth_error c1 n = Some z' ->
    vec_shared (vec_shared (arith_shared U)) A a -> vec_shared (vec_shared (arith_shared U)) A' a' -> vec_shared (vec_shared (arith_shared U)) B b -> vec_shared (arith_shared U) C (c0 ++ c1) ->
    duo_run i (dot_sacrifice_check_many G H i K (length b) (A i) (A' i) (B i) (C i))
              (dot_sacrifice_check_many G H (next i) K (length b) (A (next i)) (A' (next i)) (B (next i)) (C (next i))) s t s' t' x y ->
    hash_collision G H s' t' \/ In (challenge G U (duo_seed G s t)) bad.
Proof.
  intros K n u u' w z z' HK He. exists (bad_challenges (verif_width K) (z - dotp u w) (z' - dotp u' w)). split; [apply bad_few; [apply verif_ge, HK|exact He]|].
  intros G H i A a A' a' B b C c0 c1 s t s' t' x y U Hs La La' L0 L1 N1 N2 N3 N4 N5 HA HA' HB HC HR.
  destruct (dot_many_run2 G H i K A a A' a' B b C c0 c1 s t s' t' x y HK Hs La La' L0 L1 HA HA' HB HC HR) as [HX|HF]; [left; exact HX|right; eapply HF; eassumption].
Qed.
Print Assumptions C24_dot_many.
(** A run meeting every hypothesis of C24_mul, with wrong products 36 and 15 for 5 * 7 and 2 * 7: the
    cheating third party is lucky (the challenge is 1), both honest parties accept. *)
Definition one_sided (x : Z) (i : pid) : share := match i with P0 => Share x 0 | P1 => Share 0 x | P2 => Share 0 0 end.
Example C24_example :
  next_prf one_rng (j_prf one_rng fresh) = my_prf one_rng (j_prf one_rng fresh) /\ (forall x, inr 64 x -> arith_shared 64 (one_sided x) x) /\ (36 - 5 * 7) mod 2 ^ 16 <> 0 /\ exists s' t' x y, duo_run P0
    (mul_triple_check one_rng pad_hasher P0 16 (one_sided 5 P0) (one_sided 2 P0) (one_sided 7 P0) [one_sided 36 P0; one_sided 15 P0])
    (mul_triple_check one_rng pad_hasher P1 16 (one_sided 5 P1) (one_sided 2 P1) (one_sided 7 P1) [one_sided 36 P1; one_sided 15 P1]) fresh fresh s' t' x y.
Proof.
  split; [reflexivity|]. split; [|split; [discriminate|]].
  { intros x Hx. split; [intros []; cbn; unfold inr in *; lia|]. split; [intros []; reflexivity|]. cbn. rewrite !Z.add_0_r. symmetry. apply Z.mod_small. exact Hx. }
  apply (duo_example P0) with (z := Send P0 (repeat 1 32) (Send P0 (repeat 0 8) (Send P1 (repeat 1 32 ++ repeat 0 32) (Send P0 (repeat 0 64) (Send P1 (repeat 0 64) (Fail EOther))))))
    (sched := [P2; P2; P2; P2; P2] ++ [P0; P1; P0; P1] ++ [P0; P1; P0; P1] ++ [P0; P1; P0; P1] ++ [P0; P0; P1; P1] ++ [P0; P0; P1; P1]).
  - repeat (apply sends_bytes_send; [repeat constructor; unfold inr; cbn; lia|]). apply sends_bytes_fail.
  - reflexivity.
Qed.
(** The zero check on its own: two honest parties, any third party.  If one honest party accepts, all
    checked values are zero or the hashed strings collide. *)
Theorem C24_zero : forall G H U (P : pid -> prog (jst G * unit)) i wi wj (si sj : jst G) sched c r, In U widths ->
  length wi = length wj ->
  (forall n x y, nth_error wi n = Some x -> nth_error wj n = Some y -> inr U (sa x) /\ inr U (sb x) /\ inr U (sa y) /\ sb y = sa x) ->
  P i = zero_verify G H i U wi si -> P (next i) = zero_verify G H (next i) U wj sj ->
  steps sched (start P) c -> (get (progs c) i = Ret r \/ get (progs c) (next i) = Ret r) ->
  (forall n x y, nth_error wi n = Some x -> nth_error wj n = Some y -> (sa x + sb x + sa y) mod 2 ^ U = 0) \/
  collision H (zero_transcript U i wi) (zero_transcript U (next i) wj).
Proof. intros G H U P i wi wj si sj sched c r HU. exact (zero_detect G H U HU P i wi wj si sj sched c r). Qed.
Print Assumptions C24_zero.

(** C32: coins and keys. *)
Theorem C32_honest : forall G (s : pid -> jst G), mal_ready s ->
  honest_run (fun i => coin G i) s (fun s' c => mal_ready s' /\
    exists d, (forall i, Forall (inr 8) (d i) /\ length (d i) = 32%nat) /\
              forall i, c i = map2 Z.lxor (d P0) (map2 Z.lxor (d P1) (d P2))).
Proof. intros G s Hs. apply wpM_honest, coin_ok, Hs. Qed.
Print Assumptions C32_honest.
(** i and i+1 honest, arbitrary third party: after a coin and its verification both hold the same
    coin, the xor of the three contributions of which only the third party's generator outputs are not
    chosen by them. *)
Theorem C32_agreement : forall G H i (s t s' t' : jst G) x y,
  next_prf G (j_prf G t) = my_prf G (j_prf G s) -> j_rcv G s = [] -> j_snd G t = [] ->
  duo_run i (bindM (coin G i) (fun c => bindM (jmp_verify G H i) (fun _ => retM c)))
            (bindM (coin G (next i)) (fun c => bindM (jmp_verify G H (next i)) (fun _ => retM c))) s t s' t' x y ->
  y = map2 Z.lxor (snd (draw_bytes G 32 (my_prf G (j_prf G s)))) (map2 Z.lxor (snd (draw_bytes G 32 (my_prf G (j_prf G t)))) (snd (draw_bytes G 32 (next_prf G (j_prf G s))))) /\
  (x = y \/ hash_collision G H s' t').
Proof. exact coin_verify_run. Qed.
Print Assumptions C32_agreement.
(** Key set-up, one party against any others: if it finishes, both openings it received match the
    commitments it had received before revealing its own seeds, and the keys are the xors of the seeds. *)
Theorem C32_setup_checked : forall G H i s1 s2 r1 r2 (s : jst G) tr s' u, lrun (setup_prf_mal G H i s1 s2 r1 r2 s) tr (Ret (s', u)) ->
  exists c1 c2 o1 o2,
    rcvd_from (next i) tr = [c1; o1] /\ rcvd_from (prev i) tr = [c2; o2] /\
    sent_to (next i) tr = [c_comm (commit_with_rand H 8 s1 r1); ring_slice_to_bytes 8 s1 ++ r1] /\
    sent_to (prev i) tr = [c_comm (commit_with_rand H 8 s2 r2); ring_slice_to_bytes 8 s2 ++ r2] /\
    length o1 = (length s1 + 32)%nat /\ length o2 = (length s1 + 32)%nat /\
    o_verify H 8 (Opening (firstn (length s1) o1) (skipn (length s1) o1)) c1 = true /\
    o_verify H 8 (Opening (firstn (length s1) o2) (skipn (length s1) o2)) c2 = true /\
    j_prf G s' = prf_new G (map2 Z.lxor (firstn (length s1) o1) s1) (map2 Z.lxor (firstn (length s1) o2) s2).
Proof. exact setup_checked. Qed.
Print Assumptions C32_setup_checked.
Theorem C32_setup : forall G H (sd1 sd2 rd1 rd2 : pid -> list Z) (s : pid -> prf G),
  (forall i, length (sd1 i) = 32%nat /\ length (sd2 i) = 32%nat /\ length (rd1 i) = 32%nat /\ length (rd2 i) = 32%nat) ->
  (forall i, Forall (inr 8) (sd1 i) /\ Forall (inr 8) (sd2 i)) ->
  honest_run (fun i => setup_prf_mal G H i (sd1 i) (sd2 i) (rd1 i) (rd2 i)) (fun i => JSt G (s i) [] [] [])
    (fun s' _ => prf_synced (fun i => j_prf G (s' i)) /\ forall i, my_prf G (j_prf G (s' i)) = rseed G (map2 Z.lxor (sd1 i) (sd2 (next i)))).
Proof.
  intros G H sd1 sd2 rd1 rd2 s HL HR. apply wpM_honest. eapply wpM_mono; [|apply (setup_prf_mal_ok G H sd1 sd2 rd1 rd2 _ HL HR); intros i; reflexivity].
  intros s' a [[H1 _] H2]. auto.
Qed.
Print Assumptions C32_setup.

(** C38: malicious ABY3 answers the plain question (16- and 64-bit rings). *)
Theorem C38_aby3_mal : forall G H K signed (s : pid -> jst G) X a DB bs chunk, In K widths -> 14 < K -> 40 <= verif_width K - K -> mal_ready s ->
  wf_iris a -> Forall wf_iris bs -> Forall (enough_valid a) bs -> (0 < length bs)%nat -> (0 < chunk)%nat ->
  vec_shared (arith_shared K) X (code_vals (ir_code a)) ->
  vec_shared (vec_shared (arith_shared K)) DB (map (fun b => code_vals (ir_code b)) bs) ->
  honest_run (fun i => iris_in_db (mal_engine G H i K) signed (X i) (DB i) (ir_mask a) (map ir_mask bs) chunk) s
    (fun s' r => mal_ready s' /\ answers a bs r).
Proof.
  intros G H K signed s X a DB bs chunk HW HK HU Hs Ha Hbs Hv Hl Hc HX HDB.
  assert (HK16 : 16 <= K) by (apply width_cases in HW; lia).
  apply wpM_honest. eapply wpM_mono.
  2: { refine (iris_in_db_ok (fun i => mal_engine G H i K) K _ _ _ _ _ _ _ _ _ (mal_mpc_ok G H K HW HU ltac:(lia)) HK16 signed tt s X a DB bs chunk Hs Ha Hbs Hv Hl Hc (vec_RL _ _ _ HX) (vec2_RL _ _ _ HDB) I). }
  intros s' r [Hs' Hr]. split; [exact Hs'|apply answers_intro, Hr].
Qed.
Print Assumptions C38_aby3_mal.
