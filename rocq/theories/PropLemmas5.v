(** Lemmas behind Properties4: executions with two honest parties and an arbitrary third. *)
From Verif Require Import Base Ring RingProofs Prog Sched Conc Rng Rel Net BinTrait Iris IrisSpec BitArith BinProofs AddProofs MpcSpec Protocol Client ClientProofs Aby3 ShareSpec
  Aby3Proofs Jmp JmpProofs Session SessionProofs Aby3Mal Aby3MalProofs Aby3MalProofs2 SacrificeProofs PropLemmas PropLemmas2 PropLemmas3 PropLemmas4 ProtocolProofs SpecProofs Duo DuoProofs.
From Coq Require Import ZifyBool ZifyNat FinFun.

(** Parties i and i+1 run p and q from s and t, the third party sends arbitrary bytes to anybody at any
    time, and under some schedule i and i+1 finish with (s', x) and (t', y). *)
Definition duo_run {S A} (i : pid) (p q : M S A) (s t s' t' : S) (x y : A) : Prop :=
  exists (P : pid -> prog (S * A)) sched c, P i = p s /\ P (next i) = q t /\ sends_bytes (P (prev i)) /\
    steps sched (start P) c /\ get (progs c) i = Ret (s', x) /\ get (progs c) (next i) = Ret (t', y).
Lemma duo_run_sound {S A} i (p q : M S A) s t s' t' x y (Q : S -> A -> S -> A -> Prop) :
  duoM i p q s t Q -> duo_run i p q s t s' t' x y -> Q s' x t' y.
Proof.
  intros D (P & sched & c & E1 & E2 & HB & Hst & R1 & R2).
  apply (duo_sound i P (fun a b => Q (fst a) (snd a) (fst b) (snd b)) sched c (s', x) (t', y) HB); auto.
  rewrite E1, E2. exact D.
Qed.

(** The challenges that miss an error, as a list. *)
Definition bad_challenges (U e0 e1 : Z) : list Z :=
  filter (fun r => (e1 - r * e0) mod 2 ^ U =? 0) (map Z.of_nat (seq 0 (Z.to_nat (2 ^ U)))).
Lemma bad_in U e0 e1 r : inr U r -> (e1 - r * e0) mod 2 ^ U = 0 -> In r (bad_challenges U e0 e1).
Proof.
  intros Hr E. apply filter_In. split; [|rewrite E; reflexivity]. apply in_map_iff. unfold inr in Hr. exists (Z.to_nat r). split; [lia|]. apply in_seq. lia.
Qed.
Lemma bad_few K U e0 e1 : 1 <= K <= U -> e0 mod 2 ^ K <> 0 -> Z.of_nat (length (bad_challenges U e0 e1)) <= 2 ^ (K - 1).
Proof.
  intros HK He. apply (missed_challenges K U e0 e1 _ HK He).
  - apply NoDup_filter. apply FinFun.Injective_map_NoDup; [intros x y; apply Nat2Z.inj|apply seq_NoDup].
  - apply Forall_forall. intros r Hin. apply filter_In in Hin. destruct Hin as [Hin E]. apply in_map_iff in Hin. destruct Hin as (n & <- & Hn). apply in_seq in Hn.
    split; [unfold inr; lia|]. apply Z.eqb_eq, E.
Qed.
Lemma challenge_range G U seed : 0 <= U -> inr U (challenge G U seed).
Proof. intros HU. unfold challenge. apply draw_range, HU. Qed.
Lemma verif_ge K : In K widths -> 1 <= K <= verif_width K.
Proof. cbn. intros [<-|[<-|[<-|[<-|[<-|[<-|[]]]]]]]; cbn; lia. Qed.

Section R.
  Variables (G : rng) (H : hasher) (i : pid).
  Notation ST := (jst G).
  Lemma triple_run K A a A' a' B b C0 c0 C1 c1 (s t s' t' : ST) x y : In K widths -> synced2 G s t ->
    let U := verif_width K in
    arith_shared U A a -> arith_shared U A' a' -> arith_shared U B b -> arith_shared U C0 c0 -> arith_shared U C1 c1 ->
    duo_run i (mul_triple_check G H i K (A i) (A' i) (B i) [C0 i; C1 i]) (mul_triple_check G H (next i) K (A (next i)) (A' (next i)) (B (next i)) [C0 (next i); C1 (next i)]) s t s' t' x y ->
    x = (sh_trunc K (A i), sh_trunc K (B i), sh_trunc K (C0 i)) /\ y = (sh_trunc K (A (next i)), sh_trunc K (B (next i)), sh_trunc K (C0 (next i))) /\
    (hash_collision G H s' t' \/ In (challenge G U (duo_seed G s t)) (bad_challenges U (c0 - a * b) (c1 - a' * b))).
  Proof.
    intros HK Hs U HA HA' HB HC0 HC1 HR. assert (HU : 0 <= U) by (pose proof (verif_ge K HK); unfold U; lia).
    apply (duo_run_sound _ _ _ _ _ _ _ _ _ _ (mul_triple_check_duo G H i K A a A' a' B b C0 c0 C1 c1 s t HK Hs HA HA' HB HC0 HC1)) in HR.
    destruct HR as (_ & E1 & E2 & [HC|E]); repeat split; auto. right. apply bad_in; [apply challenge_range, HU|exact E].
  Qed.
  Lemma triple_many_run K len A a A' a' B b C c0 c1 (s t s' t' : ST) x y : In K widths -> synced2 G s t ->
    let U := verif_width K in
    length a = len -> length a' = len -> length b = len -> length c0 = len -> length c1 = len ->
    vec_shared (arith_shared U) A a -> vec_shared (arith_shared U) A' a' -> vec_shared (arith_shared U) B b -> vec_shared (arith_shared U) C (c0 ++ c1) ->
    duo_run i (mul_triple_check_many G H i K len (A i) (A' i) (B i) (C i)) (mul_triple_check_many G H (next i) K len (A (next i)) (A' (next i)) (B (next i)) (C (next i))) s t s' t' x y ->
    hash_collision G H s' t' \/
    forall n u u' w z z', nth_error a n = Some u -> nth_error a' n = Some u' -> nth_error b n = Some w -> nth_error c0 n = Some z -> nth_error c1 n = Some z' ->
      In (challenge G U (duo_seed G s t)) (bad_challenges U (z - u * w) (z' - u' * w)).
  Proof.
    intros HK Hs U La La' Lb L0 L1 HA HA' HB HC HR. assert (HU : 0 <= U) by (pose proof (verif_ge K HK); unfold U; lia).
    apply (duo_run_sound _ _ _ _ _ _ _ _ _ _ (mul_triple_check_many_duo G H i K len A a A' a' B b C c0 c1 s t HK Hs La La' Lb L0 L1 (vec_RL _ _ _ HA) (vec_RL _ _ _ HA') (vec_RL _ _ _ HB) (vec_RL _ _ _ HC))) in HR.
    destruct HR as (_ & _ & _ & [HCC|E]); [left; exact HCC|right]. intros. apply bad_in; [apply challenge_range, HU|]. eapply E; eassumption.
  Qed.
  Lemma dot_run2 K A a A' a' B b C0 c0 C1 c1 (s t s' t' : ST) x y : In K widths -> synced2 G s t ->
    let U := verif_width K in length a = length b -> length a' = length b ->
    vec_shared (arith_shared U) A a -> vec_shared (arith_shared U) A' a' -> vec_shared (arith_shared U) B b -> arith_shared U C0 c0 -> arith_shared U C1 c1 ->
    duo_run i (dot_sacrifice_check G H i K (A i) (A' i) (B i) [C0 i; C1 i]) (dot_sacrifice_check G H (next i) K (A (next i)) (A' (next i)) (B (next i)) [C0 (next i); C1 (next i)]) s t s' t' x y ->
    x = sh_trunc K (C0 i) /\ y = sh_trunc K (C0 (next i)) /\
    (hash_collision G H s' t' \/ In (challenge G U (duo_seed G s t)) (bad_challenges U (c0 - dotp a b) (c1 - dotp a' b))).
  Proof.
    intros HK Hs U La La' HA HA' HB HC0 HC1 HR. assert (HU : 0 <= U) by (pose proof (verif_ge K HK); unfold U; lia).
    apply (duo_run_sound _ _ _ _ _ _ _ _ _ _ (dot_sacrifice_check_duo G H i K A a A' a' B b C0 c0 C1 c1 s t HK Hs La La' (vec_RL _ _ _ HA) (vec_RL _ _ _ HA') (vec_RL _ _ _ HB) HC0 HC1)) in HR.
    destruct HR as (_ & E1 & E2 & [HC|E]); repeat split; auto. right. apply bad_in; [apply challenge_range, HU|exact E].
  Qed.
  Lemma dot_many_run2 K A a A' a' B b C c0 c1 (s t s' t' : ST) x y : In K widths -> synced2 G s t ->
    let U := verif_width K in
    Forall2 (fun x y => length x = length y) a b -> Forall2 (fun x y => length x = length y) a' b -> length c0 = length b -> length c1 = length b ->
    vec_shared (vec_shared (arith_shared U)) A a -> vec_shared (vec_shared (arith_shared U)) A' a' -> vec_shared (vec_shared (arith_shared U)) B b -> vec_shared (arith_shared U) C (c0 ++ c1) ->
    duo_run i (dot_sacrifice_check_many G H i K (length b) (A i) (A' i) (B i) (C i)) (dot_sacrifice_check_many G H (next i) K (length b) (A (next i)) (A' (next i)) (B (next i)) (C (next i))) s t s' t' x y ->
    hash_collision G H s' t' \/
    forall n u u' w z z', nth_error a n = Some u -> nth_error a' n = Some u' -> nth_error b n = Some w -> nth_error c0 n = Some z -> nth_error c1 n = Some z' ->
      In (challenge G U (duo_seed G s t)) (bad_challenges U (z - dotp u w) (z' - dotp u' w)).
  Proof.
    intros HK Hs U La La' L0 L1 HA HA' HB HC HR. assert (HU : 0 <= U) by (pose proof (verif_ge K HK); unfold U; lia).
    apply (duo_run_sound _ _ _ _ _ _ _ _ _ _ (dot_sacrifice_check_many_duo G H i K A a A' a' B b C c0 c1 s t HK Hs La La' L0 L1 (vec2_RL _ _ _ HA) (vec2_RL _ _ _ HA') (vec2_RL _ _ _ HB) (vec_RL _ _ _ HC))) in HR.
    destruct HR as (_ & _ & _ & [HCC|E]); [left; exact HCC|right]. intros. apply bad_in; [apply challenge_range, HU|]. eapply E; eassumption.
  Qed.
  (** Coins: after coin and verification the two honest parties agree. *)
  Lemma coin_verify_run (s t s' t' : ST) x y : synced2 G s t -> j_rcv G s = [] -> j_snd G t = [] ->
    duo_run i (bindM (coin G i) (fun c => bindM (jmp_verify G H i) (fun _ => retM c)))
              (bindM (coin G (next i)) (fun c => bindM (jmp_verify G H (next i)) (fun _ => retM c))) s t s' t' x y ->
    y = duo_seed G s t /\ (x = y \/ hash_collision G H s' t').
  Proof.
    intros Hs R0 S0 HR. revert HR.
    apply (duo_run_sound i _ _ s t s' t' x y (fun s' x t' y => y = duo_seed G s t /\ (x = y \/ hash_collision G H s' t'))).
    apply duoM_bind. apply coin_duo; [exact Hs|]. intros c di dj dk s1 t1 Fc Lc Edj Edk Edi Hs1 R1 S1.
    apply duoM_bind. apply jmp_verify_duo. intros HE. apply duoM_ret.
    split; [unfold duo_seed; subst; reflexivity|]. destruct HE as [E|E]; [left|right; exact E].
    rewrite R1, S1, R0, S0 in E. cbn [app] in E. apply bts_inj in E; [congruence|right; left; reflexivity| |exact Fc|subst dj; apply draw_bytes_range].
    subst dj. rewrite draw_length. exact Lc.
  Qed.
End R.

(** Executable scheduler, for the examples. *)
Definition step_fn {A} (i : pid) (c : cfg A) : option (cfg A) :=
  match get (progs c) i with
  | Send to m k => Some (Cfg (set (progs c) i k) (qset (qs c) i to (qget (qs c) i to ++ [m])))
  | Recv from k => match qget (qs c) from i with
                   | m :: rest => Some (Cfg (set (progs c) i (k m)) (qset (qs c) from i rest))
                   | [] => None
                   end
  | _ => None
  end.
Fixpoint run_fn {A} (s : list pid) (c : cfg A) : option (cfg A) :=
  match s with [] => Some c | i :: s => match step_fn i c with Some c' => run_fn s c' | None => None end end.
Lemma run_fn_steps {A} s (c c' : cfg A) : run_fn s c = Some c' -> steps s c c'.
Proof.
  revert c. induction s as [|i s IH]; intros c E; cbn in E; [injection E as <-; apply steps_nil|].
  destruct (step_fn i c) as [c1|] eqn:E1; [|discriminate]. eapply steps_cons; [|apply IH, E].
  unfold step_fn in E1. destruct (get (progs c) i) eqn:Eg; try discriminate.
  - injection E1 as <-. apply step_send. exact Eg.
  - destruct (qget (qs c) from i) eqn:Eq; [discriminate|]. injection E1 as <-. eapply step_recv; eassumption.
Qed.
Definition is_ret {A} (p : prog A) : bool := match p with Ret _ => true | _ => false end.
Lemma duo_example {S A} i (p q : M S A) (z : prog (S * A)) s t sched : sends_bytes z ->
  (match run_fn sched (start (fun j => if pid_eqb j i then p s else if pid_eqb j (next i) then q t else z)) with
   | Some c => is_ret (get (progs c) i) && is_ret (get (progs c) (next i)) | None => false end) = true ->
  exists s' t' x y, duo_run i p q s t s' t' x y.
Proof.
  intros Hz E. destruct (run_fn sched _) as [c|] eqn:R; [|discriminate]. apply andb_prop in E. destruct E as [E1 E2].
  destruct (get (progs c) i) as [[s' x]| | |] eqn:G1; try discriminate. destruct (get (progs c) (next i)) as [[t' y]| | |] eqn:G2; try discriminate.
  exists s', t', x, y. eexists. exists sched, c. split; [|split; [|split; [|split; [apply run_fn_steps; exact R|split; assumption]]]]; destruct i; try reflexivity; exact Hz.
Qed.
Lemma sends_bytes_send {A} to m (k : prog A) : Forall (inr 8) m -> sends_bytes k -> sends_bytes (Send to m k).
Proof.
  intros Hm Hk tr q j L. inversion L; subst; cbn; [constructor|]. specialize (Hk _ _ j ltac:(eassumption)).
  destruct (pid_eqb _ _); [constructor; assumption|assumption].
Qed.
Lemma sends_bytes_fail {A} e : sends_bytes (@Fail A e).
Proof. intros tr q j L. inversion L; subst. constructor. Qed.
