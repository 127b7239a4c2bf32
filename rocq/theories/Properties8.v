(** Properties C30, C40 (Swift3), and the Swift3 parts of C08 and C31. *)
From Verif Require Import Base Ring RingProofs Prog Sched Conc Rng Rel Net BitArith BinTrait Iris IrisSpec MpcSpec Protocol Client ClientProofs
  Aby3 ShareSpec Aby3Proofs Aby3Proofs2 Jmp JmpProofs PropLemmas PropLemmas2 PropLemmas3 PropLemmas4 ProtocolProofs SpecProofs Duo DuoProofs PropLemmas5 Properties4
  Swift3 Swift3Spec Swift3Proofs Swift3Gates Swift3Circ Swift3Open Swift3Api Swift3ApiProofs Swift3Setup Swift3SetupProofs.

(** ** C08 *)
(** Party i's share when the dealer draws a1, a2, a3: x + a1 + a2 + a3 is public to the parties. *)
Definition dealt3 (K x a1 a2 a3 : Z) (i : pid) : share3 :=
  let c := (x + a1 + a2 + a3) mod 2 ^ K in
  match i with P0 => Share3 a1 a3 c | P1 => Share3 a2 a1 c | P2 => Share3 a3 a2 c end.
(** For every secret, party and possible share exactly one choice of the dealer's random elements. *)
Theorem C08_swift3_share_uniform : forall K x i u v w, 0 <= K -> inr K x -> inr K u -> inr K v -> inr K w ->
  exists a b c, (inr K a /\ inr K b /\ inr K c /\ dealt3 K x a b c i = Share3 u v w) /\
    forall a' b' c', inr K a' -> inr K b' -> inr K c' -> dealt3 K x a' b' c' i = Share3 u v w -> a' = a /\ b' = b /\ c' = c.
Proof.
  intros K x i u v w HK Hx Hu Hv Hw. pose proof (pow2_pos K HK) as Hp. unfold inr in *.
  assert (Hm : forall z, 0 <= z < 2 ^ K -> z mod 2 ^ K = z) by (intros; apply Z.mod_small; assumption).
  set (o := (w - x - u - v) mod 2 ^ K). assert (Ho : 0 <= o < 2 ^ K) by apply Z.mod_pos_bound, Hp.
  assert (E1 : forall y, y = x + o + u + v -> y mod 2 ^ K = w).
  { intros y ->. unfold o. rewrite <- (Hm w Hw) at 2. replace (x + (w - x - u - v) mod 2 ^ K + u + v) with ((w - x - u - v) mod 2 ^ K + (x + u + v)) by lia.
    rewrite Zplus_mod_idemp_l. f_equal. lia. }
  assert (E2 : forall y z, 0 <= z < 2 ^ K -> y = x + z + u + v -> y mod 2 ^ K = w -> z = o).
  { intros y z Hz -> E. unfold o. rewrite <- E, <- (Hm z Hz) at 1. symmetry.
    replace ((x + z + u + v) mod 2 ^ K - x - u - v) with ((x + z + u + v) mod 2 ^ K - (x + u + v)) by lia.
    rewrite Zminus_mod_idemp_l. f_equal. lia. }
  unfold dealt3. destruct i.
  - exists u, o, v. split; [split; [exact Hu|split; [exact Ho|split; [exact Hv|]]]; f_equal; apply E1; lia|].
    intros a' b' c' Ha Hb Hc E. injection E as -> -> E. split; [reflexivity|]. split; [|reflexivity]. apply (E2 _ _ Hb (eq_refl _)). rewrite <- E. f_equal. lia.
  - exists v, u, o. split; [split; [exact Hv|split; [exact Hu|split; [exact Ho|]]]; f_equal; apply E1; lia|].
    intros a' b' c' Ha Hb Hc E. injection E as -> -> E. split; [reflexivity|]. split; [reflexivity|]. apply (E2 _ _ Hc (eq_refl _)). rewrite <- E. f_equal. lia.
  - exists o, v, u. split; [split; [exact Ho|split; [exact Hv|split; [exact Hu|]]]; f_equal; apply E1; lia|].
    intros a' b' c' Ha Hb Hc E. injection E as -> -> E. split; [|split; reflexivity]. apply (E2 _ _ Ha (eq_refl _)). rewrite <- E. f_equal. lia.
Qed.
Print Assumptions C08_swift3_share_uniform.
Theorem C08_swift3_dealt_shares : forall K x a b c, 0 <= K -> inr K x -> inr K a -> inr K b -> inr K c -> arith3 K (dealt3 K x a b c) x.
Proof.
  intros K x a b c HK Hx Ha Hb Hc. split; [|split].
  - intros [| |]; cbn; (split; [assumption|apply inr_mod, HK]).
  - intros [| |]; split; reflexivity.
  - cbn [dealt3 tc ta]. rewrite Zminus_mod_idemp_l. rewrite <- (Z.mod_small x (2 ^ K)) at 1 by exact Hx. f_equal. lia.
Qed.
Print Assumptions C08_swift3_dealt_shares.

(** The n-th output (from 0) of a generator in state r. *)
Definition out (G : rng) (K : Z) (r : rstate G) (n : nat) : Z := snd (draw G K (Nat.iter n (fun t => fst (draw G K t)) r)).
(** Dealing several secrets one after the other with one generator. *)
Fixpoint deal_all {A} (G : rng) (share : Z -> rstate G -> rstate G * A) (xs : list Z) (r : rstate G) : list A :=
  match xs with
  | [] => []
  | x :: t => snd (share x r) :: deal_all G share t (fst (share x r))
  end.
(** No randomness is used twice: the k-th secret is shared with outputs number 2k and 2k+1 (ABY3), or
    3k, 3k+1, 3k+2 (Swift3). *)
Lemma out_shift G K r m n : out G K (Nat.iter m (fun t => fst (draw G K t)) r) n = out G K r (m + n).
Proof.
  unfold out. do 2 f_equal. rewrite Nat.add_comm. induction n as [|n IH]; [reflexivity|]. cbn [Nat.iter nat_rect Nat.add]. unfold Nat.iter in *. cbn. rewrite IH. reflexivity.
Qed.
Theorem C08_aby3_fresh : forall (G : rng) K xs r k x, nth_error xs k = Some x ->
  nth_error (deal_all G (share_value G K) xs r) k =
    Some (dealt K x (out G K r (2 * k)) (out G K r (2 * k + 1)) P0, dealt K x (out G K r (2 * k)) (out G K r (2 * k + 1)) P1,
          dealt K x (out G K r (2 * k)) (out G K r (2 * k + 1)) P2).
Proof.
  intros G K xs. induction xs as [|y xs IH]; intros r [|k] x E; try discriminate.
  - injection E as ->. cbn [deal_all nth_error]. rewrite share_value_dealt. reflexivity.
  - cbn [deal_all nth_error] in *. rewrite (IH _ _ _ E).
    assert (ER : fst (share_value G K y r) = Nat.iter 2 (fun t => fst (draw G K t)) r).
    { unfold share_value. destruct (draw G K r) as [r1 a1] eqn:E1. destruct (draw G K r1) as [r2 a2] eqn:E2. cbn. rewrite E1. cbn. rewrite E2. reflexivity. }
    rewrite ER, !out_shift. replace (2 * S k)%nat with (2 + 2 * k)%nat by lia. rewrite Nat.add_assoc. reflexivity.
Qed.
Print Assumptions C08_aby3_fresh.
Theorem C08_swift3_fresh : forall (G : rng) K xs r k x, nth_error xs k = Some x -> 0 <= K ->
  let a := out G K r (3 * k) in let b := out G K r (3 * k + 1) in let c := out G K r (3 * k + 2) in
  nth_error (deal_all G (share3_value G K) xs r) k = Some (dealt3 K x a b c P0, dealt3 K x a b c P1, dealt3 K x a b c P2).
Proof.
  intros G K xs. induction xs as [|y xs IH]; intros r [|k] x E HK; try discriminate.
  - injection E as ->. cbn [deal_all nth_error]. unfold share3_value, out, dealt3.
    destruct (draw G K r) as [r1 a1] eqn:E1. destruct (draw G K r1) as [r2 a2] eqn:E2. destruct (draw G K r2) as [r3 a3] eqn:E3. cbn.
    rewrite E1. cbn. rewrite E2. cbn. rewrite E3. cbn. unfold radd, norm.
    replace ((((x + a1) mod 2 ^ K + a2) mod 2 ^ K + a3) mod 2 ^ K) with ((x + a1 + a2 + a3) mod 2 ^ K); [reflexivity|].
    modring.
  - cbn [deal_all nth_error] in *. rewrite (IH _ _ _ E HK).
    assert (ER : fst (share3_value G K y r) = Nat.iter 3 (fun t => fst (draw G K t)) r).
    { unfold share3_value. destruct (draw G K r) as [r1 a1] eqn:E1. destruct (draw G K r1) as [r2 a2] eqn:E2. destruct (draw G K r2) as [r3 a3] eqn:E3.
      cbn. rewrite E1. cbn. rewrite E2. cbn. rewrite E3. reflexivity. }
    rewrite ER, !out_shift. replace (3 * S k)%nat with (3 + 3 * k)%nat by lia. rewrite !Nat.add_assoc. reflexivity.
Qed.
Print Assumptions C08_swift3_fresh.
Example C08_swift3_example : dealt3 8 200 17 100 5 P1 = Share3 100 17 66 /\ dealt3 8 7 17 100 198 P1 = Share3 100 17 66.
Proof. split; reflexivity. Qed.

(** ** C31: for Swift3 the claim is false: Not leaves the shared value as it is. *)
Theorem C31_swift3_refuted : forall K X x, 0 < K -> bin3 K X x ->
  bin3 K (fun i => t_not K (X i)) x /\ ~ bin3 K (fun i => t_not K (X i)) (2 ^ K - 1 - x).
Proof.
  intros K X x HK HX. assert (HB : bin3 K (fun i => t_not K (X i)) x).
  { destruct HX as (A1 & A2 & ->).
    assert (HR : forall z, inr K z -> inr K (rnot K z)) by (unfold inr, rnot; intros; lia).
    split; [|split].
    - intros i. cbn. split; apply HR, A1.
    - intros i. cbn. rewrite (proj1 (A2 i)), (proj2 (A2 i)). auto.
    - cbn. apply (inr_bits_eq K); [lia|repeat apply inr_lxor; try apply A1; lia|repeat apply inr_lxor; try apply HR, A1; lia|].
      intros n Hn. rewrite !Z.lxor_spec, !(rnot_spec K) by (try lia; apply A1).
      destruct (Z.testbit (tc (X P0)) n), (Z.testbit (ta (X P0)) n), (Z.testbit (ta (X P1)) n), (Z.testbit (ta (X P2)) n); reflexivity. }
  split; [exact HB|]. intros HB'. destruct HB as (_ & _ & E), HB' as (_ & _ & E'). rewrite <- E in E'.
  assert (Z.odd (2 ^ K - 1 - x) = Z.odd x) by (f_equal; exact E').
  rewrite Z.odd_sub, Z.odd_sub in H. rewrite Z.odd_pow in H by lia. cbn in H. destruct (Z.odd x); discriminate.
Qed.
Print Assumptions C31_swift3_refuted.
Example C31_swift3_example : bin3 8 (fun i => match i with P0 => Share3 1 4 9 | P1 => Share3 2 1 9 | P2 => Share3 4 2 9 end) 14.
Proof. split; [intros []; cbn; unfold inr; cbn; lia|]. split; [intros []; split; reflexivity|reflexivity]. Qed.

(** ** C40: set-up and coins. *)
(** A freshly created engine, whatever its initial generators. *)
Definition sst_fresh {G} (s : sst G) : Prop :=
  w_sn G s = [] /\ w_sp G s = [] /\ w_rn G s = [] /\ w_rp G s = [] /\ w_and G s = [] /\ w_mul G s = [] /\ w_dot G s = DotReg 0 0 [].
Definition seeds_ok (l : list (pid -> list Z)) : Prop := Forall (fun f => forall i, length (f i) = 32%nat /\ Forall (inr 8) (f i)) l.
Lemma fresh_quiet G K (s : pid -> sst G) : (forall i, sst_fresh (s i)) -> wquiet G K s.
Proof.
  intros Hf. assert (E : forall i, sst_fresh (s i)) by exact Hf.
  split; [intros i; destruct (E i) as (_ & _ & _ & -> & _), (E (prev i)) as (-> & _); reflexivity|].
  split; [intros i; destruct (E i) as (_ & _ & -> & _), (E (next i)) as (_ & -> & _); reflexivity|].
  split; [exists []; apply RL_nil; intros i; apply (E i)|]. split; [exists []; apply RL_nil; intros i; apply (E i)|].
  exists 0%nat, 0%nat, []. split; [intros i; destruct (E i) as (_ & _ & _ & _ & _ & _ & ->); auto|].
  split; [apply RL_nil; intros i; destruct (E i) as (_ & _ & _ & _ & _ & _ & ->); reflexivity|]. split; [cbn; lia|]. split; constructor.
Qed.
(** Honest set-up: neighbours share a generator, and all three share one more. *)
Theorem C40_setup : forall G H (sd1 sd2 sd3 rd1 rd2 rd3 : pid -> list Z) (s : pid -> sst G), (forall i, sst_fresh (s i)) ->
  seeds_ok [sd1; sd2; sd3; rd1; rd2; rd3] ->
  honest_run (fun i => w_setup_prf G H i (sd1 i) (sd2 i) (sd3 i) (rd1 i) (rd2 i) (rd3 i)) s
    (fun s' _ => prf_synced (fun i => w_prf G (s' i)) /\
      (forall i, my_prf G (w_prf G (s' i)) = rseed G (map2 Z.lxor (seed_for sd1 sd2 i (next i)) (seed_for sd1 sd2 (next i) i))) /\
      (forall i, w_p G (s' i) = rseed G (map2 Z.lxor (map2 Z.lxor (sd3 P0) (sd3 P1)) (sd3 P2)))).
Proof.
  intros G H sd1 sd2 sd3 rd1 rd2 rd3 s Hf HS. apply wpM_honest. unfold seeds_ok in HS.
  repeat match goal with X : Forall _ (_ :: _) |- _ => apply Forall_cons_iff in X; destruct X end.
  eapply wpM_mono; [|apply (w_setup_prf_ok G H 8 sd1 sd2 sd3 rd1 rd2 rd3 s)].
  - intros s' u (Hw & Hw1 & Hw2). split; [apply Hw|auto].
  - intros i. repeat match goal with X : forall i : pid, _ /\ _ |- _ => destruct (X i); clear X end. auto 10.
  - intros i. repeat match goal with X : forall i : pid, _ /\ _ |- _ => destruct (X i); clear X end. auto 10.
  - apply fresh_quiet, Hf.
Qed.
Print Assumptions C40_setup.
(** One party against any others: if it finishes, all four openings it received match the commitments
    it had received before revealing its own seeds. *)
Theorem C40_setup_checked_partial : forall G H i s1 s2 s3 r1 r2 r3 (s : sst G) tr s' u, length s1 = 32%nat ->
  lrun (w_setup_prf G H i s1 s2 s3 r1 r2 r3 s) tr (Ret (s', u)) ->
  exists m0 n0 m1 n1,
    rcvd_from (other0 i) tr = [m0; n0] /\ rcvd_from (other1 i) tr = [m1; n1] /\
    sent_to (other0 i) tr = [c_comm (commit_with_rand H 8 s1 r1) ++ c_comm (commit_with_rand H 8 s3 r3);
                             (ring_slice_to_bytes 8 s1 ++ r1) ++ ring_slice_to_bytes 8 s3 ++ r3] /\
    sent_to (other1 i) tr = [c_comm (commit_with_rand H 8 s2 r2) ++ c_comm (commit_with_rand H 8 s3 r3);
                             (ring_slice_to_bytes 8 s2 ++ r2) ++ ring_slice_to_bytes 8 s3 ++ r3] /\
    length m0 = 128%nat /\ length m1 = 128%nat /\ length n0 = 128%nat /\ length n1 = 128%nat /\
    o_verify H 8 (Opening (cut 0 32 n0) (cut 32 32 n0)) (firstn 64 m0) = true /\
    o_verify H 8 (Opening (cut 64 32 n0) (cut 96 32 n0)) (skipn 64 m0) = true /\
    o_verify H 8 (Opening (cut 0 32 n1) (cut 32 32 n1)) (firstn 64 m1) = true /\
    o_verify H 8 (Opening (cut 64 32 n1) (cut 96 32 n1)) (skipn 64 m1) = true /\
    w_prf G s' = (let k1 := map2 Z.lxor s1 (cut 0 32 n0) in let k2 := map2 Z.lxor s2 (cut 0 32 n1) in
                  if pid_eqb i P1 then prf_new G k2 k1 else prf_new G k1 k2) /\
    w_p G s' = rseed G (map2 Z.lxor (map2 Z.lxor s3 (cut 64 32 n0)) (cut 64 32 n1)).
Proof. exact w_setup_checked. Qed.
Print Assumptions C40_setup_checked_partial.
Theorem C40_coin : forall G H (sd rd : pid -> list Z) (s : pid -> sst G), seeds_ok [sd; rd] ->
  honest_run (fun i => w_coin G H i (sd i) (rd i)) s
    (fun s' c => s' = s /\ forall i, c i = map2 Z.lxor (map2 Z.lxor (sd P0) (sd P1)) (sd P2)).
Proof.
  intros G H sd rd s HS. unfold seeds_ok in HS. repeat match goal with X : Forall _ (_ :: _) |- _ => apply Forall_cons_iff in X; destruct X end.
  apply wpM_honest, w_coin_ok. intros i. repeat match goal with X : forall i : pid, _ /\ _ |- _ => destruct (X i); clear X end. auto.
Qed.
Print Assumptions C40_coin.
(** The coin a finishing party computes: its own seed xor two opened seeds, each committed to before
    the party opened its own. *)
Theorem C40_coin_checked_partial : forall G H i sd rd (s : sst G) tr s' c, length sd = 32%nat -> length rd = 32%nat ->
  lrun (w_coin G H i sd rd s) tr (Ret (s', c)) ->
  exists c0 o0 c1 o1,
    rcvd_from (other0 i) tr = [c0; o0] /\ rcvd_from (other1 i) tr = [c1; o1] /\
    sent_to (other0 i) tr = [c_comm (commit_with_rand H 8 sd rd); ring_slice_to_bytes 8 sd ++ rd] /\
    sent_to (other1 i) tr = [c_comm (commit_with_rand H 8 sd rd); ring_slice_to_bytes 8 sd ++ rd] /\
    length o0 = 64%nat /\ length o1 = 64%nat /\
    o_verify H 8 (Opening (firstn 32 o0) (skipn 32 o0)) c0 = true /\
    o_verify H 8 (Opening (firstn 32 o1) (skipn 32 o1)) c1 = true /\
    c = map2 Z.lxor (map2 Z.lxor sd (firstn 32 o0)) (firstn 32 o1).
Proof. exact w_coin_checked. Qed.
Print Assumptions C40_coin_checked_partial.
(** Two honest parties need not agree: a third party that commits and opens sA towards P0 and sB towards
    P1 makes both finish, with coins that differ whenever sA and sB do. *)
Theorem C40_agreement_refuted : forall G H sd0 rd0 sd1 rd1 sA rA sB rB (s t u : sst G),
  Forall (fun l => length l = 32%nat /\ Forall (inr 8) l) [sd0; rd0; sd1; rd1; sA; rA; sB; rB] ->
  exists z : prog (sst G * list Z),
    always_evals (fun i => match i with P0 => w_coin G H P0 sd0 rd0 s | P1 => w_coin G H P1 sd1 rd1 t | P2 => z end)
      (fun i => match i with P0 => (s, map2 Z.lxor (map2 Z.lxor sd0 sd1) sA) | P1 => (t, map2 Z.lxor (map2 Z.lxor sd0 sd1) sB) | P2 => (u, []) end).
Proof.
  intros G H sd0 rd0 sd1 rd1 sA rA sB rB s t u HF. exists (two_faced H sA rA sB rB (u, [])).
  pose proof (two_faced_coin G H sd0 rd0 sd1 rd1 sA rA sB rB s t u HF) as E. rewrite (lxor_list_comm sd1 sd0) in E. apply evals_always, E.
Qed.
Print Assumptions C40_agreement_refuted.
Example C40_example : map2 Z.lxor (map2 Z.lxor (repeat 1 32) (repeat 2 32)) (repeat 4 32) <> map2 Z.lxor (map2 Z.lxor (repeat 1 32) (repeat 2 32)) (repeat 5 32) /\
  Forall (fun l => length l = 32%nat /\ Forall (inr 8) l) [repeat 1 32; repeat 2 32; repeat 4 32; repeat 5 32].
Proof.
  split; [vm_compute; congruence|]. repeat constructor; unfold inr; cbn; lia.
Qed.

(** ** C30 *)
(** From set-up on, any client program: everybody obtains the plain results and no check fails.  [V] is
    whatever [verify] does: programs do not call it. *)
Theorem C30_any_program : forall G H V K cs p (sd1 sd2 sd3 rd1 rd2 rd3 : pid -> list Z) (s : pid -> sst G), In K widths ->
  (forall i, sst_fresh (s i)) -> seeds_ok [sd1; sd2; sd3; rd1; rd2; rd3] -> eval K cs mem0 = Some p ->
  honest_run (fun i => bindM (w_setup_prf G H i (sd1 i) (sd2 i) (sd3 i) (rd1 i) (rd2 i) (rd3 i)) (fun _ => exec (swift3_api G H (V i) i K) i cs mem0)) s
    (fun _ m => vec_shared (arith3 K) (fun i => areg (m i)) (areg p) /\ vec_shared (fun X b => bin3 1 X (Z.b2z b)) (fun i => breg (m i)) (breg p) /\
       (forall i, aout (m i) = aout p) /\ (forall i, bout (m i) = bout p)).
Proof.
  intros G H V K cs p sd1 sd2 sd3 rd1 rd2 rd3 s HK Hf HS He. apply wpM_honest. unfold seeds_ok in HS.
  repeat match goal with X : Forall _ (_ :: _) |- _ => apply Forall_cons_iff in X; destruct X end.
  apply (wpM_bind (fun i => w_setup_prf G H i (sd1 i) (sd2 i) (sd3 i) (rd1 i) (rd2 i) (rd3 i)) (fun i _ => exec (swift3_api G H (V i) i K) i cs mem0)).
  eapply wpM_mono; [|apply (w_setup_prf_ok G H K sd1 sd2 sd3 rd1 rd2 rd3 s)].
  - intros s1 u (Hw & _).
    eapply wpM_mono; [|apply (exec_ok _ _ _ _ _ (swift3_api_ok G H V K HK) cs (fun _ => mem0) mem0 p s1 Hw (mem0_shared _ _) He)].
    intros s' m [H' (E1 & E2 & E3 & E4)]. split; [apply RL_vec, E1|]. split; [apply RL_vec, E2|]. auto.
  - intros i. repeat match goal with X : forall i : pid, _ /\ _ |- _ => destruct (X i); clear X end. auto 10.
  - intros i. repeat match goal with X : forall i : pid, _ /\ _ |- _ => destruct (X i); clear X end. auto 10.
  - apply fresh_quiet, Hf.
Qed.
Print Assumptions C30_any_program.
(** Single operations, from any joint state that honest operations lead to: [winv G K s] says that the
    generators are in lock step, what each party queued for the jmp check is what its neighbours
    received, and the gates registered for the proofs fit together. *)
Theorem C30_operations : forall G H K (s : pid -> sst G), In K widths -> winv G K s ->
  (forall p x v, inr K x -> v p = Some x -> honest_run (fun i => w_input G i K (v i) (pid_num p)) s (fun s' W => winv G K s' /\ arith3 K W x)) /\
  (forall X x, arith3 K X x -> honest_run (fun i => w_open G H i K (X i)) s (fun s' v => winv G K s' /\ forall i, v i = x)) /\
  (forall X x Y y, arith3 K X x -> arith3 K Y y -> honest_run (fun i => w_mulg G i K (X i) (Y i)) s (fun s' W => winv G K s' /\ arith3 K W ((x * y) mod 2 ^ K))) /\
  (forall X xs Y ys, vec_shared (arith3 K) X xs -> vec_shared (arith3 K) Y ys -> length xs = length ys ->
     honest_run (fun i => w_dotg G i K (X i) (Y i)) s (fun s' W => winv G K s' /\ arith3 K W (dotp xs ys mod 2 ^ K))) /\
  (forall W X x Y y, In W widths -> bin3 W X x -> bin3 W Y y ->
     honest_run (fun i => w_andg G i W (X i) (Y i)) s (fun s' R => winv G K s' /\ bin3 W R (Z.land x y))) /\
  (forall W X xs Y ys, In W widths -> vec_shared (bin3 W) X xs -> vec_shared (bin3 W) Y ys -> length xs = length ys ->
     honest_run (fun i => w_and_many G i W (X i) (Y i)) s (fun s' R => winv G K s' /\ vec_shared (bin3 W) R (map2 Z.land xs ys))) /\
  (forall X x, arith3 K X x -> honest_run (fun i => w_a2b G i K (X i)) s (fun s' W => winv G K s' /\ bin3 K W x)) /\
  (forall X x, arith3 K X x -> honest_run (fun i => w_get_msb G i K (X i)) s (fun s' W => winv G K s' /\ bin3 1 W (Z.b2z (Z.testbit x (K - 1))))) /\
  honest_run (fun i => w_verify G H i) s (fun s' _ => winv G K s').
Proof.
  intros G H K s HK Hs. repeat apply conj.
  - intros. apply wpM_honest, w_input_ok; assumption.
  - intros. apply wpM_honest, w_open_ok; assumption.
  - intros. apply wpM_honest, w_mulg_ok; assumption.
  - intros X xs Y ys HX HY Hl. apply wpM_honest, w_dotg_ok; auto using vec_RL.
  - intros. apply wpM_honest, w_andg_ok; assumption.
  - intros W X xs Y ys HW HX HY Hl. apply wpM_honest. eapply wpM_mono; [|apply (w_and_many_ok G K W X xs Y ys s HW Hs); auto using vec_RL].
    intros s' R [H1 H2]. split; [exact H1|apply RL_vec, H2].
  - intros. apply wpM_honest, w_a2b_ok; assumption.
  - intros. apply wpM_honest, w_get_msb_ok; assumption.
  - apply wpM_honest, w_verify_ok, Hs.
Qed.
Print Assumptions C30_operations.
Example C30_example : seeds_ok [fun _ => repeat 7 32] /\ sst_fresh (sst_new one_rng [] [] []) /\
  eval 16 [CInput P0 300; CInput P2 65000; CMul 0 1; CDot [0; 1]%nat [1; 2]%nat; CMsb 2; COpenMany [2; 3]%nat; COpenBit 0] mem0 =
  Some (Mem [300; 65000; 35808; 44768] [true] [35808; 44768] [true]).
Proof.
  split; [repeat constructor; unfold inr; cbn; lia|]. split; [repeat split; reflexivity|vm_compute; reflexivity].
Qed.
Example C30_example_ready : winv one_rng 16 (fun _ => sst_new one_rng [] [] []).
Proof.
  destruct (fresh_quiet one_rng 16 (fun _ => sst_new one_rng [] [] [])) as (Q1 & Q2 & Q3); [intros i; repeat split; reflexivity|].
  split; [intros i; reflexivity|]. split; [reflexivity|]. auto.
Qed.
