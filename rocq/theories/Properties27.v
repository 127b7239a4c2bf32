(** Property C61: every party shares one input (input_all of the maliciously secure engines). *)
From Verif Require Import Base Ring RingProofs Prog Sched Conc Rng Rel Net BinTrait BitArith BinProofs AddProofs IrisSpec MpcSpec Aby3 ShareSpec Aby3Proofs Jmp JmpProofs Session SessionProofs Aby3Mal Aby3MalProofs Aby3MalProofs2
  SacrificeProofs PropLemmas PropLemmas2 SpecProofs Duo DuoProofs PropLemmas5 MacSpec MacProofs Client ClientProofs Emits TripleMalMet Properties4 Properties22
  ProgMalSpec ProgMalDuo ProgMalOps ProgMalOps2 ProgMalOps3 ProgMalOps4 ProgMalExec ProgMalMet ProgMalSpec2 ProgMalInput ProgMalExec2
  Spdz TripleSpec SpdzProofs2 SpdzProofs4 SpdzProofs5 Swift3 Swift3Spec Swift3Proofs Swift3Open InputAll.
From Coq Require Import ZifyBool ZifyNat.

(** *** Honest runs: the three inputs are shared, and opening them gives them back. *)
Lemma inputs_RL {S A} (F : pid -> option Z -> Z -> M S A) (inv : (pid -> S) -> Prop) (R : (pid -> A) -> Z -> Prop) (x : pid -> Z) :
  (forall s p v, inv s -> v p = Some (x p) -> wpM (fun i => F i (v i) (pid_num p)) s (fun s' W => inv s' /\ R W (x p))) ->
  forall s, inv s -> wpM (fun i => mapM (fun id => F i (if id =? pid_num i then Some (x i) else None) id) [0; 1; 2]) s
    (fun s' X => inv s' /\ RL R X [x P0; x P1; x P2]).
Proof.
  intros HF s Hs. cbn [mapM].
  assert (ST : forall p s, inv s -> wpM (fun i => F i (if pid_num p =? pid_num i then Some (x i) else None) (pid_num p)) s (fun s' W => inv s' /\ R W (x p))).
  { intros p s1 Hs1. apply (HF s1 p (fun i => if pid_num p =? pid_num i then Some (x i) else None) Hs1). rewrite Z.eqb_refl. reflexivity. }
  wbind. eapply wpM_mono; [|apply (ST P0 s Hs)]. cbn beta. intros s1 X0 [H1 R0].
  wbind. wbind. eapply wpM_mono; [|apply (ST P1 s1 H1)]. cbn beta. intros s2 X1 [H2 R1].
  wbind. wbind. eapply wpM_mono; [|apply (ST P2 s2 H2)]. cbn beta. intros s3 X2 [H3 R2].
  wbind. apply wpM_ret. apply wpM_ret. apply wpM_ret. apply wpM_ret. split; [exact H3|].
  refine (RL_cons _ _ X0 (fun i => [X1 i; X2 i]) (x P0) [x P1; x P2] (fun i => eq_refl) R0 _).
  refine (RL_cons _ _ X1 (fun i => [X2 i]) (x P1) [x P2] (fun i => eq_refl) R1 _). apply RL_cons'; [exact R2|apply RL_nil'].
Qed.

Theorem C61_aby3_mal : forall G H K (x : pid -> Z) (s : pid -> jst G), In K widths -> (forall i, inr K (x i)) -> mal_ready s ->
  honest_run (fun i => mal_input_all G i K (x i)) s (fun s' X => mal_ready s' /\ vec_shared (arith_shared K) X [x P0; x P1; x P2]) /\
  honest_run (fun i => bindM (mal_input_all G i K (x i)) (mal_open_many G H i K)) s (fun s' r => mal_ready s' /\ forall i, r i = [x P0; x P1; x P2]).
Proof.
  intros G H K x s HK Hx Hs.
  assert (HI : wpM (fun i => mal_input_all G i K (x i)) s (fun s' X => mal_ready s' /\ RL (arith_shared K) X [x P0; x P1; x P2])).
  { apply (inputs_RL (fun i => mal_input G i K) mal_ready); [|exact Hs]. intros s1 p v H1 Hv. apply (mal_input_ok G K v p (x p) s1 HK (Hx p) Hv H1). }
  split; apply wpM_honest.
  - eapply wpM_mono; [|exact HI]. intros s1 X [H1 HX]. split; [exact H1|apply RL_vec, HX].
  - wbind. eapply wpM_mono; [|exact HI]. intros s1 X [H1 HX]. exact (mal_open_many_ok G H K X _ s1 HK H1 HX).
Qed.
Print Assumptions C61_aby3_mal.

(** On a new engine (two generators are exchanged, then a sharing of the MAC key r is set). *)
Theorem C61_spdz : forall G H K r (f : pid -> prf G) seeds key (x : pid -> Z), In K widths -> (forall i, inr K (x i)) ->
  (forall i, length (seeds i) = 32%nat) -> arith_shared (verif_width K) (fun i => am (key i)) r ->
  let start i := bindM (spdz_preprocess G i (seeds i)) (fun _ => set_mac_key G (key i)) in
  honest_run (fun i => bindM (start i) (fun _ => spdz_input_all G i K (x i))) (fun i => spdz_new G (f i))
    (fun _ X => vec_shared (spdz_shared K r) X [x P0; x P1; x P2]) /\
  honest_run (fun i => bindM (start i) (fun _ => bindM (spdz_input_all G i K (x i)) (spdz_open_many G H i K))) (fun i => spdz_new G (f i))
    (fun _ o => forall i, o i = [x P0; x P1; x P2]).
Proof.
  intros G H K r f seeds key x HK Hx HL Hk start.
  assert (HI : forall s, spdz_inv G (verif_width K) r (0%nat, 0) s -> wpM (fun i => spdz_input_all G i K (x i)) s
     (fun s' X => spdz_inv G (verif_width K) r (0%nat, 0) s' /\ RL (spdz_shared K r) X [x P0; x P1; x P2])).
  { intros s Hs. apply (inputs_RL (fun i => spdz_input G i K) (spdz_inv G (verif_width K) r (0%nat, 0))); [|exact Hs]. intros s1 p v H1 Hv.
    apply (spdz_input_ok G K r HK v p (x p) _ s1 (Hx p) Hv H1). }
  split; apply wpM_honest; wbind; (eapply wpM_mono; [|apply (start_ok G K r f seeds key HL Hk)]); cbn beta; intros s1 _ Hs1.
  - eapply wpM_mono; [|apply HI, Hs1]. intros s2 X [_ HX]. apply RL_vec, HX.
  - wbind. eapply wpM_mono; [|apply HI, Hs1]. cbn beta. intros s2 X [Hs2 HX].
    eapply wpM_mono; [|apply (spdz_open_many_ok G H K r HK X _ _ s2 Hs2 HX)]. intros s3 v [_ E]. exact E.
Qed.
Print Assumptions C61_spdz.

Theorem C61_swift3 : forall G H K (x : pid -> Z) (s : pid -> Swift3.sst G), In K widths -> (forall i, inr K (x i)) -> winv G K s ->
  honest_run (fun i => w_input_all G i K (x i)) s (fun s' X => winv G K s' /\ vec_shared (arith3 K) X [x P0; x P1; x P2]) /\
  honest_run (fun i => bindM (w_input_all G i K (x i)) (w_open_many G H i K)) s (fun s' r => winv G K s' /\ forall i, r i = [x P0; x P1; x P2]).
Proof.
  intros G H K x s HK Hx Hs.
  assert (HI : wpM (fun i => w_input_all G i K (x i)) s (fun s' X => winv G K s' /\ RL (arith3 K) X [x P0; x P1; x P2])).
  { apply (inputs_RL (fun i => w_input G i K) (winv G K)); [|exact Hs]. intros s1 p v H1 Hv. apply (w_input_ok G K s1 p (x p) v HK H1 (Hx p) Hv). }
  split; apply wpM_honest.
  - eapply wpM_mono; [|exact HI]. intros s1 X [H1 HX]. split; [exact H1|apply RL_vec, HX].
  - wbind. eapply wpM_mono; [|exact HI]. intros s1 X [H1 HX]. exact (w_open_many_ok G H K K X _ s1 HK H1 HX).
Qed.
Print Assumptions C61_swift3.

(** *** Against a malicious party. *)
(** The three inputs, that of party k replaced by z. *)
Definition inputs_with (k : pid) (z : Z) (x : pid -> Z) : list Z := map (fun p => if pid_eqb p k then z else x p) [P0; P1; P2].

Section D.
  Variables (G : rng) (H : hasher).
  Notation ST := (jst G).
  Notation coll := (hash_collision G H).
  Lemma input_all_duo i K (x : pid -> Z) (s t : ST) : In K widths -> inr K (x i) -> inr K (x (next i)) -> synced2 G s t ->
    duoM i (mal_input_all G i K (x i)) (mal_input_all G (next i) K (x (next i))) s t
      (fun s' X t' Y => synced2 G s' t' /\ (clean G s' t' -> clean G s t) /\ length X = 3%nat /\ length Y = 3%nat /\ Forall2 (paired K) X Y /\
        (clean G s' t' -> map2 (joint K) X Y = inputs_with (prev i) (joint K (nth (Z.to_nat (pid_num (prev i))) X szero) (nth (Z.to_nat (pid_num (prev i))) Y szero)) x)).
  Proof.
    intros HK Hi Hj Hs. unfold mal_input_all.
    destruct i; cbn [next prev pid_num Z.eqb Pos.eqb mapM] in *.
    - dbind. apply (input_i G P0 K (x P0) None s t _ HK Hs Hi). intros s1 a t1 b Hs1 C1 PA J1.
      dbind. dbind. apply (input_j G P0 K (x P1) None s1 t1 _ HK Hs1 Hj). intros s2 a' t2 b' Hs2 C2 PA' J2.
      dbind. dbind. apply (input_k G P0 K None None s2 t2 _ HK Hs2). intros s3 a'' t3 b'' Hs3 C3 PA''.
      dbind. apply duoM_ret. apply duoM_ret. apply duoM_ret. apply duoM_ret. split; [exact Hs3|]. split; [auto|]. split; [reflexivity|]. split; [reflexivity|].
      split; [repeat constructor; (apply PA || apply PA' || apply PA'')|]. intros CC. cbn. rewrite J1, J2 by auto. reflexivity.
    - dbind. apply (input_k G P1 K None None s t _ HK Hs). intros s1 a t1 b Hs1 C1 PA.
      dbind. dbind. apply (input_i G P1 K (x P1) None s1 t1 _ HK Hs1 Hi). intros s2 a' t2 b' Hs2 C2 PA' J2.
      dbind. dbind. apply (input_j G P1 K (x P2) None s2 t2 _ HK Hs2 Hj). intros s3 a'' t3 b'' Hs3 C3 PA'' J3.
      dbind. apply duoM_ret. apply duoM_ret. apply duoM_ret. apply duoM_ret. split; [exact Hs3|]. split; [auto|]. split; [reflexivity|]. split; [reflexivity|].
      split; [repeat constructor; (apply PA || apply PA' || apply PA'')|]. intros CC. cbn. rewrite J2, J3 by auto. reflexivity.
    - dbind. apply (input_j G P2 K (x P0) None s t _ HK Hs Hj). intros s1 a t1 b Hs1 C1 PA J1.
      dbind. dbind. apply (input_k G P2 K None None s1 t1 _ HK Hs1). intros s2 a' t2 b' Hs2 C2 PA'.
      dbind. dbind. apply (input_i G P2 K (x P2) None s2 t2 _ HK Hs2 Hi). intros s3 a'' t3 b'' Hs3 C3 PA'' J3.
      dbind. apply duoM_ret. apply duoM_ret. apply duoM_ret. apply duoM_ret. split; [exact Hs3|]. split; [auto|]. split; [reflexivity|]. split; [reflexivity|].
      split; [repeat constructor; (apply PA || apply PA' || apply PA'')|]. intros CC. cbn. rewrite J1, J3 by auto. reflexivity.
  Qed.
  (** share, then open; the shares are returned too *)
  Definition share_and_open (p : pid) (K x : Z) : M ST (list share * list Z) :=
    bindM (mal_input_all G p K x) (fun X => bindM (mal_open_many G H p K X) (fun r => retM (X, r))).
End D.

(** i and i+1 are honest.  If both finish, both have opened their own inputs at their places and, at the third party's
    place, the value z that their shares already stand for when all inputs are shared - or the hash collides. *)
Theorem C61_malicious : forall G H i K (x : pid -> Z) (s t s' t' : jst G) X r Y r', In K widths -> inr K (x i) -> inr K (x (next i)) ->
  next_prf G (j_prf G t) = my_prf G (j_prf G s) ->
  duo_run i (share_and_open G H i K (x i)) (share_and_open G H (next i) K (x (next i))) s t s' t' (X, r) (Y, r') ->
  hash_collision G H s' t' \/
  exists z, inr K z /\ z = joint K (nth (Z.to_nat (pid_num (prev i))) X szero) (nth (Z.to_nat (pid_num (prev i))) Y szero) /\
    r = inputs_with (prev i) z x /\ r' = inputs_with (prev i) z x.
Proof.
  intros G H i K x s t s' t' X r Y r' HK Hi Hj Hs HR. assert (HK0 : 0 <= K) by (apply in_widths_pos in HK; lia).
  refine (duo_run_sound i _ _ s t s' t' (X, r) (Y, r') (fun s' a t' b => hash_collision G H s' t' \/
    exists z, inr K z /\ z = joint K (nth (Z.to_nat (pid_num (prev i))) (fst a) szero) (nth (Z.to_nat (pid_num (prev i))) (fst b) szero) /\
      snd a = inputs_with (prev i) z x /\ snd b = inputs_with (prev i) z x) _ HR). clear HR.
  unfold share_and_open. dbind. eapply duoM_mono; [|apply (input_all_duo G i K x s t HK Hi Hj Hs)]. cbn beta.
  intros s1 A t1 B (Hs1 & _ & LA & LB & P & E).
  assert (RA : Forall (ranged K) A /\ Forall (ranged K) B) by (clear -P; induction P as [|a b A B (P1 & P2 & _) P [I1 I2]]; split; constructor; assumption).
  dbind. eapply duoM_mono; [|apply (open_many_T G H i K A B s1 t1 HK Hs1 (proj1 RA) (proj2 RA) ltac:(congruence) (fun _ => P))].
  cbn beta. intros s2 u t2 v (_ & D). apply duoM_ret. cbn [fst snd]. destruct D as [D|(HC & -> & ->)]; [left; exact D|right].
  eexists. split; [|split; [reflexivity|]]; [apply Z.mod_pos_bound, Z.pow_pos_nonneg; lia|]. rewrite (E HC). auto.
Qed.
Print Assumptions C61_malicious.
(** The runs exist: if the third party is honest too, everybody finishes. *)
Theorem C61_met : forall G H i K (x : pid -> Z) (s : pid -> jst G), In K widths -> (forall p, inr K (x p)) -> (forall x, bytes (hfun H x)) -> mal_ready s ->
  next_prf G (j_prf G (s (next i))) = my_prf G (j_prf G (s i)) /\
  exists s' t' X r Y r', duo_run i (share_and_open G H i K (x i)) (share_and_open G H (next i) K (x (next i))) (s i) (s (next i)) s' t' (X, r) (Y, r').
Proof.
  intros G H i K x s HK Hx HH Hs. split; [destruct Hs as [Hs _]; rewrite Hs; destruct i; reflexivity|].
  assert (HW : wpM (fun q => share_and_open G H q K (x q)) s (fun _ _ => True)).
  { unfold share_and_open. wbind. eapply wpM_mono.
    2:{ apply (inputs_RL (fun i => mal_input G i K) mal_ready (arith_shared K) x); [|exact Hs]. intros s1 p v H1 Hv. apply (mal_input_ok G K v p (x p) s1 HK (Hx p) Hv H1). }
    cbn beta. intros s1 X [H1 HX]. wbind. eapply wpM_mono; [|apply (mal_open_many_ok G H K X _ s1 HK H1 HX)]. intros s2 r _. apply wpM_ret. exact I. }
  destruct HW as (R & HE & _).
  assert (EM : emitsM (share_and_open G H (prev i) K (x (prev i)))).
  { unfold share_and_open. apply emitsM_bind; [|intros X; apply emitsM_bind; [apply open_many_emits, HH|intros; apply emitsM_ret]].
    unfold mal_input_all. cbn [mapM]. apply emitsM_bind; [apply input_emits|intros].
    do 2 (apply emitsM_bind; [|intros; apply emitsM_ret]; apply emitsM_bind; [apply input_emits|intros]). apply emitsM_bind; [apply emitsM_ret|intros; apply emitsM_ret]. }
  pose proof (honest_duo i (fun q => share_and_open G H q K (x q)) s R HE EM) as HD.
  destruct (R i) as [s' [X r]], (R (next i)) as [t' [Y r']]. exists s', t', X, r, Y, r'. exact HD.
Qed.
Print Assumptions C61_met.
Example C61_example : inputs_with P2 7 (fun p => match p with P0 => 3 | P1 => 15 | P2 => 4 end) = [3; 15; 7] /\
  inr 16 7 /\ joint 16 (Share 2 1) (Share 4 2) = 7.
Proof. vm_compute. repeat split; congruence. Qed.
