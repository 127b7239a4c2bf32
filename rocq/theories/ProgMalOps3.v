(** Multiplications, inner products and openings of malicious ABY3 run by two honest parties: what holds afterwards. *)
From Verif Require Import Base Ring RingProofs Prog Sched Conc Rng Rel Net BitArith BinProofs AddProofs IrisProofs MpcSpec Aby3 ShareSpec Aby3Proofs Aby3Proofs2 SlicedProofs Jmp JmpProofs Session SessionProofs
  Aby3Mal Aby3MalProofs SacrificeProofs PropLemmas PropLemmas2 PropLemmas5 SpecProofs Duo DuoProofs MacSpec MacProofs Client ProgMalSpec ProgMalDuo ProgMalOps ProgMalOps2.
From Coq Require Import ZifyBool ZifyNat.

Definition peqM {S A} (p q : M S A) : Prop := forall s, peq (p s) (q s).
Lemma peqM_refl {S A} (p : M S A) : peqM p p. Proof. intros s. apply peq_refl. Qed.
Lemma peqM_trans {S A} (p q r : M S A) : peqM p q -> peqM q r -> peqM p r.
Proof. intros E F s. eapply peq_trans; [apply E|apply F]. Qed.
Lemma peqM_bind {S A B} (p p' : M S A) (f f' : A -> M S B) : peqM p p' -> (forall a, peqM (f a) (f' a)) -> peqM (bindM p f) (bindM p' f').
Proof. intros E F s. unfold bindM. apply peq_bind; [apply E|]. intros [s' a]. apply F. Qed.
Lemma peqM_bind_r {S A B} (p : M S A) (f f' : A -> M S B) : (forall a, peqM (f a) (f' a)) -> peqM (bindM p f) (bindM p f').
Proof. apply peqM_bind, peqM_refl. Qed.
Lemma peqM_assoc {S A B C} (p : M S A) (f : A -> M S B) (g : B -> M S C) : peqM (bindM (bindM p f) g) (bindM p (fun a => bindM (f a) g)).
Proof. intros s. unfold bindM. eapply peq_trans; [apply peq_assoc|]. apply peq_bind; [apply peq_refl|]. intros [s' a]. apply peq_refl. Qed.
Lemma peqM_sym {S A} (p q : M S A) : peqM p q -> peqM q p. Proof. intros E s. apply peq_sym, E. Qed.

Section D.
  Variables (G : rng) (H : hasher) (i : pid).
  Notation j := (next i).
  Notation ST := (jst G).
  Notation coll := (hash_collision G H).
  Notation synced := (synced2 G).
  Notation clean := (clean G).
  Notation quiet := (quiet G).

  (** The sacrifice of call c misses a wrong product. *)
  Definition lucky_here (K : Z) (c : cmd) (mi mj : mem share share) (s t : ST) (ti tj : list act) : Prop :=
    exists ti1 ti2 tj1 tj2 s2 x t2 y n, ti = ti1 ++ ti2 /\ tj = tj1 ++ tj2 /\
      lrun (sacrifice_of G i K c mi s) ti1 (Ret (s2, x)) /\ lrun (sacrifice_of G j K c mj t) tj1 (Ret (t2, y)) /\
      lucky K (challenge G (verif_width K) (duo_seed G s2 t2)) x y n.

  Lemma duoT_step {A B} (p q : M ST A) (f g : A -> M ST B) s t (Q : ST -> A -> ST -> A -> Prop) (R : list act -> ST * B -> list act -> ST * B -> Prop) :
    duoM i p q s t Q ->
    (forall t1 s' a u1 t' b, lrun (p s) t1 (Ret (s', a)) -> lrun (q t) u1 (Ret (t', b)) -> Q s' a t' b -> duoT i (f a s') (g b t') (fun t2 c u2 d => R (t1 ++ t2) c (u1 ++ u2) d)) ->
    duoT i (bindM p f s) (bindM q g t) R.
  Proof.
    intros D F. unfold bindM. apply duoT_bind. eapply duoT_mono; [|apply duoT_duo, D]. intros t1 [s' a] u1 [t' b] (L1 & L2 & HQ). cbn [fst snd] in *. apply F; assumption.
  Qed.
  Lemma duoT_of {A} (p q : M ST A) s t (Q : ST -> A -> ST -> A -> Prop) (R : list act -> ST * A -> list act -> ST * A -> Prop) :
    duoM i p q s t Q -> (forall ti s' a tj t' b, Q s' a t' b -> R ti (s', a) tj (t', b)) -> duoT i (p s) (q t) R.
  Proof. intros D F. eapply duoT_mono; [|apply duoT_duo, D]. intros ti [s' a] tj [t' b] (_ & _ & HQ). apply F, HQ. Qed.
  Lemma duoT_ofM {A} (p q : M ST A) s t (R : ST -> A -> ST -> A -> Prop) :
    duoM i p q s t R -> duoT i (p s) (q t) (fun _ r _ r' => R (fst r) (snd r) (fst r') (snd r')).
  Proof. intros D. eapply duoT_of; [exact D|]. auto. Qed.

  (** *** Multiplication *)
  Definition mul_rest (p : pid) (K : Z) (a b : share) (x : sac) : M ST share :=
    match x with
    | Sac [[u]] [[u']] [[w]] cs =>
        bindM (mul_triple_check G H p K u u' w cs) (fun t => let '(x, y, z) := t in
          bindM (reconstruct_many G p K [sh_sub K a x; sh_sub K b y]) (fun uv =>
          bindM (resM (index uv 0)) (fun u => bindM (resM (index uv 1)) (fun v =>
          retM (sh_sub_const p K (sh_add K (sh_add K z (sh_mulc K b u)) (sh_mulc K a v)) (rmul K u v))))))
    | _ => failM EOther
    end.
  Lemma mul_split p K a b mn mn' m : (40 <=? verif_width K - K) = true -> peqM (mal_mul G H p K a b) (bindM (sacrifice_of G p K (CMul mn mn') m) (mul_rest p K a b)).
  Proof.
    intros HU. unfold mal_mul, get_mul_triple. rewrite HU. cbn [negb sacrifice_of].
    do 3 (eapply peqM_trans; [apply peqM_assoc|]; eapply peqM_trans; [|apply peqM_sym, peqM_assoc]; apply peqM_bind_r; intros ?).
    eapply peqM_trans; [apply peqM_assoc|]. eapply peqM_trans; [|apply peqM_sym, peqM_assoc]. apply peqM_bind_r. intros cs. apply peqM_refl.
  Qed.
  Lemma sac_mul_duo K mn mn' mi mj (s t : ST) : In K widths -> synced s t -> let U := verif_width K in
    duoM i (sacrifice_of G i K (CMul mn mn') mi) (sacrifice_of G j K (CMul mn mn') mj) s t (fun s' x t' y =>
      synced s' t' /\ quiet s s' /\ quiet t t' /\
      exists u v u' v' w z c0 d0 c1 d1, x = Sac [[u]] [[u']] [[w]] [c0; c1] /\ y = Sac [[v]] [[v']] [[z]] [d0; d1] /\
        paired U u v /\ paired U u' v' /\ paired U w z /\ paired U c0 d0 /\ paired U c1 d1).
  Proof.
    intros HK Hs U. pose proof (verif_in K HK) as HU. fold U in HU. assert (HU0 : 0 <= U) by (apply in_widths_pos in HU; lia). cbn [sacrifice_of]. fold U.
    dbind. apply gen_rand_duo; [exact HU0|exact Hs|]. intros s1 u t1 v Hs1 Q1 Q1' P1.
    dbind. apply gen_rand_duo; [exact HU0|exact Hs1|]. intros s2 u' t2 v' Hs2 Q2 Q2' P2.
    dbind. apply gen_rand_duo; [exact HU0|exact Hs2|]. intros s3 w t3 z Hs3 Q3 Q3' P3.
    dbind. apply aby_mul_many_duo; [exact HU|exact Hs3|reflexivity..|]. intros s4 cs t4 ds Hs4 Q4 Q4' P4 L4 _.
    inversion P4 as [|c0 d0 cs' ds' P5 P4' E E']; subst; [discriminate|]. inversion P4' as [|c1 d1 cs2 ds2 P6 P4'' E E']; subst; [discriminate|]. inversion P4''; subst; [|discriminate].
    apply duoM_ret. split; [exact Hs4|]. split; [repeat (eapply quiet_trans; [eassumption|]); apply quiet_refl|]. split; [repeat (eapply quiet_trans; [eassumption|]); apply quiet_refl|].
    exists u, v, u', v', w, z, c0, d0, c1, d1. auto 10.
  Qed.

  Lemma ranged_add U x y : 0 <= U -> ranged U (sh_add U x y).
  Proof. intros. split; apply inr_mod; assumption. Qed.
  Lemma ranged_sub U x y : 0 <= U -> ranged U (sh_sub U x y).
  Proof. intros. split; apply inr_mod; assumption. Qed.
  Lemma ranged_mulc U x y : 0 <= U -> ranged U (sh_mulc U x y).
  Proof. intros. split; apply inr_mod; assumption. Qed.
  Lemma ranged_addc p U x c : 0 <= U -> ranged U x -> ranged U (sh_add_const p U x c).
  Proof. intros HU [A B]. destruct p; split; cbn; try assumption; apply inr_mod; assumption. Qed.
  Lemma ranged_subc p U x c : 0 <= U -> ranged U x -> ranged U (sh_sub_const p U x c).
  Proof. intros HU [A B]. destruct p; split; cbn; try assumption; apply inr_mod; assumption. Qed.

  Lemma mul_T K mn mn' mi mj ai aj bi bj (s t : ST) : In K widths -> synced s t ->
    (clean s t -> paired K ai aj) -> (clean s t -> paired K bi bj) ->
    duoT i (mal_mul G H i K ai bi s) (mal_mul G H j K aj bj t) (fun ti r tj r' =>
      synced (fst r) (fst r') /\ ranged K (snd r) /\ ranged K (snd r') /\
      (coll (fst r) (fst r') \/ lucky_here K (CMul mn mn') mi mj s t ti tj \/
       (clean s t /\ (clean (fst r) (fst r') -> paired K (snd r) (snd r') /\ joint K (snd r) (snd r') = (joint K ai aj * joint K bi bj) mod 2 ^ K)))).
  Proof.
    intros HK Hs PA PB. pose proof (in_widths_pos K HK) as K0. assert (HK0 : 0 <= K) by lia.
    destruct (40 <=? verif_width K - K) eqn:HV.
    2:{ unfold mal_mul, get_mul_triple. rewrite HV. apply duoT_fail_l. }
    eapply duoT_peq; [apply (mul_split i K ai bi mn mn' mi HV)|apply (mul_split j K aj bj mn mn' mj HV)|].
    eapply duoT_step; [apply sac_mul_duo; assumption|]. cbv zeta. set (U := verif_width K) in *.
    intros ti1 s1 x tj1 t1 y L1 L2 (Hs1 & Q1 & Q1' & u & v & u' & v' & w & z & c0 & d0 & c1 & d1 & -> & -> & P1 & P2 & P3 & P4 & P5).
    unfold mul_rest.
    pose proof (mul_check_gen G H i K (fam i u v) _ (fam i u' v') _ (fam i w z) _ (fam i c0 d0) _ (fam i c1 d1) _ s1 t1 HK Hs1
      (paired_fam i _ _ _ P1) (paired_fam i _ _ _ P2) (paired_fam i _ _ _ P3) (paired_fam i _ _ _ P4) (paired_fam i _ _ _ P5)) as D. rewrite !fam_i, !fam_j in D. cbv zeta in D. fold U in D.
    eapply duoT_step; [exact D|]. clear D.
    intros t2 s2 tr u2 t2' tr' _ _ (Hs2 & C2 & -> & -> & OUT). cbn iota.
    assert (FIN : duoM i
      (bindM (reconstruct_many G i K [sh_sub K ai (sh_trunc K u); sh_sub K bi (sh_trunc K w)]) (fun uv =>
          bindM (resM (index uv 0)) (fun u => bindM (resM (index uv 1)) (fun v => retM (sh_sub_const i K (sh_add K (sh_add K (sh_trunc K c0) (sh_mulc K bi u)) (sh_mulc K ai v)) (rmul K u v))))))
      (bindM (reconstruct_many G j K [sh_sub K aj (sh_trunc K v); sh_sub K bj (sh_trunc K z)]) (fun uv =>
          bindM (resM (index uv 0)) (fun u => bindM (resM (index uv 1)) (fun v => retM (sh_sub_const j K (sh_add K (sh_add K (sh_trunc K d0) (sh_mulc K bj u)) (sh_mulc K aj v)) (rmul K u v))))))
      s2 t2' (fun s3 x t3 y => synced s3 t3 /\ ranged K x /\ ranged K y /\ (coll s2 t2' -> coll s3 t3) /\
        ((joint U c0 d0 - joint U u v * joint U w z) mod 2 ^ K = 0 -> clean s t -> clean s3 t3 -> paired K x y /\ joint K x y = (joint K ai aj * joint K bi bj) mod 2 ^ K))).
    { dbind. apply reconstruct_many_duo; [exact HK|repeat constructor; apply inr_mod; exact HK0..|reflexivity|].
      intros c s3 t3 E1 E2 E3 E4 Lc HC.
      destruct c as [|ca [|cb [|]]]; try discriminate. cbn [map2].
      dbind. apply duoM_res. cbn. intros ? ? E E'. injection E as <-. injection E' as <-.
      dbind. apply duoM_res. cbn. intros ? ? E E'. injection E as <-. injection E' as <-.
      apply duoM_ret. split; [unfold synced2; rewrite E1, E2; exact Hs2|]. split; [apply ranged_subc, ranged_add; exact HK0|]. split; [apply ranged_subc, ranged_add; exact HK0|].
      split. { intros C. eapply coll_grows; [exact C|rewrite E3; symmetry; apply app_nil_r|rewrite E4; symmetry; apply app_nil_r]. }
      intros OK Hc Hc3. destruct (HC Hc3) as [_ EC]. cbn [map] in EC. injection EC as -> ->. specialize (PA Hc). specialize (PB Hc).
      assert (KU : 0 <= K <= U) by (unfold U; split; [exact HK0|apply (PropLemmas5.verif_ge K HK)]).
      pose proof (sh_trunc_ok K U _ _ KU (paired_fam i _ _ _ P1)) as HX. pose proof (sh_trunc_ok K U _ _ KU (paired_fam i _ _ _ P3)) as HY. pose proof (sh_trunc_ok K U _ _ KU (paired_fam i _ _ _ P4)) as HZ.
      pose proof (paired_fam i _ _ _ PA) as HA. pose proof (paired_fam i _ _ _ PB) as HB.
      set (a := joint U u v) in *. set (b := joint U w z) in *. set (cc := joint U c0 d0) in *. set (xx := joint K ai aj) in *. set (yy := joint K bi bj) in *.
      pose proof (open_of_RL i K _ _ (RL_cons' _ _ _ _ _ (sh_sub_ok K HK0 _ _ _ _ HA HX) (RL_cons' _ _ _ _ _ (sh_sub_ok K HK0 _ _ _ _ HB HY) (RL_nil' _)))) as [OI OJ].
      cbv beta in OI, OJ. rewrite !fam_i, !fam_j in OI, OJ. unfold opened_i, opened_j in OI, OJ. cbn [map map2] in OI, OJ. injection OI as OI1 OI2. injection OJ as OJ1 OJ2.
      rewrite OI1, OI2, OJ1, OJ2. clear OI1 OI2 OJ1 OJ2.
      set (p := (xx - a mod 2 ^ K) mod 2 ^ K). set (q := (yy - b mod 2 ^ K) mod 2 ^ K).
      assert (HW : arith_shared K (fun k => sh_sub_const k K (sh_add K (sh_add K (sh_trunc K (fam i c0 d0 k)) (sh_mulc K (fam i bi bj k) p)) (sh_mulc K (fam i ai aj k) q)) (rmul K p q))
        ((((cc mod 2 ^ K + (yy * p) mod 2 ^ K) mod 2 ^ K + (xx * q) mod 2 ^ K) mod 2 ^ K - rmul K p q) mod 2 ^ K)).
      { apply (sh_sub_const_ok K HK0), (sh_add_ok K HK0); [apply (sh_add_ok K HK0); [exact HZ|]|]; apply (sh_mulc_ok K HK0); assumption. }
      apply (fam_paired i) in HW. cbv beta in HW. rewrite !fam_i, !fam_j in HW. destruct HW as [W1 W2]. split; [exact W1|]. rewrite W2.
      assert (EC : cc mod 2 ^ K = (a * b) mod 2 ^ K).
      { clear -OK HK0. replace cc with ((cc - a * b) + a * b) by ring. rewrite Zplus_mod, OK, Z.add_0_l. apply Zmod_mod. }
      rewrite EC. unfold p, q, rmul, norm. clear. modring. }
    eapply duoT_of; [exact FIN|]. clear FIN. intros t3 s3 x u3 t3' y (Hs3 & R1 & R2 & CO & OK). cbn [fst snd].
    split; [exact Hs3|]. split; [exact R1|]. split; [exact R2|].
    destruct OUT as [C|[Hc EQ]]; [left; apply CO, C|].
    apply (quiet_clean _ _ _ _ _ Q1 Q1') in Hc.
    destruct (Z.eq_dec ((joint U c0 d0 - joint U u v * joint U w z) mod 2 ^ K) 0) as [E0|E0]; [right; right; split; [exact Hc|auto]|].
    right. left. exists ti1, (t2 ++ t3), tj1, (u2 ++ u3), s1, (Sac [[u]] [[u']] [[w]] [c0; c1]), t1, (Sac [[v]] [[v']] [[z]] [d0; d1]), 0%nat.
    split; [reflexivity|]. split; [reflexivity|]. split; [exact L1|]. split; [exact L2|].
    assert (D1 : forall p q, dotp [p] [q] = p * q) by (intros; unfold dotp; cbn; ring).
    unfold lucky, error0, error1, row_error. cbn [sac_a sac_a' sac_b sac_c nth length map2 Nat.add]. fold U. rewrite !D1. split; [lia|]. split; [exact E0|exact EQ].
  Qed.
End D.
