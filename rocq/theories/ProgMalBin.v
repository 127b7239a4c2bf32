(** Boolean gates of the malicious ABY3 engine run by two honest parties against an arbitrary third one: the judgement. *)
From Verif Require Import Base Ring RingProofs Prog Sched Conc Rng Rel Net BitArith BinProofs AddProofs IrisProofs MpcSpec Aby3 ShareSpec Aby3Proofs Aby3Proofs2 SlicedProofs Jmp JmpProofs Session SessionProofs
  Aby3Mal Aby3MalProofs Aby3MalProofs2 SacrificeProofs PropLemmas PropLemmas2 SpecProofs Duo DuoProofs MacSpec MacProofs Client ProgMalSpec ProgMalDuo ProgMalOps ProgMalOps2 ProgMalOps3 ProgMalOps4 ProgMalBinSpec.
From Coq Require Import ZifyBool ZifyNat.

Lemma lrun_bind_part {A B} (p : prog A) (f : A -> prog B) t q : lrun p t q -> lrun (bind p f) t (bind q f).
Proof. induction 1; cbn; constructor; auto. Qed.

Lemma Forall_firstn' {A} (P : A -> Prop) n l : Forall P l -> Forall P (firstn n l).
Proof. intros F. rewrite <- (firstn_skipn n l) in F. apply Forall_app in F. apply F. Qed.
Lemma Forall_skipn' {A} (P : A -> Prop) n l : Forall P l -> Forall P (skipn n l).
Proof. intros F. rewrite <- (firstn_skipn n l) in F. apply Forall_app in F. apply F. Qed.

Section D.
  Variables (G : rng) (H : hasher) (i : pid).
  Notation j := (next i).
  Notation ST := (jst G).
  Notation coll := (hash_collision G H).
  Notation synced := (synced2 G).
  Notation clean := (clean G).
  Notation luck := (lucky_bits G H i).

  Lemma luck_first {A B C D} (p : prog A) (q : prog B) (f : A -> prog C) (g : B -> prog D) ti tj ti' tj' :
    luck p q ti tj -> luck (bind p f) (bind q g) (ti ++ ti') (tj ++ tj').
  Proof.
    intros (ti1 & ti2 & tj1 & tj2 & p' & q' & s & a1 & a1' & b1 & c1 & t & a2 & a2' & b2 & c2 & n & -> & -> & L1 & L2 & (k1 & K1) & (k2 & K2) & R).
    exists ti1, (ti2 ++ ti'), tj1, (tj2 ++ tj'), (bind p' f), (bind q' g), s, a1, a1', b1, c1, t, a2, a2', b2, c2, n.
    rewrite <- !app_assoc. split; [reflexivity|]. split; [reflexivity|]. split; [apply lrun_bind_part, L1|]. split; [apply lrun_bind_part, L2|].
    split; [eexists; eapply peq_trans; [apply peq_bind; [exact K1|intros; apply peq_refl]|apply peq_assoc]|].
    split; [eexists; eapply peq_trans; [apply peq_bind; [exact K2|intros; apply peq_refl]|apply peq_assoc]|]. exact R.
  Qed.
  Lemma luck_then {A B C D} (p : prog A) (q : prog B) (f : A -> prog C) (g : B -> prog D) ti a tj b ti' tj' :
    lrun p ti (Ret a) -> lrun q tj (Ret b) -> luck (f a) (g b) ti' tj' -> luck (bind p f) (bind q g) (ti ++ ti') (tj ++ tj').
  Proof.
    intros E1 E2 (ti1 & ti2 & tj1 & tj2 & p' & q' & s & a1 & a1' & b1 & c1 & t & a2 & a2' & b2 & c2 & n & -> & -> & L1 & L2 & R).
    exists (ti ++ ti1), ti2, (tj ++ tj1), tj2, p', q', s, a1, a1', b1, c1, t, a2, a2', b2, c2, n.
    rewrite <- !app_assoc. split; [reflexivity|]. split; [reflexivity|]. split; [eapply lrun_bind_intro; eassumption|]. split; [eapply lrun_bind_intro; eassumption|]. exact R.
  Qed.

  Definition grows (s s' : ST) : Prop := exists l, j_log G s' = j_log G s ++ l.
  Lemma grows_refl s : grows s s. Proof. exists []. symmetry. apply app_nil_r. Qed.
  Lemma grows_trans s1 s2 s3 : grows s1 s2 -> grows s2 s3 -> grows s1 s3.
  Proof. intros [l E] [l' E']. exists (l ++ l'). rewrite E', E, app_assoc. reflexivity. Qed.
  Lemma coll_gr s t s' t' : coll s t -> grows s s' -> grows t t' -> coll s' t'.
  Proof. intros C [l E] [l' E']. eapply coll_grows; eassumption. Qed.

  (** From states s and t to s' and t'; b and b': something has gone wrong so far. *)
  Definition stp (b : Prop) (s t : ST) (b' : Prop) (s' t' : ST) : Prop :=
    synced s' t' /\ grows s s' /\ grows t t' /\ (b -> b') /\ (clean s' t' -> b' \/ clean s t).
  Lemma stp_trans b s t b1 s1 t1 b2 s2 t2 : stp b s t b1 s1 t1 -> stp b1 s1 t1 b2 s2 t2 -> stp b s t b2 s2 t2.
  Proof.
    intros (_ & G1 & G2 & B1 & C1) (S2 & G3 & G4 & B2 & C2). split; [exact S2|]. split; [eapply grows_trans; eassumption|]. split; [eapply grows_trans; eassumption|].
    split; [auto|]. intros C. destruct (C2 C) as [?|C']; [auto|]. destruct (C1 C') as [?|?]; auto.
  Qed.
  Definition duoL {A} (b : Prop) (p q : M ST A) (s t : ST) (Q : Prop -> ST -> A -> ST -> A -> Prop) : Prop :=
    synced s t -> duoT i (p s) (q t) (fun ti r tj r' => forall b' : Prop, (b -> b') -> (coll (fst r) (fst r') -> b') -> (luck (p s) (q t) ti tj -> b') ->
      stp b s t b' (fst r) (fst r') /\ Q b' (fst r) (snd r) (fst r') (snd r')).

  Lemma duoL_bind {A B} b (p q : M ST A) (f g : A -> M ST B) s t Q :
    duoL b p q s t (fun b1 s1 x t1 y => stp b s t b1 s1 t1 -> duoL b1 (f x) (g y) s1 t1 Q) -> duoL b (bindM p f) (bindM q g) s t Q.
  Proof.
    intros D Hs. unfold bindM. apply duoT_bind. apply duoT_runs. eapply duoT_mono; [|apply D, Hs]. clear D.
    intros ti [s1 x] tj [t1 y] D L1 L2. cbn [fst snd] in *.
    set (b1 := b \/ coll s1 t1 \/ luck (p s) (q t) ti tj). destruct (D b1) as [S1 D1]; [unfold b1; tauto..|]. specialize (D1 S1). clear D.
    eapply duoT_mono; [|apply D1; apply S1]. clear D1. intros ti' [s2 z] tj' [t2 w] D b' HB HC HL. cbn [fst snd] in *.
    destruct (D True) as [(_ & G1 & G2 & _) _]; [tauto..|].
    assert (B1 : b1 -> b').
    { intros [Z0|[Z0|Z0]]; [exact (HB Z0)|apply HC; eapply coll_gr; eassumption|apply HL; apply luck_first, Z0]. }
    destruct (D b') as [S2 QQ]; [exact B1|exact HC|intros L; apply HL; eapply luck_then; eassumption|].
    split; [|exact QQ]. eapply stp_trans; eassumption.
  Qed.
  Lemma duoL_of {A} (b : Prop) (p q : M ST A) s t Q : 
    (synced s t -> duoM i p q s t (fun s' x t' y => forall b' : Prop, (b -> b') -> (coll s' t' -> b') -> stp b s t b' s' t' /\ Q b' s' x t' y)) -> duoL b p q s t Q.
  Proof.
    intros D Hs. eapply duoT_of; [apply D, Hs|]. intros ti s' x tj t' y R b' HB HC _. apply R; assumption.
  Qed.
  Lemma stp_refl (b : Prop) s t (b' : Prop) : synced s t -> (b -> b') -> stp b s t b' s t.
  Proof. intros Hs HB. split; [exact Hs|]. split; [apply grows_refl|]. split; [apply grows_refl|]. auto. Qed.
  Lemma duoL_ret {A} b (x y : A) s t (Q : Prop -> ST -> A -> ST -> A -> Prop) : (forall b', stp b s t b' s t -> Q b' s x t y) -> duoL b (retM x) (retM y) s t Q.
  Proof. intros HQ. apply duoL_of. intros Hs. apply duoM_ret. intros b' HB _. assert (S : stp b s t b' s t) by (apply stp_refl; assumption). auto. Qed.
  Lemma duoL_res {A B} b (r r' : res A) x y (f g : A -> M ST B) s t Q : r = Ok x -> r' = Ok y -> duoL b (f x) (g y) s t Q -> duoL b (bindM (resM r) f) (bindM (resM r') g) s t Q.
  Proof. intros -> -> D. exact D. Qed.
  Lemma duoL_mono {A} b (p q : M ST A) s t (Q Q' : Prop -> ST -> A -> ST -> A -> Prop) : (forall b' s' x t' y, stp b s t b' s' t' -> Q b' s' x t' y -> Q' b' s' x t' y) -> duoL b p q s t Q -> duoL b p q s t Q'.
  Proof.
    intros HQ D Hs. eapply duoT_mono; [|apply D, Hs]. intros ti r tj r' R b' B1 B2 B3. destruct (R b' B1 B2 B3) as [R1 R2]. auto.
  Qed.
  Lemma duoL_ext {A} b (p p' q q' : M ST A) s t Q : p s = p' s -> q t = q' t -> duoL b p' q' s t Q -> duoL b p q s t Q.
  Proof. intros E1 E2 D Hs. unfold duoL in D. rewrite <- E1, <- E2 in D. exact (D Hs). Qed.

  (** ** What two parties hold: shares of v unless something has gone wrong *)
  Definition good (K : Z) (x y : share) (v : Z) : Prop := exists X, brel K X v /\ X i = x /\ X j = y.
  Definition goods (K : Z) (xs ys : list share) (vs : list Z) : Prop := exists X, RL (brel K) X vs /\ X i = xs /\ X j = ys.
  Definition rep (b : Prop) (s t : ST) (K : Z) (x y : share) (v : Z) : Prop := ranged K x /\ ranged K y /\ (clean s t -> b \/ good K x y v).
  Definition reps (b : Prop) (s t : ST) (K : Z) (xs ys : list share) (vs : list Z) : Prop :=
    Forall (ranged K) xs /\ Forall (ranged K) ys /\ length xs = length vs /\ length ys = length vs /\ (clean s t -> b \/ goods K xs ys vs).
  Lemma rep_stp b s t b' s' t' K x y v : stp b s t b' s' t' -> rep b s t K x y v -> rep b' s' t' K x y v.
  Proof. intros (_ & _ & _ & B & C) (R1 & R2 & R). split; [exact R1|]. split; [exact R2|]. intros C'. destruct (C C') as [?|C0]; [auto|]. destruct (R C0); auto. Qed.
  Lemma reps_stp b s t b' s' t' K x y v : stp b s t b' s' t' -> reps b s t K x y v -> reps b' s' t' K x y v.
  Proof. intros (_ & _ & _ & B & C) (R1 & R2 & L1 & L2 & R). do 4 (split; [assumption|]). intros C'. destruct (C C') as [?|C0]; [auto|]. destruct (R C0); auto. Qed.

  (** Local operations. *)
  Lemma ranged_xor K x y : 0 <= K -> ranged K x -> ranged K y -> ranged K (sh_xor x y).
  Proof. intros HK [A1 A2] [B1 B2]. split; cbn; apply inr_lxor; assumption. Qed.
  Lemma ranged_shl K x n : 0 < K -> ranged K x -> ranged K (sh_shl K x n).
  Proof. intros HK [A1 A2]. split; cbn; apply inr_rshl; assumption. Qed.
  Lemma rep_xor b s t K x y v x' y' v' : In K widths -> rep b s t K x y v -> rep b s t K x' y' v' -> rep b s t K (sh_xor x x') (sh_xor y y') (Z.lxor v v').
  Proof.
    intros HK (R1 & R2 & R) (R1' & R2' & R'). assert (K0 : 0 <= K) by (apply in_widths_pos in HK; lia).
    split; [apply ranged_xor; assumption|]. split; [apply ranged_xor; assumption|]. intros C. destruct (R C) as [?|(X & [_ HX] & <- & <-)]; [auto|]. destruct (R' C) as [?|(Y & [_ HY] & <- & <-)]; [auto|].
    right. exists (fun p => sh_xor (X p) (Y p)). split; [split; [exact HK|apply (sh_xor_ok K K0); assumption]|]. auto.
  Qed.
  Lemma rep_shl b s t K x y v n : In K widths -> 0 <= n -> rep b s t K x y v -> rep b s t K (sh_shl K x n) (sh_shl K y n) (rshl K v n).
  Proof.
    intros HK Hn (R1 & R2 & R). assert (K0 : 0 < K) by (apply in_widths_pos in HK; lia).
    split; [apply ranged_shl; assumption|]. split; [apply ranged_shl; assumption|]. intros C. destruct (R C) as [?|(X & [_ HX] & <- & <-)]; [auto|].
    right. exists (fun p => sh_shl K (X p) n). split; [split; [exact HK|apply sh_shl_ok; assumption]|]. auto.
  Qed.
  Lemma Forall_map2_ranged K f xs ys : (forall x y, ranged K x -> ranged K y -> ranged K (f x y)) -> Forall (ranged K) xs -> Forall (ranged K) ys -> Forall (ranged K) (map2 f xs ys).
  Proof. intros F HX. revert ys. induction HX; intros [|? ?] HY; cbn; constructor; inversion HY; subst; auto. Qed.
  Lemma reps_xor b s t K xs ys vs xs' ys' vs' : In K widths -> length vs = length vs' -> reps b s t K xs ys vs -> reps b s t K xs' ys' vs' ->
    reps b s t K (map2 sh_xor xs xs') (map2 sh_xor ys ys') (map2 Z.lxor vs vs').
  Proof.
    intros HK LV (R1 & R2 & L1 & L2 & R) (R1' & R2' & L1' & L2' & R'). assert (K0 : 0 <= K) by (apply in_widths_pos in HK; lia).
    split; [apply Forall_map2_ranged; auto; intros; apply ranged_xor; assumption|]. split; [apply Forall_map2_ranged; auto; intros; apply ranged_xor; assumption|].
    split; [rewrite !map2_length_eq; congruence|]. split; [rewrite !map2_length_eq; congruence|].
    intros C. destruct (R C) as [?|(X & HX & <- & <-)]; [auto|]. destruct (R' C) as [?|(Y & HY & <- & <-)]; [auto|].
    right. exists (fun p => map2 sh_xor (X p) (Y p)). split; [|auto].
    apply (RL_map2 (brel K) (brel K) (brel K) (fun _ => sh_xor)); auto. intros P p P' p' [_ HP] [_ HP']. split; [exact HK|]. apply (sh_xor_ok K K0); assumption.
  Qed.
  Lemma reps_shl b s t K xs ys vs n : In K widths -> 0 <= n -> reps b s t K xs ys vs -> reps b s t K (map (fun x => sh_shl K x n) xs) (map (fun x => sh_shl K x n) ys) (map (fun v => rshl K v n) vs).
  Proof.
    intros HK Hn (R1 & R2 & L1 & L2 & R). assert (K0 : 0 < K) by (apply in_widths_pos in HK; lia).
    split; [apply Forall_map; eapply Forall_impl; [|exact R1]; intros; apply ranged_shl; assumption|]. split; [apply Forall_map; eapply Forall_impl; [|exact R2]; intros; apply ranged_shl; assumption|].
    rewrite !map_length. split; [exact L1|]. split; [exact L2|].
    intros C. destruct (R C) as [?|(X & HX & <- & <-)]; [auto|]. right. exists (fun p => map (fun x => sh_shl K x n) (X p)). split; [|auto].
    apply (RL_map (brel K) (brel K) (fun _ x => sh_shl K x n) (fun v => rshl K v n)); [|exact HX]. intros P p [_ HP]. split; [exact HK|]. apply sh_shl_ok; assumption.
  Qed.
  Lemma reps_firstn b s t K xs ys vs n : reps b s t K xs ys vs -> reps b s t K (firstn n xs) (firstn n ys) (firstn n vs).
  Proof.
    intros (R1 & R2 & L1 & L2 & R). split; [apply Forall_firstn', R1|]. split; [apply Forall_firstn', R2|]. rewrite !firstn_length. split; [congruence|]. split; [congruence|].
    intros C. destruct (R C) as [?|(X & HX & <- & <-)]; [auto|]. right. exists (fun p => firstn n (X p)). split; [apply RL_firstn, HX|auto].
  Qed.
  Lemma reps_skipn b s t K xs ys vs n : reps b s t K xs ys vs -> reps b s t K (skipn n xs) (skipn n ys) (skipn n vs).
  Proof.
    intros (R1 & R2 & L1 & L2 & R). split; [apply Forall_skipn', R1|]. split; [apply Forall_skipn', R2|]. rewrite !skipn_length. split; [congruence|]. split; [congruence|].
    intros C. destruct (R C) as [?|(X & HX & <- & <-)]; [auto|]. right. exists (fun p => skipn n (X p)). split; [apply RL_skipn, HX|auto].
  Qed.
  Lemma reps_app b s t K xs ys vs xs' ys' vs' : reps b s t K xs ys vs -> reps b s t K xs' ys' vs' -> reps b s t K (xs ++ xs') (ys ++ ys') (vs ++ vs').
  Proof.
    intros (R1 & R2 & L1 & L2 & R) (R1' & R2' & L1' & L2' & R'). split; [apply Forall_app; auto|]. split; [apply Forall_app; auto|]. rewrite !app_length. split; [congruence|]. split; [congruence|].
    intros C. destruct (R C) as [?|(X & HX & <- & <-)]; [auto|]. destruct (R' C) as [?|(Y & HY & <- & <-)]; [auto|]. right. exists (fun p => X p ++ Y p). split; [apply RL_app; assumption|auto].
  Qed.
  Lemma reps_one b s t K x y v : rep b s t K x y v -> reps b s t K [x] [y] [v].
  Proof.
    intros (R1 & R2 & R). split; [repeat constructor; apply R1|]. split; [repeat constructor; apply R2|]. split; [reflexivity|]. split; [reflexivity|].
    intros C. destruct (R C) as [?|(X & HX & <- & <-)]; [auto|]. right. exists (fun p => [X p]). split; [apply RL_cons'; [exact HX|apply RL_nil']|auto].
  Qed.
  Lemma reps_nil b s t K : reps b s t K [] [] [].
  Proof. split; [constructor|]. split; [constructor|]. split; [reflexivity|]. split; [reflexivity|]. intros _. right. exists (fun _ => []). split; [apply RL_nil'|auto]. Qed.
  Lemma reps_cons_inv b s t K xs ys v vs : reps b s t K xs ys (v :: vs) -> exists x xs' y ys', xs = x :: xs' /\ ys = y :: ys' /\ rep b s t K x y v /\ reps b s t K xs' ys' vs.
  Proof.
    intros (R1 & R2 & L1 & L2 & R). destruct xs as [|x xs]; [discriminate|]. destruct ys as [|y ys]; [discriminate|]. inversion R1; subst. inversion R2; subst.
    exists x, xs, y, ys. split; [reflexivity|]. split; [reflexivity|]. injection L1 as L1. injection L2 as L2. split.
    - split; [assumption|]. split; [assumption|]. intros C. destruct (R C) as [?|(X & HX & E1 & E2)]; [auto|]. apply RL_inv_cons in HX. destruct HX as (X0 & X' & EX & HX0 & HX'). rewrite EX in E1, E2.
      injection E1 as E1 E1'. injection E2 as E2 E2'. right. exists X0. auto.
    - split; [assumption|]. split; [assumption|]. split; [assumption|]. split; [assumption|]. intros C. destruct (R C) as [?|(X & HX & E1 & E2)]; [auto|]. apply RL_inv_cons in HX. destruct HX as (X0 & X' & EX & HX0 & HX'). rewrite EX in E1, E2.
      injection E1 as E1 E1'. injection E2 as E2 E2'. right. exists X'. auto.
  Qed.
End D.
