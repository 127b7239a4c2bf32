(** The sacrifice against a malicious party: two honest parties that finish hold correct products, or
    the challenge missed the error. *)
From Verif Require Import Base Ring RingProofs Prog Sched Conc Rng Rel Net BitArith BinProofs AddProofs MpcSpec Aby3 ShareSpec Aby3Proofs Jmp JmpProofs Session SessionProofs
  Aby3Mal Aby3MalProofs SacrificeProofs PropLemmas PropLemmas2 SpecProofs Duo.
From Coq Require Import ZifyBool ZifyNat.

(** The parties whose final states are s and t fed two colliding strings to the hash function. *)
Definition hash_collision (G : rng) (H : hasher) (s t : jst G) : Prop :=
  exists m m', In m (j_log G s) /\ In m' (j_log G t) /\ collision H m m'.

Ltac duostep := first
  [ apply duo_send_next | apply duo_send_prev | apply duo_r_send_prev | apply duo_r_send_next
  | apply duo_recv_prev; intros ? ? | apply duo_r_recv_next; intros ? ? | apply duo_recv_next | apply duo_r_recv_prev ].
Ltac dbind := apply duoM_bind.

(** Parsing bytes gives elements in range. *)
Lemma of_be_bound l : Forall (inr 8) l -> 0 <= of_be l < 256 ^ Z.of_nat (length l).
Proof.
  induction l as [|b l IH] using rev_ind; intros HF; [cbn; lia|]. apply Forall_app in HF. destruct HF as [HF Hb]. inversion Hb as [|? ? Hb' _]; subst.
  specialize (IH HF). unfold of_be in *. rewrite fold_left_app, app_length, Nat2Z.inj_add, Z.pow_add_r by lia. cbn [fold_left length].
  unfold inr in Hb'. change (2 ^ 8) with 256 in Hb'. change (256 ^ Z.of_nat 1) with 256. nia.
Qed.
Lemma pow_nbytes K : In K widths -> K <> 1 -> 256 ^ Z.of_nat (nbytes K) = 2 ^ K.
Proof. intros HK Hn. cbn in HK. destruct HK as [<-|[<-|[<-|[<-|[<-|[<-|[]]]]]]]; [congruence|reflexivity..]. Qed.
Lemma take_range K bs v rest : In K widths -> bytes bs -> take_from_bytes K bs = Ok (v, rest) -> inr K v /\ bytes rest.
Proof.
  intros HK HB. unfold take_from_bytes. destruct (Nat.ltb_spec (length bs) (nbytes K)) as [?|L]; [discriminate|].
  assert (HB' : bytes (firstn (nbytes K) bs) /\ bytes (skipn (nbytes K) bs)) by (apply Forall_app; rewrite firstn_skipn; exact HB).
  pose proof (of_be_bound _ (proj1 HB')) as Hb. rewrite firstn_length_le in Hb by exact L.
  destruct (Z.eqb_spec K 1) as [->|Hn]; cbn [andb].
  - destruct ((_ =? 0) || (_ =? 1)) eqn:E; cbn [negb]; [|discriminate]. intros Q. injection Q as <- <-. change (inr 1 (of_be (firstn (nbytes 1) bs)) /\ bytes (skipn (nbytes 1) bs)). split; [unfold inr; change (2 ^ 1) with 2; apply orb_prop in E; destruct E as [E|E]; apply Z.eqb_eq in E; rewrite E; lia|apply HB'].
  - intros Q. injection Q as <- <-. split; [|apply HB']. rewrite pow_nbytes in Hb by assumption. exact Hb.
Qed.
Lemma vec_range K bs n vs : In K widths -> bytes bs -> ring_vec_from_bytes K bs n = Ok vs -> Forall (inr K) vs /\ length vs = n.
Proof.
  intros HK HB. unfold ring_vec_from_bytes. destruct (take_n K n bs) as [[l rest]|] eqn:E; [|discriminate]. destruct rest; [|discriminate]. intros Q. injection Q as ->.
  revert bs vs E HB. generalize (@nil Z). induction n as [|n IH]; intros z bs vs E HB; cbn in E.
  - injection E as <- _. auto.
  - destruct (take_from_bytes K bs) as [[v bs']|] eqn:E1; [|discriminate]. destruct (take_n K n bs') as [[vs' r]|] eqn:E2; [|discriminate]. injection E as <- <-.
    destruct (take_range _ _ _ _ HK HB E1) as [Hv HB']. destruct (IH _ _ _ E2 HB') as [? ?]. split; [constructor; assumption|cbn; congruence].
Qed.
Lemma val_range K bs v : In K widths -> bytes bs -> from_bytes K bs = Ok v -> inr K v.
Proof.
  intros HK HB. unfold from_bytes. destruct (Nat.eqb_spec (length bs) (nbytes K)) as [L|]; [|discriminate].
  pose proof (of_be_bound _ HB) as Hb. rewrite L in Hb.
  destruct (Z.eqb_spec K 1) as [->|Hn]; cbn [andb].
  - destruct ((_ =? 0) || (_ =? 1)) eqn:E; cbn [negb]; [|discriminate]. intros Q. injection Q as <-. unfold inr; change (2 ^ 1) with 2; apply orb_prop in E; destruct E as [E|E]; apply Z.eqb_eq in E; rewrite E; lia.
  - intros Q. injection Q as <-. rewrite pow_nbytes in Hb by assumption. exact Hb.
Qed.

Section D.
  Variables (G : rng) (H : hasher) (i : pid).
  Notation j := (next i).
  Notation ST := (jst G).
  Definition synced2 (s t : ST) : Prop := next_prf G (j_prf G t) = my_prf G (j_prf G s).
  Notation bts K l := (wire (map (pair K) l)).

  Lemma jsrm_duo K xi yi xj yj (s t : ST) (Q : ST -> list Z -> ST -> list Z -> Prop) : In K widths -> Forall (inr K) xi -> length xi = length xj ->
    (forall c, Forall (inr K) c -> length c = length xi ->
      Q (JSt G (j_prf G s) (j_snd G s ++ bts K yi) (j_rcv G s ++ bts K c) (j_log G s)) c
        (JSt G (j_prf G t) (j_snd G t ++ bts K yj) (j_rcv G t ++ bts K xi) (j_log G t)) xi) ->
    duoM i (jmp_send_receive_many G i K xi yi) (jmp_send_receive_many G j K xj yj) s t Q.
  Proof.
    intros HK Hx Hl HQ. unfold jmp_send_receive_many. dbind. unfold jmp_buffer_many. dbind. apply duoM_get. apply duoM_put.
    unfold duoM, jmp_send_many, jmp_receive_many, bindM, liftM, send_vec, receive_vec. cbn [bind fst snd].
    unfold duo. duostep. duostep. cbn [bind app]. apply duo_r_recv_prev. rewrite <- Hl, vec_roundtrip by assumption. cbn [of_res bind fst snd].
    duostep. match goal with |- duoq _ (bind (bind (of_res ?r) _) _) _ _ _ _ => destruct r as [c|] eqn:E; cbn [of_res bind]; [|apply duo_fail_l] end.
    destruct (vec_range _ _ _ _ HK ltac:(eassumption) E) as [C1 C2]. unfold getM, putM, retM. cbn [bind fst snd].
    apply duo_ret. cbn [fst snd]. rewrite !fold_add_to_bytes. cbn [j_prf j_snd j_rcv j_log]. apply HQ; assumption.
  Qed.

  Lemma jsr_duo K xi yi xj yj (s t : ST) (Q : ST -> Z -> ST -> Z -> Prop) : In K widths -> inr K xi ->
    (forall c, inr K c ->
      Q (JSt G (j_prf G s) (j_snd G s ++ bts K [yi]) (j_rcv G s ++ bts K [c]) (j_log G s)) c
        (JSt G (j_prf G t) (j_snd G t ++ bts K [yj]) (j_rcv G t ++ bts K [xi]) (j_log G t)) xi) ->
    duoM i (jmp_send_receive G i K xi yi) (jmp_send_receive G j K xj yj) s t Q.
  Proof.
    intros HK Hx HQ. unfold jmp_send_receive. dbind. unfold jmp_buffer. dbind. apply duoM_get. apply duoM_put.
    unfold duoM, jmp_send, jmp_receive, bindM, liftM, send_value, receive_value. cbn [bind fst snd].
    unfold duo. duostep. duostep. cbn [bind app]. apply duo_r_recv_prev. rewrite from_to_bytes by assumption. cbn [of_res bind fst snd].
    duostep. match goal with |- duoq _ (bind (bind (of_res ?r) _) _) _ _ _ _ => destruct r as [c|] eqn:E; cbn [of_res bind]; [|apply duo_fail_l] end.
    pose proof (val_range _ _ _ HK ltac:(eassumption) E) as C1. unfold getM, putM, retM. cbn [bind fst snd].
    apply duo_ret. cbn [fst snd j_prf j_snd j_rcv j_log]. unfold add_to_bytes. specialize (HQ c C1). cbn in HQ. rewrite !app_nil_r in HQ. exact HQ.
  Qed.

  Notation coll := (hash_collision G H).
  Definition verified (s : ST) : ST := JSt G (j_prf G s) [] [] (j_log G s ++ [j_snd G s; j_rcv G s]).
  Lemma hash_eq m m' (s t : ST) : hfun H m = hfun H m' -> In m (j_log G s) -> In m' (j_log G t) -> m = m' \/ coll s t.
  Proof.
    intros E I1 I2. destruct (list_eq_dec Z.eq_dec m m') as [D|D]; [left; exact D|]. right. exists m, m'. repeat split; assumption.
  Qed.
  Lemma coll_hashed s t l l' : coll s t -> coll (j_hashed G l s) (j_hashed G l' t).
  Proof. intros (m & m' & I1 & I2 & C). exists m, m'. split; [apply in_or_app; left; exact I1|]. split; [apply in_or_app; left; exact I2|exact C]. Qed.
  Lemma jmp_verify_duo (s t : ST) (Q : ST -> unit -> ST -> unit -> Prop) :
    (j_rcv G s = j_snd G t \/ coll (verified s) (verified t) -> Q (verified s) tt (verified t) tt) ->
    duoM i (jmp_verify G H i) (jmp_verify G H j) s t Q.
  Proof.
    intros HQ. unfold jmp_verify. dbind. apply duoM_get. dbind. apply duoM_put.
    unfold duoM, bindM, liftM. cbn [bind fst snd]. unfold duo. duostep. duostep. cbn [app]. duostep. duostep. cbn [bind fst snd].
    destruct (bytes_eqb (hfun H (j_snd G t)) (hfun H (j_rcv G s))) eqn:E1; [|apply duo_fail_l].
    destruct (bytes_eqb m (hfun H (j_rcv G t))); [|apply duo_fail_r].
    apply duo_ret. cbn [fst snd]. apply HQ. apply bytes_eqb_spec in E1. apply hash_eq; [congruence|apply in_or_app; right; right; left; reflexivity|apply in_or_app; right; left; reflexivity].
  Qed.

  (** Both parties know the third party's coin contribution only through i's second generator. *)
  Definition duo_seed (s t : ST) : list Z :=
    xor3 (snd (draw_bytes G 32 (my_prf G (j_prf G s)))) (snd (draw_bytes G 32 (my_prf G (j_prf G t)))) (snd (draw_bytes G 32 (next_prf G (j_prf G s)))).
  Lemma xor_form (a b c : list Z) : map2 (fun s1 s23 => rxor s1 (rxor (snd s23) (fst s23))) a (combine b c) = xor3 a c b.
  Proof.
    unfold xor3. revert b c. induction a as [|x a IH]; intros [|y b] [|z c]; cbn; try reflexivity. f_equal. apply IH.
  Qed.
  Lemma xor3_rot a b c : xor3 a b c = xor3 b c a.
  Proof.
    unfold xor3. revert b c. induction a as [|x a IH]; intros [|y b] [|z c]; cbn; try reflexivity. f_equal; [bitsolve|apply IH].
  Qed.
  Lemma draw_length n r : length (snd (draw_bytes G n r)) = n.
  Proof. apply draw_bytes_length. Qed.

  Lemma coin_duo (s t : ST) (Q : ST -> list Z -> ST -> list Z -> Prop) : synced2 s t ->
    (forall c di dj dk (s' t' : ST), Forall (inr 8) c -> length c = 32%nat ->
       dj = snd (draw_bytes G 32 (my_prf G (j_prf G t))) -> dk = snd (draw_bytes G 32 (next_prf G (j_prf G s))) ->
       di = snd (draw_bytes G 32 (my_prf G (j_prf G s))) ->
       synced2 s' t' -> j_rcv G s' = j_rcv G s ++ bts 8 c -> j_snd G t' = j_snd G t ++ bts 8 dj ->
       Q s' (xor3 di c dk) t' (xor3 di dj dk)) ->
    duoM i (coin G i) (coin G j) s t Q.
  Proof.
    intros Hs HQ. unfold coin. dbind.
    assert (E : forall u : ST, on_prf G (gen_rands_seed G) u =
      Ret (JSt G (Prf G (fst (draw_bytes G 32 (my_prf G (j_prf G u)))) (fst (draw_bytes G 32 (next_prf G (j_prf G u))))) (j_snd G u) (j_rcv G u) (j_log G u),
           (snd (draw_bytes G 32 (my_prf G (j_prf G u))), snd (draw_bytes G 32 (next_prf G (j_prf G u)))))).
    { intros u. unfold on_prf, zoom, gen_rands_seed. destruct (draw_bytes G 32 (my_prf G (j_prf G u))), (draw_bytes G 32 (next_prf G (j_prf G u))). reflexivity. }
    unfold duoM at 1. rewrite !E. apply duo_ret. cbn [fst snd]. dbind. apply jsrm_duo.
    - right; left; reflexivity.
    - apply draw_bytes_range.
    - rewrite !draw_length. reflexivity.
    - intros c C1 C2. apply duoM_ret. rewrite !xor_form. rewrite draw_length in C2.
      set (dj := snd (draw_bytes G 32 (my_prf G (j_prf G t)))). set (dk := snd (draw_bytes G 32 (next_prf G (j_prf G s)))). set (di := snd (draw_bytes G 32 (my_prf G (j_prf G s)))).
      replace (xor3 dj dk (snd (draw_bytes G 32 (next_prf G (j_prf G t))))) with (xor3 di dj dk)
        by (rewrite (Hs : next_prf _ _ = _); fold di; rewrite (xor3_rot di); reflexivity).
      apply HQ; auto; unfold synced2; cbn. rewrite (Hs : next_prf _ _ = _). reflexivity.
  Qed.

  Lemma zero_verify_duo U wi wj (s t : ST) (Q : ST -> unit -> ST -> unit -> Prop) :
    (let s' := j_hashed G [zero_transcript U i wi] s in let t' := j_hashed G [zero_transcript U j wj] t in
     zero_transcript U i wi = zero_transcript U j wj \/ coll s' t' -> Q s' tt t' tt) ->
    duoM i (zero_verify G H i U wi) (zero_verify G H j U wj) s t Q.
  Proof.
    intros HQ. unfold zero_verify. fold (zero_transcript U i wi). fold (zero_transcript U j wj).
    cbv zeta in HQ. dbind. apply duoM_get. dbind. apply duoM_put.
    assert (HQ' : hfun H (zero_transcript U i wi) = hfun H (zero_transcript U j wj) -> Q (j_hashed G [zero_transcript U i wi] s) tt (j_hashed G [zero_transcript U j wj] t) tt).
    { intros E. apply HQ. apply hash_eq; [exact E|apply in_or_app; right; left; reflexivity..]. }
    clear HQ. rename HQ' into HQ.
    set (s' := j_hashed G [zero_transcript U i wi] s) in *. set (t' := j_hashed G [zero_transcript U j wj] t) in *. clearbody s' t'.
    set (hi := hfun H (zero_transcript U i wi)) in *. set (hj := hfun H (zero_transcript U j wj)) in *. clearbody hi hj.
    destruct i; unfold duoM, bindM, liftM; cbn; unfold duo; repeat (duostep; cbn [app bind fst snd]);
      repeat match goal with |- duoq _ ((if ?b then _ else _) _) _ _ _ _ => destruct b eqn:?; [apply duo_fail_l|] end;
      repeat match goal with |- duoq _ _ ((if ?b then _ else _) _) _ _ _ => destruct b eqn:?; [apply duo_fail_r|] end;
      apply duo_ret; apply HQ;
      repeat match goal with E : negb _ || negb _ = false |- _ => apply orb_false_elim in E; destruct E end;
      repeat match goal with E : negb _ = false |- _ => apply negb_false_iff in E; apply bytes_eqb_spec in E end; congruence.
  Qed.

  (** *** Helpers *)
  Lemma app_inj_len_r {A} (a b c d : list A) : length c = length d -> a ++ c = b ++ d -> a = b /\ c = d.
  Proof.
    intros L E. apply app_inj_len; [|exact E]. apply (f_equal (@length A)) in E. rewrite !app_length in E. lia.
  Qed.
  Lemma bts_len K (a b : list Z) : length a = length b -> length (bts K a) = length (bts K b).
  Proof.
    revert b. induction a as [|x a IH]; intros [|y b] L; try discriminate; [reflexivity|].
    cbn [map wire flat_map fst snd]. rewrite !app_length, !to_bytes_eq, !to_be_length. fold (wire (map (pair K) a)). fold (wire (map (pair K) b)). rewrite (IH b) by (injection L; auto). reflexivity.
  Qed.
  Lemma bts_inj K a b : In K widths -> length a = length b -> Forall (inr K) a -> Forall (inr K) b -> bts K a = bts K b -> a = b.
  Proof.
    intros HK L Fa Fb E. assert (M : map (pair K) a = map (pair K) b).
    { apply wire_inj; [|rewrite Forall_map; eapply Forall_impl; [|eassumption]; cbn; auto..|exact E].
      rewrite !map_map. cbn. clear -L. revert b L. induction a; intros [|] L; try discriminate; [reflexivity|]. cbn. f_equal. apply IHa. injection L; auto. }
    apply (f_equal (map snd)) in M. rewrite !map_map in M. cbn in M. rewrite !map_id in M. exact M.
  Qed.
  Lemma arith_ij U X x : arith_shared U X x -> (sa (X i) + sb (X i) + sa (X j)) mod 2 ^ U = x.
  Proof. intros (_ & X2 & ->). rewrite X2. destruct i; cbn; f_equal; ring. Qed.
  Lemma arith_rows U X xs : RL (arith_shared U) X xs ->
    forall n x y, nth_error (X i) n = Some x -> nth_error (X j) n = Some y -> inr U (sa x) /\ inr U (sb x) /\ inr U (sa y) /\ sb y = sa x.
  Proof.
    intros HX n x y Hx Hy. apply RL_vec in HX. destruct HX as [L HX].
    destruct (nth_error xs n) as [v|] eqn:Ev.
    - destruct (HX n v Ev) as (Y & HY & HA). rewrite HY in Hx, Hy. injection Hx as <-. injection Hy as <-. destruct HA as (A1 & A2 & _).
      split; [apply A1|]. split; [rewrite A2; apply A1|]. split; [apply A1|]. rewrite A2. destruct i; reflexivity.
    - apply nth_error_None in Ev. rewrite <- (L i) in Ev. apply nth_error_None in Ev. congruence.
  Qed.
  Lemma zero_rows U X xs : In U widths -> RL (arith_shared U) X xs -> zero_transcript U i (X i) = zero_transcript U j (X j) -> Forall (fun x => x = 0) xs.
  Proof.
    intros HU HX E. pose proof (transcripts_zero U HU i (X i) (X j)) as T.
    assert (Z0 : forall n x y, nth_error (X i) n = Some x -> nth_error (X j) n = Some y -> (sa x + sb x + sa y) mod 2 ^ U = 0).
    { apply T; [rewrite (RL_length _ _ _ HX), <- (RL_length _ _ _ HX j); reflexivity|apply (arith_rows U X xs HX)|exact E]. }
    apply RL_vec in HX. destruct HX as [_ HX]. apply Forall_forall. intros v Hv. apply In_nth_error in Hv. destruct Hv as [n Hn].
    destruct (HX n v Hn) as (Y & HY & HA). rewrite <- (arith_ij U Y v HA). apply (Z0 n); apply HY.
  Qed.

  (** *** The sacrifice of one triple *)
  Lemma mul_triple_check_duo K A a A' a' B b C0 c0 C1 c1 (s t : ST) : In K widths -> synced2 s t ->
    let U := verif_width K in
    arith_shared U A a -> arith_shared U A' a' -> arith_shared U B b -> arith_shared U C0 c0 -> arith_shared U C1 c1 ->
    duoM i (mul_triple_check G H i K (A i) (A' i) (B i) [C0 i; C1 i]) (mul_triple_check G H j K (A j) (A' j) (B j) [C0 j; C1 j]) s t
      (fun s' x t' y => synced2 s' t' /\
         x = (sh_trunc K (A i), sh_trunc K (B i), sh_trunc K (C0 i)) /\ y = (sh_trunc K (A j), sh_trunc K (B j), sh_trunc K (C0 j)) /\
         (coll s' t' \/ ((c1 - a' * b) - challenge G U (duo_seed s t) * (c0 - a * b)) mod 2 ^ U = 0)).
  Proof.
    intros HK Hs U HA HA' HB HC0 HC1. pose proof (verif_in K HK) as HU. fold U in HU. assert (HU0 : 0 <= U) by (apply in_widths_pos in HU; lia).
    unfold mul_triple_check. fold U. dbind. apply coin_duo; [exact Hs|]. intros c di dj dk s1 t1 Fc Lc Edj Edk Edi Hs1 R1 S1.
    assert (Eseed : duo_seed s t = xor3 di dj dk) by (unfold duo_seed; subst; reflexivity).
    assert (Ldj : length dj = 32%nat) by (subst; apply draw_length). assert (Fdj : Forall (inr 8) dj) by (subst; apply draw_bytes_range).
    assert (HO : forall r, arith_shared U (fun p => sh_sub U (sh_mulc U (A p) r) (A' p)) (((a * r) mod 2 ^ U - a') mod 2 ^ U))
      by (intros r; apply (sh_sub_ok U HU0); [apply (sh_mulc_ok U HU0), HA|exact HA']).
    dbind. unfold reconstruct. dbind. set (rj := challenge G U (xor3 di dj dk)). set (ri := challenge G U (xor3 di c dk)).
    apply jsr_duo; [exact HU|destruct (HO ri) as (O1 & O2 & _); cbn beta in O2; rewrite O2; apply O1|].
    intros cv Hcv. apply duoM_ret. dbind. apply jmp_verify_duo. cbn [j_rcv j_snd j_prf]. intros [EH|HC].
    2:{ dbind. apply duoM_res. cbn. intros ? ? E E'. injection E as <-. injection E' as <-.
        dbind. apply duoM_res. cbn. intros ? ? E E'. injection E as <-. injection E' as <-.
        dbind. apply zero_verify_duo. intros ? ? _. apply duoM_ret. split; [exact Hs1|]. split; [reflexivity|]. split; [reflexivity|]. left. apply coll_hashed, HC. }
    apply app_inj_len_r in EH; [|apply bts_len; reflexivity]. destruct EH as [EH E2]. rewrite R1, S1 in EH.
    apply app_inj_len_r in EH; [|apply bts_len; congruence]. destruct EH as [_ E1].
    apply bts_inj in E1; [|right; left; reflexivity|congruence|assumption..]. subst c.
    apply bts_inj in E2; [|exact HU|reflexivity|apply Forall_cons; [exact Hcv|apply Forall_nil]|apply Forall_cons; [apply (HO rj)|apply Forall_nil]]. apply (f_equal (hd 0)) in E2. cbn [hd] in E2. subst cv.
    change ri with rj. clear ri. set (v := ((a * rj) mod 2 ^ U - a') mod 2 ^ U).
    destruct (HO rj) as (O1 & O2 & O3). fold v in O3.
    assert (Vi : radd U (radd U (sa (sh_sub U (sh_mulc U (A i) rj) (A' i))) (sb (sh_sub U (sh_mulc U (A i) rj) (A' i)))) (sa (sh_sub U (sh_mulc U (A j) rj) (A' j))) = v).
    { pose proof (arith_ij U _ _ (HO rj)) as E. cbn beta in E. fold v in E. rewrite <- E. unfold radd, norm. modring. }
    assert (Vj : radd U (radd U (sa (sh_sub U (sh_mulc U (A j) rj) (A' j))) (sb (sh_sub U (sh_mulc U (A j) rj) (A' j)))) (sb (sh_sub U (sh_mulc U (A i) rj) (A' i))) = v).
    { rewrite <- Vi. rewrite (O2 j). replace (prev j) with i by (destruct i; reflexivity). unfold radd, norm. modring. }
    rewrite Vi, Vj. dbind. apply duoM_res. cbn. intros ? ? E E'. injection E as <-. injection E' as <-.
    dbind. apply duoM_res. cbn. intros ? ? E E'. injection E as <-. injection E' as <-.
    dbind. apply zero_verify_duo. cbv zeta. intros [EH|HC]; apply duoM_ret; (split; [exact Hs1|]); (split; [reflexivity|]); (split; [reflexivity|]); [right|left; exact HC]. rewrite Eseed. fold rj.
    pose proof (triple_check_value U rj a a' b (c0 - a * b) (c1 - a' * b) (fun _ => v) B C0 C1 HU0) as T.
    assert (HW : arith_shared U (fun p => triple_check U rj v (B p) (C0 p) (C1 p)) ((c1 - a' * b - rj * (c0 - a * b)) mod 2 ^ U)).
    { assert (M : forall X x y, arith_shared U X x -> (y = x) -> arith_shared U X (y mod 2 ^ U)).
      { intros X x y HX ->. pose proof HX as (X1 & X2 & ->). split; [exact X1|]. split; [exact X2|]. rewrite Zmod_mod. reflexivity. }
      apply T; [intros _; unfold v; modring|exact HB|eapply M; [exact HC0|ring]|eapply M; [exact HC1|ring]]. }
    pose proof (zero_rows U (fun p => [triple_check U rj v (B p) (C0 p) (C1 p)]) _ HU (RL_cons' _ _ _ _ _ HW (RL_nil' _)) EH) as Z0.
    inversion Z0; assumption.
  Qed.

  (** *** Coin, opening of values that depend on the coin, verification *)
  Lemma sac_open_duo {R} U (O : Z -> pid -> list share) (vs : Z -> list Z) n (f g : Z -> list Z -> M ST R) (s t : ST) Q :
    In U widths -> synced2 s t -> (forall r, RL (arith_shared U) (O r) (vs r)) -> (forall r, length (vs r) = n) ->
    (forall s' t', synced2 s' t' -> let r := challenge G U (duo_seed s t) in duoM i (f r (vs r)) (g r (vs r)) s' t' Q) ->
    (forall s' t' r r' v v', synced2 s' t' -> coll s' t' -> duoM i (f r v) (g r' v') s' t' Q) ->
    duoM i (bindM (coin G i) (fun seed => bindM (reconstruct_many G i U (O (challenge G U seed) i)) (fun v => bindM (jmp_verify G H i) (fun _ => f (challenge G U seed) v))))
           (bindM (coin G j) (fun seed => bindM (reconstruct_many G j U (O (challenge G U seed) j)) (fun v => bindM (jmp_verify G H j) (fun _ => g (challenge G U seed) v)))) s t Q.
  Proof.
    intros HU Hs HO Hn HF HFc. dbind. apply coin_duo; [exact Hs|]. intros c di dj dk s1 t1 Fc Lc Edj Edk Edi Hs1 R1 S1.
    assert (Eseed : duo_seed s t = xor3 di dj dk) by (unfold duo_seed; subst; reflexivity).
    assert (Ldj : length dj = 32%nat) by (subst; apply draw_length). assert (Fdj : Forall (inr 8) dj) by (subst; apply draw_bytes_range).
    set (rj := challenge G U (xor3 di dj dk)). set (ri := challenge G U (xor3 di c dk)).
    destruct (arel_cols U _ _ (HO ri)) as (I1 & I2 & I3). destruct (arel_cols U _ _ (HO rj)) as (J1 & J2 & J3).
    dbind. unfold reconstruct_many. dbind.
    apply jsrm_duo; [exact HU|rewrite I2; apply I1|rewrite !map_length, I3, J3, !Hn; reflexivity|].
    intros cv Fcv Lcv. apply duoM_ret. dbind. apply jmp_verify_duo. cbn [j_rcv j_snd j_prf]. intros [EH|HC]; [|apply HFc; assumption].
    assert (Lcv' : length cv = length (map sa (O rj j))) by (rewrite Lcv, !map_length, I3, J3, !Hn; reflexivity).
    apply app_inj_len_r in EH; [|apply bts_len; exact Lcv']. destruct EH as [EH E2]. rewrite R1, S1 in EH.
    apply app_inj_len_r in EH; [|apply bts_len; congruence]. destruct EH as [_ E1].
    apply bts_inj in E1; [|right; left; reflexivity|congruence|assumption..]. subst c.
    apply bts_inj in E2; [|exact HU|exact Lcv'|exact Fcv|apply J1]. subst cv. change ri with rj in *. clear ri.
    pose proof (open_cols_a U _ _ (HO rj) i) as Oi. pose proof (open_cols_a U _ _ (HO rj) j) as Oj.
    replace (prev j) with i in Oj by (destruct i; reflexivity).
    replace (map sb (O rj (prev i))) with (map sa (O rj j)) in Oi by (rewrite J2; destruct i; reflexivity).
    rewrite Oi, Oj.
    match goal with |- duoM _ _ _ ?s2 ?t2 _ => specialize (HF s2 t2 Hs1) end. cbv zeta in HF. rewrite Eseed in HF. exact HF.
  Qed.

  Lemma arith_mod U X x : arith_shared U X x -> x mod 2 ^ U = x.
  Proof. intros (_ & _ & ->). apply Zmod_mod. Qed.
  Lemma mul_triple_check_many_duo K len A a A' a' B b C c0 c1 (s t : ST) : In K widths -> synced2 s t ->
    let U := verif_width K in
    length a = len -> length a' = len -> length b = len -> length c0 = len -> length c1 = len ->
    RL (arith_shared U) A a -> RL (arith_shared U) A' a' -> RL (arith_shared U) B b -> RL (arith_shared U) C (c0 ++ c1) ->
    duoM i (mul_triple_check_many G H i K len (A i) (A' i) (B i) (C i)) (mul_triple_check_many G H j K len (A j) (A' j) (B j) (C j)) s t
      (fun s' x t' y => synced2 s' t' /\
         x = (map (sh_trunc K) (A i), map (sh_trunc K) (B i), map (sh_trunc K) (firstn len (C i))) /\
         y = (map (sh_trunc K) (A j), map (sh_trunc K) (B j), map (sh_trunc K) (firstn len (C j))) /\
         (coll s' t' \/ forall n x x' y z z', nth_error a n = Some x -> nth_error a' n = Some x' -> nth_error b n = Some y ->
           nth_error c0 n = Some z -> nth_error c1 n = Some z' -> ((z' - x' * y) - challenge G U (duo_seed s t) * (z - x * y)) mod 2 ^ U = 0)).
  Proof.
    intros HK Hs U La La' Lb L0 L1 HA HA' HB HC. pose proof (verif_in K HK) as HU. fold U in HU. assert (HU0 : 0 <= U) by (apply in_widths_pos in HU; lia).
    pose proof (RL_firstn_app _ _ _ _ HC) as [HC0 HC1]. rewrite L0 in HC0, HC1.
    unfold mul_triple_check_many. fold U.
    apply (sac_open_duo U (fun r p => map2 (fun x y => sh_sub U (sh_mulc U x r) y) (A p) (A' p)) (fun r => sac_open U r a a') len
      (fun r v => bindM (zero_verify G H i U (map2 (fun bv cc => triple_check U r (snd bv) (fst bv) (fst cc) (snd cc)) (combine (B i) v) (combine (firstn len (C i)) (skipn len (C i)))))
         (fun _ => retM (map (sh_trunc K) (A i), map (sh_trunc K) (B i), map (sh_trunc K) (firstn len (C i)))))
      (fun r v => bindM (zero_verify G H j U (map2 (fun bv cc => triple_check U r (snd bv) (fst bv) (fst cc) (snd cc)) (combine (B j) v) (combine (firstn len (C j)) (skipn len (C j)))))
         (fun _ => retM (map (sh_trunc K) (A j), map (sh_trunc K) (B j), map (sh_trunc K) (firstn len (C j)))))); auto.
    - intros r. apply (RL_map2 (arith_shared U) (arith_shared U) (arith_shared U) (fun _ x y => sh_sub U (sh_mulc U x r) y)); auto.
      intros V y V' y' HV HV'. apply (sh_sub_ok U HU0); [|exact HV']. apply (sh_mulc_ok U HU0), HV.
    - intros r. unfold sac_open. rewrite map2_length_eq; congruence.
    - intros s' t' Hs'. cbv zeta. set (r := challenge G U (duo_seed s t)). dbind. apply zero_verify_duo. cbv zeta. intros [EH|HCC]; apply duoM_ret; (split; [exact Hs'|]); (split; [reflexivity|]); (split; [reflexivity|]); [right|left; exact HCC].
      set (v := sac_open U r a a') in *.
      pose proof (RL_combine _ _ _ _ _ _ HB (RL_public _ _ (fun _ => eq_refl v))) as HP.
      pose proof (RL_combine _ _ _ _ _ _ HC0 HC1) as HQ.
      assert (HW : RL (arith_shared U) (fun p => map2 (fun bv cc => triple_check U r (snd bv) (fst bv) (fst cc) (snd cc)) (combine (B p) v) (combine (firstn len (C p)) (skipn len (C p))))
         (map2 (fun bv cc => (((fst bv * snd bv) mod 2 ^ U - (fst cc * r) mod 2 ^ U) mod 2 ^ U + snd cc) mod 2 ^ U) (combine b v) (combine c0 c1))).
      { apply (RL_map2 _ _ (arith_shared U) (fun _ bv cc => triple_check U r (snd bv) (fst bv) (fst cc) (snd cc))) with (3 := HQ) (2 := HP).
        intros Y y Y' y' [HY1 HY2] [HY1' HY2']. unfold triple_check. apply (sh_add_ok U HU0); [|exact HY2']. apply (sh_sub_ok U HU0).
        - eapply arel_ext; [|apply (sh_mulc_ok U HU0 _ _ (snd y) HY1)]. intros p. cbn beta. rewrite HY2. reflexivity.
        - apply (sh_mulc_ok U HU0), HY1'. }
      pose proof (zero_rows U _ _ HU HW EH) as Z0. clear -Z0 La La' Lb L0 L1. unfold v, sac_open in Z0. clear v.
      revert a a' b c0 c1 La La' Lb L0 L1 Z0. induction len as [|len IH]; intros [|u a] [|u' a'] [|w b] [|e c0] [|e' c1] La La' Lb L0 L1 Z0; try discriminate.
      + intros [|n]; intros; discriminate.
      + cbn [map2 combine fst snd] in Z0. inversion Z0 as [|? ? E0 Z1]; subst.
        intros [|n] x x' y z z'; cbn [nth_error]; intros E1 E2 E3 E4 E5.
        * injection E1 as <-. injection E2 as <-. injection E3 as <-. injection E4 as <-. injection E5 as <-. rewrite <- E0. modring.
        * eapply (IH a a' b c0 c1); eauto.
    - intros s' t' ri rj vi vj Hs' HCC. dbind. apply zero_verify_duo. intros ? ? _. apply duoM_ret. split; [exact Hs'|]. split; [reflexivity|]. split; [reflexivity|]. left. apply coll_hashed, HCC.
  Qed.

  Lemma dot_sacrifice_check_duo K A a A' a' B b C0 c0 C1 c1 (s t : ST) : In K widths -> synced2 s t ->
    let U := verif_width K in length a = length b -> length a' = length b ->
    RL (arith_shared U) A a -> RL (arith_shared U) A' a' -> RL (arith_shared U) B b -> arith_shared U C0 c0 -> arith_shared U C1 c1 ->
    duoM i (dot_sacrifice_check G H i K (A i) (A' i) (B i) [C0 i; C1 i]) (dot_sacrifice_check G H j K (A j) (A' j) (B j) [C0 j; C1 j]) s t
      (fun s' x t' y => synced2 s' t' /\ x = sh_trunc K (C0 i) /\ y = sh_trunc K (C0 j) /\
         (coll s' t' \/ ((c1 - dotp a' b) - challenge G U (duo_seed s t) * (c0 - dotp a b)) mod 2 ^ U = 0)).
  Proof.
    intros HK Hs U La La' HA HA' HB HC0 HC1. pose proof (verif_in K HK) as HU. fold U in HU. assert (HU0 : 0 <= U) by (apply in_widths_pos in HU; lia).
    unfold dot_sacrifice_check. fold U.
    apply (sac_open_duo U (fun r p => map2 (fun x y => sh_sub U (sh_mulc U x r) y) (A p) (A' p)) (fun r => sac_open U r a a') (length b)
      (fun r v => bindM (resM (index [C0 i; C1 i] 0)) (fun c0 => bindM (resM (index [C0 i; C1 i] 1)) (fun c1 => bindM (zero_verify G H i U [dot_check U r v (B i) c0 c1]) (fun _ => retM (sh_trunc K c0)))))
      (fun r v => bindM (resM (index [C0 j; C1 j] 0)) (fun c0 => bindM (resM (index [C0 j; C1 j] 1)) (fun c1 => bindM (zero_verify G H j U [dot_check U r v (B j) c0 c1]) (fun _ => retM (sh_trunc K c0)))))); auto.
    - intros r. apply (RL_map2 (arith_shared U) (arith_shared U) (arith_shared U) (fun _ x y => sh_sub U (sh_mulc U x r) y)); auto.
      intros V y V' y' HV HV'. apply (sh_sub_ok U HU0); [|exact HV']. apply (sh_mulc_ok U HU0), HV.
    - intros r. unfold sac_open. rewrite map2_length_eq; congruence.
    - intros s' t' Hs'. cbv zeta. set (r := challenge G U (duo_seed s t)). dbind. apply duoM_res. cbn. intros ? ? E E'. injection E as <-. injection E' as <-.
      dbind. apply duoM_res. cbn. intros ? ? E E'. injection E as <-. injection E' as <-.
      dbind. apply zero_verify_duo. cbv zeta. intros [EH|HCC]; apply duoM_ret; (split; [exact Hs'|]); (split; [reflexivity|]); (split; [reflexivity|]); [right|left; exact HCC].
      set (v := sac_open U r a a') in *.
      assert (M : forall X x y, arith_shared U X x -> (y = x) -> arith_shared U X (y mod 2 ^ U)).
      { intros X x y HX ->. pose proof HX as (X1 & X2 & ->). split; [exact X1|]. split; [exact X2|]. rewrite Zmod_mod. reflexivity. }
      assert (HW : arith_shared U (fun p => dot_check U r v (B p) (C0 p) (C1 p)) ((c1 - dotp a' b - r * (c0 - dotp a b)) mod 2 ^ U)).
      { apply (dot_check_value U r a a' b (c0 - dotp a b) (c1 - dotp a' b) (fun _ => v) B C0 C1 HU0 La La'); [|exact HB|eapply M; [exact HC0|ring]|eapply M; [exact HC1|ring]].
        intros _. unfold v, sac_open. clear. revert a'. induction a as [|x a IH]; intros [|y a']; cbn; try reflexivity. rewrite IH. f_equal. modring. }
      pose proof (zero_rows U (fun p => [dot_check U r v (B p) (C0 p) (C1 p)]) _ HU (RL_cons' _ _ _ _ _ HW (RL_nil' _)) EH) as Z0.
      inversion Z0; assumption.
    - intros s' t' ri rj vi vj Hs' HCC. dbind. apply duoM_res. cbn. intros ? ? E E'. injection E as <-. injection E' as <-.
      dbind. apply duoM_res. cbn. intros ? ? E E'. injection E as <-. injection E' as <-.
      dbind. apply zero_verify_duo. intros ? ? _. apply duoM_ret. split; [exact Hs'|]. split; [reflexivity|]. split; [reflexivity|]. left. apply coll_hashed, HCC.
  Qed.

  Lemma sacrifice_rows_value U B bs r : 0 <= U -> RL (RL (arith_shared U)) B bs ->
    forall CC cs a a', 
    Forall2 (fun x y => length x = length y) a bs -> Forall2 (fun x y => length x = length y) a' bs -> length cs = length bs ->
    RL (fun (W : pid -> share * share) (w : Z * Z) => arith_shared U (fun i => fst (W i)) (fst w) /\ arith_shared U (fun i => snd (W i)) (snd w)) CC cs ->
    RL (arith_shared U) (fun i => sacrifice_rows U r (B i) (CC i) (concat (map2 (sac_open U r) a a')))
      (map2 (fun xb c => ((snd c - dotp (snd (fst xb)) (snd xb)) - r * (fst c - dotp (fst (fst xb)) (snd xb))) mod 2 ^ U) (combine (combine a a') bs) cs).
  Proof.
    intros HU HB. induction HB as [B HB|B Y B0 y ys HB HY HR IH]; intros CC cs a a' Fa Fa' Lc HC.
    - inversion Fa; subst. inversion Fa'; subst. apply RL_nil. intros k. rewrite HB. reflexivity.
    - inversion Fa as [|x ? xs ? Lx Fxs]; subst. inversion Fa' as [|x' ? xs' ? Lx' Fxs']; subst. destruct cs as [|[c0 c1] cs]; [discriminate|].
      apply RL_inv_cons in HC. destruct HC as (C & CC0 & EC & [HC0 HC1] & HCC). cbn [fst snd] in HC0, HC1. cbn [map2 concat combine].
      assert (Lo : length (sac_open U r x x') = length y) by (unfold sac_open; rewrite map2_length_eq; congruence).
      eapply (RL_cons _ _ _ (fun k => sacrifice_rows U r (B0 k) (CC0 k) (concat (map2 (sac_open U r) xs xs'))));
        [| |apply (IH CC0 _ xs xs' Fxs Fxs' (eq_add_S _ _ Lc) HCC)].
      + intros k. rewrite HB, EC. cbn [sacrifice_rows]. destruct (C k) as [e0 e1] eqn:Ei.
        rewrite (RL_length _ _ _ HY), <- Lo, firstn_length_app, skipn_length_app.
        instantiate (1 := fun k => dot_check U r (sac_open U r x x') (Y k) (fst (C k)) (snd (C k))).
        cbn beta. rewrite Ei. reflexivity.
      + cbn [fst snd].
        assert (M : forall X x y, arith_shared U X x -> (y = x) -> arith_shared U X (y mod 2 ^ U)).
        { intros X z0 z1 HX ->. pose proof HX as (X1 & X2 & ->). split; [exact X1|]. split; [exact X2|]. rewrite Zmod_mod. reflexivity. }
        apply (dot_check_value U r x x' y (c0 - dotp x y) (c1 - dotp x' y) (fun _ => sac_open U r x x') Y (fun k => fst (C k)) (fun k => snd (C k)) HU Lx Lx'); [|exact HY|eapply M; [exact HC0|ring]|eapply M; [exact HC1|ring]].
        intros _. unfold sac_open. clear. revert x'. induction x as [|u x IH]; intros [|w x']; cbn; try reflexivity. rewrite IH. f_equal. modring.
  Qed.
  Lemma dot_sacrifice_check_many_duo K A a A' a' B b C c0 c1 (s t : ST) : In K widths -> synced2 s t ->
    let U := verif_width K in
    Forall2 (fun x y => length x = length y) a b -> Forall2 (fun x y => length x = length y) a' b ->
    length c0 = length b -> length c1 = length b ->
    RL (RL (arith_shared U)) A a -> RL (RL (arith_shared U)) A' a' -> RL (RL (arith_shared U)) B b -> RL (arith_shared U) C (c0 ++ c1) ->
    duoM i (dot_sacrifice_check_many G H i K (length b) (A i) (A' i) (B i) (C i)) (dot_sacrifice_check_many G H j K (length b) (A j) (A' j) (B j) (C j)) s t
      (fun s' x t' y => synced2 s' t' /\
         x = map (sh_trunc K) (firstn (length b) (C i)) /\ y = map (sh_trunc K) (firstn (length b) (C j)) /\
         (coll s' t' \/ forall n x x' y z z', nth_error a n = Some x -> nth_error a' n = Some x' -> nth_error b n = Some y ->
           nth_error c0 n = Some z -> nth_error c1 n = Some z' -> ((z' - dotp x' y) - challenge G U (duo_seed s t) * (z - dotp x y)) mod 2 ^ U = 0)).
  Proof.
    intros HK Hs U La La' L0 L1 HA HA' HB HC. pose proof (verif_in K HK) as HU. fold U in HU. assert (HU0 : 0 <= U) by (apply in_widths_pos in HU; lia).
    pose proof (RL_firstn_app _ _ _ _ HC) as [HC0 HC1]. rewrite L0 in HC0, HC1.
    set (len := length b) in *.
    unfold dot_sacrifice_check_many. fold U.
    apply (sac_open_duo U (fun r p => concat (map2 (map2 (fun x y => sh_sub U (sh_mulc U x r) y)) (A p) (A' p))) (fun r => concat (map2 (sac_open U r) a a')) (length (concat b))
      (fun r v => bindM (zero_verify G H i U (sacrifice_rows U r (B i) (combine (firstn len (C i)) (skipn len (C i))) v)) (fun _ => retM (map (sh_trunc K) (firstn len (C i)))))
      (fun r v => bindM (zero_verify G H j U (sacrifice_rows U r (B j) (combine (firstn len (C j)) (skipn len (C j))) v)) (fun _ => retM (map (sh_trunc K) (firstn len (C j)))))); auto.
    - intros r. apply RL_concat. apply (RL_map2 (RL (arith_shared U)) (RL (arith_shared U)) (RL (arith_shared U)) (fun _ => map2 (fun x y => sh_sub U (sh_mulc U x r) y))); auto.
      intros P p P' p' HP HP'. unfold sac_open.
      apply (RL_map2 (arith_shared U) (arith_shared U) (arith_shared U) (fun _ x y => sh_sub U (sh_mulc U x r) y)); auto.
      intros V y V' y' HV HV'. apply (sh_sub_ok U HU0); [|exact HV']. apply (sh_mulc_ok U HU0), HV.
    - intros r. clear -La La'. revert a' La'. induction La as [|x y a b E La IH]; intros a' La'; inversion La'; subst; cbn; [reflexivity|].
      rewrite !app_length, IH by assumption. unfold sac_open. rewrite map2_length_eq; congruence.
    - intros s' t' Hs'. cbv zeta. set (r := challenge G U (duo_seed s t)). dbind. apply zero_verify_duo. cbv zeta. intros [EH|HCC]; apply duoM_ret; (split; [exact Hs'|]); (split; [reflexivity|]); (split; [reflexivity|]); [right|left; exact HCC].
      pose proof (RL_combine _ _ _ _ _ _ HC0 HC1) as HQ.
      assert (HW := sacrifice_rows_value U B b r HU0 HB (fun i => combine (firstn len (C i)) (skipn len (C i))) (combine c0 c1) a a' La La' ltac:(rewrite combine_length; lia) HQ).
      pose proof (zero_rows U _ _ HU HW EH) as Z0. clear -Z0 La La' L0 L1. unfold len in *. clear len.
      revert a' c0 c1 La' L0 L1 Z0. induction La as [|u w a b Eu La IH]; intros a' c0 c1 La' L0 L1 Z0.
      + intros [|n]; intros; discriminate.
      + inversion La' as [|u' ? ? ? Eu' La'']; subst. destruct c0 as [|e c0]; [discriminate|]. destruct c1 as [|e' c1]; [discriminate|].
        cbn [map2 combine fst snd] in Z0. inversion Z0 as [|? ? E0 Z1]; subst.
        intros [|n] x x' y z z'; cbn [nth_error]; intros E1 E2 E3 E4 E5.
        * injection E1 as <-. injection E2 as <-. injection E3 as <-. injection E4 as <-. injection E5 as <-. exact E0.
        * eapply (IH l c0 c1); eauto.
    - intros s' t' ri rj vi vj Hs' HCC. dbind. apply zero_verify_duo. intros ? ? _. apply duoM_ret. split; [exact Hs'|]. split; [reflexivity|]. split; [reflexivity|]. left. apply coll_hashed, HCC.
  Qed.
End D.
