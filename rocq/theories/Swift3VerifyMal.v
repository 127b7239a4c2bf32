(** Swift3's verify with one malicious party, for the three kinds of gates. *)
From Coq Require Import Ring Setoid Morphisms.
From Verif Require Import Base Ring RingProofs Prog Sched Conc Duo CheatSpec Rng Net Rel Aby3Proofs Jmp JmpProofs FailProofs IrisProofs SlicedProofs ShareSpec MpcSpec Gf2 GfRing Poly PolyProofs PolyDiv Galois GaloisSpec GaloisPoints GaloisDzkp GaloisMul GaloisGates
  Swift3 Swift3Spec Swift3Proofs Swift3Setup Swift3SetupProofs Dzkp DzkpProofs DzkpSpec DzkpAnd Swift3Verify Swift3VerifyProofs Swift3VerifyKinds Swift3VerifyRun Swift3VerifyGr Swift3VerifyDuo.
Local Open Scope list_scope.

Lemma pi_sizes {A} (O : rops A) red n l m betas r lag xs V p s : verify_pi O red n l m betas r lag xs V p = Ok s -> length (dp_w p) = (n * l)%nat /\ length (dp_a p) = (2 * m + 1)%nat.
Proof.
  unfold verify_pi. destruct (_ || _ || _ || _); [discriminate|]. destruct (Nat.eqb_spec (length (dp_w p)) (n * l)); [|discriminate]. destruct (Nat.eqb_spec (length (dp_a p)) (2 * m + 1)); [|discriminate]. auto.
Qed.
Lemma from_le_range bs : bytes bs -> 0 <= from_le bs < 256 ^ Z.of_nat (length bs).
Proof.
  unfold bytes. induction 1 as [|b bs Hb Hbs IH]; [cbn; lia|]. cbn [from_le fold_right length]. fold (from_le bs). unfold inr in Hb. change (2 ^ 8) with 256 in Hb. rewrite Nat2Z.inj_succ, Z.pow_succ_r by lia. lia.
Qed.
Lemma bc_take_range k bs v rest : bytes bs -> bc_take k bs = Ok (v, rest) -> 0 <= v < 256 ^ Z.of_nat k /\ bytes rest.
Proof.
  intros HB. unfold bc_take. destruct (Nat.ltb_spec (length bs) k); [discriminate|]. intros E. injection E as <- <-. destruct (bytes_cut k bs HB) as [B1 B2]. split; [|exact B2].
  pose proof (from_le_range _ B1) as R. rewrite firstn_length_le in R by lia. exact R.
Qed.
Lemma gf_dec_good bs a rest : bytes bs -> gf_dec bs = Ok (a, rest) -> and_good a /\ bytes rest.
Proof.
  intros HB. unfold gf_dec. destruct (bc_take 8 bs) as [[v r]|] eqn:E; [|discriminate]. cbn [rbind fst snd]. intros X. injection X as <- <-.
  destruct (bc_take_range _ _ _ _ HB E) as [R B]. split; [|exact B]. split; [|exact I]. unfold gf_wf. change (256 ^ Z.of_nat 8) with (2 ^ 64) in R. change (2 ^ 64)%N with (Z.to_N (2 ^ 64)). apply Z2N.inj_lt; lia.
Qed.
Lemma bc_elems_len {A} (dec : list Z -> res (A * list Z)) k : forall bs x rest, bc_elems dec k bs = Ok (x, rest) -> length x = k.
Proof.
  induction k as [|k IH]; intros bs x rest E; cbn in E; [injection E as <- <-; reflexivity|].
  destruct (dec bs) as [[a r1]|]; [|discriminate]. cbn [rbind fst snd] in E. destruct (bc_elems dec k r1) as [[x2 r2]|] eqn:E2; [|discriminate]. cbn in E. injection E as <- <-. cbn. f_equal. exact (IH _ _ _ E2).
Qed.
Lemma poly_dec_good K bs a rest : In K small_widths -> bytes bs -> poly_dec K bs = Ok (a, rest) -> good_poly K a /\ bytes rest.
Proof.
  intros HS HB E. assert (Hd : forall bs a rest, bytes bs -> bc_take (nbytes K) bs = Ok (a, rest) -> inr K a /\ bytes rest).
  { intros bs0 a0 r0 B0 E0. destruct (bc_take_range _ _ _ _ B0 E0) as [R B]. split; [|exact B]. destruct HS as [<-|[<-|[<-|[]]]]; exact R. }
  destruct (bc_list_good (bc_take (nbytes K)) (inr K) Hd bs a rest HB E) as [W B]. split; [|exact B]. split; [exact W|].
  unfold poly_dec, bc_list in E. destruct (bc_take 8 bs) as [[v r]|] eqn:E1; [|discriminate]. cbn [rbind fst snd] in E. destruct (_ <? _); [discriminate|]. apply bc_elems_len in E.
  unfold short. rewrite E. destruct (bc_take_range _ _ _ _ HB E1) as [R _]. rewrite Z2Nat.id by lia. exact (proj2 R).
Qed.

(** ** One kind *)
Section Kind.
  Context {A : Type} (O : rops A) (req : A -> A -> Prop) (wf : A -> Prop).
  Hypothesis HO : ring_ok O req wf.
  Variables (red : A -> res A) (eqb : A -> A -> bool).
  Hypothesis Hred : forall a, wf a -> exists b, red a = Ok b /\ req a b /\ wf b.
  Variable n : nat.
  Hypothesis Hn : (0 < n)%nat.
  Variable cf : forall B : Type, rops B -> list B -> B.
  Variables (xs : list A) (lag : list (list A)).
  Hypothesis Hxs : Forall wf xs.
  Hypothesis Hlag : lagrange_ok O req wf xs lag.
  Variables (l m : nat).
  Hypothesis Hm : length xs = (m + 1)%nat.
  Variable sh : A -> Prop.
  Hypothesis Hshred : forall a b, red a = Ok b -> sh b.
  Variables (enc : A -> list Z) (dec : list Z -> res (A * list Z)).
  Hypothesis HC : codec (good wf sh) enc dec.
  Hypothesis Hdec : forall bs a rest, bytes bs -> dec bs = Ok (a, rest) -> good wf sh a /\ bytes rest.
  Variables (G : rng) (H : hasher).
  Variable draw_el : rstate G -> rstate G * A.
  Hypothesis HD : forall s, good wf sh (snd (draw_el s)).
  Variables (again : A -> bool) (fuel : nat).
  Hypothesis Hl1 : Z.of_nat (n * l) < 2 ^ 64.

  Theorem kind_duo i Vi Vpi Vni Vj Vpj Vnj ei ej (s t : sst G) tr :
    w_p G t = w_p G s -> length Vpi = (l * m)%nat -> wfi wf Vpi ->
    both_end i (dz_verify O red eqb n cf enc dec G H draw_el again fuel i l m lag xs Vi Vpi Vni ei s)
      (dz_verify O red eqb n cf enc dec G H draw_el again fuel (next i) l m lag xs Vj Vpj Vnj ej t) tr ->
    exists m1 c1 o1 r1 m2 c2 o2 r2 p1,
      sent_to i (tr (prev i)) = m1 :: c1 :: o1 :: r1 /\ sent_to (next i) (tr (prev i)) = m2 :: c2 :: o2 :: r2 /\ fits H o1 c1 /\ fits H o2 c2 /\
      proof_dec dec m1 = Ok p1 /\ (length (dp_w p1) = (n * l)%nat /\ Forall wf (dp_w p1)) /\ (length (dp_a p1) = (2 * m + 1)%nat /\ Forall wf (dp_a p1)) /\
      honest_coin i tr = both_coins O red n cf G draw_el l m lag i Vi Vj (w_p G s) ei ej /\
      (firstn 32 o1 = firstn 32 o2 ->
       let coin := coin_of (honest_coin i tr) o1 in
       let betas := coin_weights G draw_el m coin (prev i) in let r := coin_point G draw_el again fuel m coin (prev i) in
       exists s1 s2, verify_pi O red n l m betas r lag xs Vpi p1 = Ok s1 /\ verify_pi O red n l m betas r lag xs Vnj (proof_from_seed n G draw_el l m m2) = Ok s2 /\
         combine_verifications O red eqb n cf l (common_elements G draw_el l (w_p G s) (prev i)) s1 s2 = Ok tt).
  Proof using HO Hred Hn Hxs Hlag Hm Hshred HC Hdec HD Hl1.
    intros Hp LV WV HF. destruct (dz_duo O red eqb n cf enc dec G H draw_el again fuel l m lag xs (good wf sh) HC Hdec i Vi Vpi Vni Vj Vpj Vnj ei ej s t tr Hp) as
      (m1 & c1 & o1 & r1 & m2 & c2 & o2 & r2 & p1 & S1 & S2 & F1 & F2 & D1 & W1 & W2 & EH & s1 & s2 & E1 & E2 & E3); [| exact HD| exact HF|].
    { intros p betas r sp G1 G2 Lb Gb Gr E. destruct (pi_sizes _ _ _ _ _ _ _ _ _ _ _ _ E) as [L1 L2].
      destruct (verify_good O req wf HO red Hred n Hn xs lag Hxs Hlag l m Hm sh Hshred Hl1 betas r Vpi p Lb Gb Gr) as (sp' & E' & GS); try assumption; [rewrite LV; lia|]. rewrite E in E'. injection E' as <-. exact GS. }
    exists m1, c1, o1, r1, m2, c2, o2, r2, p1. destruct (pi_sizes _ _ _ _ _ _ _ _ _ _ _ _ E1) as [L1 L2].
    do 5 (split; [assumption|]). split; [split; [exact L1|exact (good_wf wf sh _ W1)]|]. split; [split; [exact L2|exact (good_wf wf sh _ W2)]|].
    split; [exact EH|]. intros Eo. exists s1, s2. unfold coin_of in E2. rewrite <- Eo in E2. split; [exact E1|]. split; [exact E2|exact E3].
  Qed.
End Kind.

(** ** Multiplications and inner products *)
Section Gr.
  Variables (G : rng) (H : hasher) (K : Z) (fuel : nat).
  Hypothesis HS : In K small_widths.
  Variables (m : nat) (f : list Z).
  Notation d := (mod_degree m).
  Hypothesis Hf : irreducible_poly d = Ok f.
  Notation wf := (Forall (inr K)).
  Notation dr := (draw_poly G K d).
  Variables (n : nat) (cf : forall B : Type, rops B -> list B -> B) (l : nat).
  Hypothesis Hn : (0 < n)%nat.
  Hypothesis Hl : Z.of_nat (n * l) < 2 ^ 64.
  Definition gr_coins i Vi Vj q0 ei ej : list Z :=
    match gr_lagrange K (mul_points (m + 1)) f with Ok lag => both_coins (pz_ops K) (fun c => p_rem K c f) n cf G dr l m lag i Vi Vj q0 ei ej | Err _ => [] end.
  Theorem gr_duo i Vi Vpi Vni Vj Vpj Vnj ei ej (s t : sst G) tr :
    w_p G t = w_p G s -> length Vpi = (l * m)%nat -> wfi wf Vpi ->
    both_end i (gr_verify G H K fuel i n cf l m f Vi Vpi Vni ei s) (gr_verify G H K fuel (next i) n cf l m f Vj Vpj Vnj ej t) tr ->
    exists m1 c1 o1 r1 m2 c2 o2 r2 p1,
      sent_to i (tr (prev i)) = m1 :: c1 :: o1 :: r1 /\ sent_to (next i) (tr (prev i)) = m2 :: c2 :: o2 :: r2 /\ fits H o1 c1 /\ fits H o2 c2 /\
      proof_dec (poly_dec K) m1 = Ok p1 /\ gr_share K n l m p1 /\
      honest_coin i tr = gr_coins i Vi Vj (w_p G s) ei ej /\
      (firstn 32 o1 = firstn 32 o2 ->
       let coin := coin_of (honest_coin i tr) o1 in
       gr_check K f n cf l m Vpi Vnj (common_elements G dr l (w_p G s) (prev i)) (coin_weights G dr m coin (prev i)) (coin_point G dr poly_again fuel m coin (prev i)) p1 (proof_from_seed n G dr l m m2) = Ok tt).
  Proof using HS Hf Hn Hl.
    intros Hp LV WV. destruct (gr_lagrange_ok K HS d m f Hf (mod_degree_size m)) as (lag & El & HL).
    unfold gr_verify, gr_check, gr_verdicts, gr_coins, gr_verify_pi, gr_combine. rewrite El. unfold bindM, resM, liftM. cbn [of_res bind fst snd rbind]. intros HF.
    assert (Hgood : forall s0, good wf short (snd (dr s0))).
    { intros s0. destruct (gr_draw_good G K HS m f Hf s0) as [W L]. split; [exact W|]. unfold sh64, short in *. lia. }
    destruct (kind_duo (pz_ops K) (req K d f) wf (galois_ok K HS d f) (fun c0 => p_rem K c0 f) zlist_eqb (rem_ok K HS d f Hf) n Hn cf (mul_points (m + 1)) lag (points_wf K HS m) HL l m (mul_points_len m)
      short (fun a b E => ltac:(apply (gr_red_sh K HS m f Hf) in E; unfold sh64, short in *; lia)) (poly_enc K) (poly_dec K) (poly_codec K (K_pos K HS)) (fun bs a rest => poly_dec_good K bs a rest HS) G H dr Hgood poly_again fuel Hl
      i Vi Vpi Vni Vj Vpj Vnj ei ej s t tr Hp LV WV HF) as (m1 & c1 & o1 & r1 & m2 & c2 & o2 & r2 & p1 & S1 & S2 & F1 & F2 & D1 & W1 & W2 & EH & HE).
    exists m1, c1, o1, r1, m2, c2, o2, r2, p1. do 5 (split; [assumption|]). split; [split; assumption|]. split; [exact EH|]. intros Eo. destruct (HE Eo) as (s1 & s2 & E1 & E2 & E3). cbv zeta. rewrite E1. cbn [rbind]. rewrite E2. cbn [rbind fst snd]. exact E3.
  Qed.
  Lemma seed_share sd : gr_share K n l m (proof_from_seed n G dr l m sd).
  Proof using HS Hf.
    destruct (from_seed_ok wf n l m sh64 G dr (gr_draw_good G K HS m f Hf) sd) as (L1 & G1 & L2 & G2). split; split; auto; eapply (good_wf wf sh64); eassumption.
  Qed.
  Lemma common_polys k p j : polys K k (common_elements G dr k p j).
  Proof using HS Hf.
    destruct (draw_three_ok G dr (gr_good K) (gr_draw_good G K HS m f Hf) k (rseed G (snd (draw_bytes G 32 p))) j) as [L W]. split; [exact L|]. eapply (good_wf wf sh64); exact W.
  Qed.
  Lemma dr_element q : element K d (snd (dr q)).
  Proof using HS. apply draw_poly_ok, Z.lt_le_incl, (K_pos K HS). Qed.
  Lemma weights_ok coin j : elements K d m (coin_weights G dr m coin j).
  Proof using HS. apply (draw_three_ok G dr (element K d) dr_element). Qed.
  Lemma point_ok coin j : element K d (coin_point G dr poly_again fuel m coin j).
  Proof using HS. apply (draw_points_ok G dr poly_again fuel (element K d) dr_element). Qed.
  Lemma common_element p j k dflt : (k < l)%nat -> element K d (nth k (common_elements G dr l p j) dflt).
  Proof using HS.
    intros Hk. destruct (draw_three_ok G dr (element K d) dr_element l (rseed G (snd (draw_bytes G 32 p))) j) as [L W]. rewrite Forall_forall in W. apply W, nth_In. unfold common_elements in *. rewrite L. exact Hk.
  Qed.
End Gr.

(** ** AND gates *)
Section Gf.
  Variables (G : rng) (H : hasher) (fuel : nat) (l m : nat).
  Hypothesis Hm : and_secure m = true.
  Hypothesis Hl : Z.of_nat (6 * l) < 2 ^ 64.
  Definition gf_coins i Vi Vj q0 ei ej : list Z :=
    match gf_lagrange (and_points (m + 1)) with Ok lag => both_coins gf_ops (@Ok N) 6 c_mul G (gf_draw G) l m lag i Vi Vj q0 ei ej | Err _ => [] end.
  Theorem gf_duo i lag Vi g1 Vni Vj Vpj g2 ei ej (s t : sst G) tr :
    gf_lagrange (and_points (m + 1)) = Ok lag ->
    w_p G t = w_p G s -> length g1 = (l * m)%nat ->
    both_end i (dz_verify gf_ops (@Ok N) N.eqb 6 c_mul gf_enc gf_dec G H (gf_draw G) (gf_again m) fuel i l m lag (and_points (m + 1)) Vi (map and_inputs g1) Vni ei s)
      (dz_verify gf_ops (@Ok N) N.eqb 6 c_mul gf_enc gf_dec G H (gf_draw G) (gf_again m) fuel (next i) l m lag (and_points (m + 1)) Vj Vpj (map and_inputs g2) ej t) tr ->
    exists m1 c1 o1 r1 m2 c2 o2 r2 p1,
      sent_to i (tr (prev i)) = m1 :: c1 :: o1 :: r1 /\ sent_to (next i) (tr (prev i)) = m2 :: c2 :: o2 :: r2 /\ fits H o1 c1 /\ fits H o2 c2 /\
      proof_dec gf_dec m1 = Ok p1 /\ and_proof_share l m p1 /\
      honest_coin i tr = gf_coins i Vi Vj (w_p G s) ei ej /\
      (firstn 32 o1 = firstn 32 o2 ->
       let coin := coin_of (honest_coin i tr) o1 in
       and_check l m g1 g2 (common_elements G (gf_draw G) l (w_p G s) (prev i)) (coin_weights G (gf_draw G) m coin (prev i)) (coin_point G (gf_draw G) (gf_again m) fuel m coin (prev i)) p1
         (proof_from_seed 6 G (gf_draw G) l m m2) = Ok tt).
  Proof using Hm Hl.
    intros El Hp Lg HF. destruct (and_lagrange m (small64 m Hm)) as (lag' & El' & HL). rewrite El in El'. injection El' as <-.
    destruct (kind_duo gf_ops gf_eq gf_wf GF (@Ok N) N.eqb ok_red 6 ltac:(lia) c_mul (and_points (m + 1)) lag (and_points_wf m (small64 m Hm)) HL l m (and_points_len m) (fun _ => True) (fun _ _ _ => I)
      gf_enc gf_dec and_good_codec gf_dec_good G H (gf_draw G) (and_good_draw G) (gf_again m) fuel Hl i Vi (map and_inputs g1) Vni Vj Vpj (map and_inputs g2) ei ej s t tr Hp ltac:(rewrite map_length; exact Lg) (inputs_wf g1) HF)
      as (m1 & c1 & o1 & r1 & m2 & c2 & o2 & r2 & p1 & S1 & S2 & F1 & F2 & D1 & W1 & W2 & EH & HE).
    exists m1, c1, o1, r1, m2, c2, o2, r2, p1. do 5 (split; [assumption|]). split; [split; assumption|]. split; [unfold gf_coins; rewrite El; exact EH|]. intros Eo. destruct (HE Eo) as (s1 & s2 & E1 & E2 & E3). cbv zeta.
    unfold and_check, and_verify_pi, and_combine. rewrite El. cbn [rbind]. rewrite E1. cbn [rbind]. rewrite E2. cbn [rbind]. exact E3.
  Qed.
End Gf.

(** ** The verification functions *)
Lemma mul_verify_eq G H K fuel i ent (s : sst G) l m f : (0 < length (w_mul G s))%nat -> calc_params (length (w_mul G s)) = (l, m) -> irreducible_poly (mod_degree m) = Ok f ->
  let es := pad_entries (l * m) pin_zero (w_mul G s) in
  mul_verify G H K fuel i ent s =
  gr_verify G H K fuel i 6 c_mul l m f (map (fun e => mul_inputs (e_proof e)) es) (map mul_inputs (map e_prev es)) (map mul_inputs (map e_next es)) (ent s) (w_set_mul G s es).
Proof.
  intros Hp Ep Hf es. unfold mul_verify, getM, bindM at 1. cbn [bind fst snd]. rewrite Ep. destruct (calc_params_ok _ _ _ Hp Ep) as (B1 & _). destruct (Nat.ltb_spec (l * m) (length (w_mul G s))); [lia|].
  rewrite Hf, !map_map. unfold bindM, resM, putM, liftM. cbn [of_res bind fst snd]. reflexivity.
Qed.
Lemma dot_verify_eq G H K fuel i ent (s : sst G) l m f : (0 < length (dr_entries (w_dot G s)))%nat -> dot_params (dr_size (w_dot G s)) (length (dr_entries (w_dot G s))) = (l, m) -> irreducible_poly (mod_degree m) = Ok f ->
  let es := pad_dots (w_dot G s) (l * m) in let dot := dr_size (w_dot G s) in
  dot_verify G H K fuel i ent s =
  gr_verify G H K fuel i (4 * dot + 2) (c_dot dot) l m f (map (fun e => dot_inputs (e_proof e)) es) (map dot_inputs (map e_prev es)) (map dot_inputs (map e_next es)) (ent s) (w_set_dot G s (DotReg dot (dr_max (w_dot G s)) es)).
Proof.
  intros Hp Ep Hf es dot. unfold dot_verify, getM, bindM at 1. cbn [bind fst snd]. rewrite Ep. destruct (dot_params_ok _ _ _ _ Hp Ep) as (B1 & _). destruct (Nat.ltb_spec (l * m) (length (dr_entries (w_dot G s)))); [lia|].
  rewrite Hf, !map_map. unfold bindM, resM, putM, liftM. cbn [of_res bind fst snd]. reflexivity.
Qed.
Lemma and_verify_eq G H fuel i ent (s : sst G) l m lag : (0 < length (w_and G s))%nat -> calc_params (length (w_and G s)) = (l, m) -> and_secure m = true -> gf_lagrange (and_points (m + 1)) = Ok lag ->
  let es := pad_entries (l * m) pin_false (w_and G s) in
  and_verify G H fuel i ent s =
  dz_verify gf_ops (@Ok N) N.eqb 6 c_mul gf_enc gf_dec G H (gf_draw G) (gf_again m) fuel i l m lag (and_points (m + 1))
    (map (fun e => and_inputs (e_proof e)) es) (map and_inputs (map e_prev es)) (map and_inputs (map e_next es)) (ent s) (w_set_and G s es).
Proof.
  intros Hp Ep Hm El es. unfold and_verify, getM, bindM at 1. cbn [bind fst snd]. rewrite Ep. destruct (calc_params_ok _ _ _ Hp Ep) as (B1 & _).
  unfold and_set_parameters, getM, bindM. cbn [bind fst snd]. destruct (Nat.ltb_spec (l * m) (length (w_and G s))); [lia|]. rewrite Hm. cbn [negb]. unfold putM, resM, liftM. rewrite El. cbn [of_res bind fst snd]. rewrite !map_map. reflexivity.
Qed.

Lemma inr_dec K x : {inr K x} + {~ inr K x}.
Proof. unfold inr. destruct (Z_le_dec 0 x); [|right; lia]. destruct (Z_lt_dec x (2 ^ K)); [left|right]; lia. Qed.
Lemma polys_dec K k ps : polys K k ps \/ ~ polys K k ps.
Proof.
  unfold polys. destruct (Nat.eq_dec (length ps) k) as [E|]; [|right; tauto]. destruct (Forall_dec (Forall (inr K)) (Forall_dec (inr K) (inr_dec K)) ps); [left|right]; tauto.
Qed.
Lemma gr_share_dec K n l m p : gr_share K n l m p \/ ~ gr_share K n l m p.
Proof. unfold gr_share. destruct (polys_dec K (n * l) (dp_w p)), (polys_dec K (2 * m + 1) (dp_a p)); tauto. Qed.
Definition N_lt_dec' (x y : N) : {(x < y)%N} + {~ (x < y)%N}.
Proof. destruct (N.ltb x y) eqn:E; [left; apply N.ltb_lt; exact E|right; apply N.ltb_nlt; exact E]. Defined.
Lemma u64s_dec k xs : u64s k xs \/ ~ u64s k xs.
Proof.
  unfold u64s. destruct (Nat.eq_dec (length xs) k) as [E|]; [|right; tauto]. destruct (Forall_dec u64 (fun x => N_lt_dec' x (2 ^ 64)) xs); [left|right]; tauto.
Qed.
Lemma and_share_dec l m p : and_proof_share l m p \/ ~ and_proof_share l m p.
Proof. unfold and_proof_share. destruct (u64s_dec (6 * l) (dp_w p)), (u64s_dec (2 * m + 1) (dp_a p)); tauto. Qed.

(** From acceptance of the two proof messages to acceptance in the game of C43. *)
Lemma lift_sound {A B : Type} (diff : list A -> Prop) (same : A -> A -> Prop) (repl : A -> B -> B) (acc acc' : B -> A -> Prop) (lb : B -> Prop) (N : nat) (C : Prop) :
  (forall b r, acc' b r -> C) -> (C \/ ~ C) -> (forall b r, acc' b r -> acc b r) ->
  (C -> (forall rs, diff rs -> (forall r, In r rs -> exists b, acc b r) -> (length rs <= N)%nat) \/
     (forall bs b b' r r', lb bs -> acc (repl b bs) r -> acc (repl b' bs) r' -> same b b')) ->
  (forall rs, diff rs -> (forall r, In r rs -> exists b, acc' b r) -> (length rs <= N)%nat) \/
  (forall bs b b' r r', lb bs -> acc' (repl b bs) r -> acc' (repl b' bs) r' -> same b b').
Proof.
  intros HC [HC'|HC'] Ha HS.
  - destruct (HS HC') as [HS'|HS'].
    + left. intros rs Hd Hr. apply HS'; [exact Hd|]. intros r Hi. destruct (Hr r Hi) as [b Hb]. exists b. apply Ha, Hb.
    + right. intros bs b b' r r' Hb A1 A2. eapply HS'; [exact Hb|apply Ha, A1|apply Ha, A2].
  - left. intros [|r rs] _ Hr; [cbn; lia|]. destruct (Hr r (or_introl eq_refl)) as [b Hb]. destruct (HC' (HC _ _ Hb)).
Qed.
Lemma mul_fits x l m f : (0 < x)%nat -> calc_params x = (l, m) -> irreducible_poly (mod_degree m) = Ok f -> Z.of_nat (6 * l) < 2 ^ 64.
Proof. intros Hp Ep Hf. destruct (calc_params_ok _ _ _ Hp Ep) as (_ & _ & _ & B4). pose proof (degree_small m f Hf). nia. Qed.
Lemma and_fits x l m : (0 < x)%nat -> calc_params x = (l, m) -> and_secure m = true -> Z.of_nat (6 * l) < 2 ^ 64.
Proof. intros Hp Ep Hm. destruct (calc_params_ok _ _ _ Hp Ep) as (_ & _ & _ & B4). pose proof (secure_small m Hm). nia. Qed.
Lemma dot_fits dot x l m f : (0 < x)%nat -> dot_params dot x = (l, m) -> irreducible_poly (mod_degree m) = Ok f -> Z.of_nat ((4 * dot + 2) * l) < 2 ^ 64.
Proof. intros Hp Ep Hf. destruct (dot_params_ok _ _ _ _ Hp Ep) as (_ & _ & _ & B4). pose proof (degree_small m f Hf) as Hd. set (y := ((4 * dot + 2) * l)%nat) in *. clearbody y. clear - B4 Hd. nia. Qed.
Lemma pad_prev {A} (P : A -> Prop) k d (es : list (entry A)) : P d -> Forall P (map e_prev es) -> Forall P (map e_prev (pad_entries k d es)).
Proof. intros Hd HF. unfold pad_entries. rewrite Forall_map in *. apply Forall_resize; [exact Hd|exact HF]. Qed.
Lemma pad_next {A} (P : A -> Prop) k d (es : list (entry A)) : P d -> Forall P (map e_next es) -> Forall P (map e_next (pad_entries k d es)).
Proof. intros Hd HF. unfold pad_entries. rewrite Forall_map in *. apply Forall_resize; [exact Hd|exact HF]. Qed.
Lemma nth_pad {A} k (d : A) es g : (length es <= k)%nat -> (g < length es)%nat -> nth g (pad_entries k d es) (Entry d d d) = nth g es (Entry d d d).
Proof. intros Hk Hg. unfold pad_entries, resize. rewrite firstn_all2 by exact Hk. apply app_nth1. exact Hg. Qed.
Lemma pad_dots_len d k : (length (dr_entries d) <= k)%nat -> length (pad_dots d k) = k.
Proof. intros Hk. unfold pad_dots. rewrite app_length, map_length, <- app_length, firstn_skipn. apply resize_len, Hk. Qed.
Lemma nth_zip {A B C} (f : A -> B -> C) d e x : forall a b q, (q < length a)%nat -> length b = length a -> nth q (map2 f a b) x = f (nth q a d) (nth q b e).
Proof. induction a as [|u a IH]; intros [|v b] q Hq L; try (cbn in *; lia). destruct q as [|q]; [reflexivity|]. cbn [map2 nth]. apply IH; cbn in *; lia. Qed.
Lemma zip_len {A B C} (f : A -> B -> C) a b : length b = length a -> length (map2 f a b) = length a.
Proof. revert b. induction a as [|u a IH]; intros [|v b] L; cbn in *; try lia. f_equal. apply IH. lia. Qed.
Lemma nth_replaced {A} k (x d : A) l : (k < length l)%nat -> nth k (replaced k x l) d = x.
Proof. intros Hk. unfold replaced. rewrite app_nth2 by (rewrite firstn_length; lia). rewrite firstn_length_le by lia. rewrite Nat.sub_diag. reflexivity. Qed.
(** Elements of the field *)
Section GfElements.
  Variables (G : rng) (fuel l m : nat).
  Notation dr := (gf_draw G).
  Lemma gf_u64 q : u64 (snd (dr q)).
  Proof. exact (proj1 (and_good_draw G q)). Qed.
  Lemma gf_weights coin j : u64s m (coin_weights G dr m coin j).
  Proof. apply (draw_three_ok G dr u64 gf_u64). Qed.
  Lemma gf_point coin j : u64 (coin_point G dr (gf_again m) fuel m coin j).
  Proof. apply (draw_points_ok G dr (gf_again m) fuel u64 gf_u64). Qed.
  Lemma gf_common p j k dflt : (k < l)%nat -> u64 (nth k (common_elements G dr l p j) dflt).
  Proof.
    intros Hk. destruct (draw_three_ok G dr u64 gf_u64 l (rseed G (snd (draw_bytes G 32 p))) j) as [L W]. rewrite Forall_forall in W. apply W, nth_In. unfold common_elements in *. rewrite L. exact Hk.
  Qed.
  Lemma gf_seed_share sd : and_proof_share l m (proof_from_seed 6 G dr l m sd).
  Proof.
    destruct (from_seed_ok gf_wf 6 l m (fun _ => True) G dr (and_good_draw G) sd) as (L1 & G1 & L2 & G2). split; split; auto; eapply (good_wf gf_wf (fun _ => True)); eassumption.
  Qed.
End GfElements.

(** ** What a wrong statement means: the value that the cheater sent is not the one it should have sent *)
Lemma dotp_zdot a b : dotp a b = zdot a b.
Proof. reflexivity. Qed.
Lemma resize_id {A} k (d : A) x : length x = k -> resize k d x = x.
Proof. intros L. unfold resize. rewrite L, Nat.sub_diag, firstn_all2 by lia. apply app_nil_r. Qed.
Lemma resize_twice {A} k n (d : A) x : (length x <= k <= n)%nat -> resize n d (resize k d x) = resize n d x.
Proof.
  intros HL. unfold resize. rewrite !(firstn_all2 x) by lia. rewrite firstn_all2 by (rewrite app_length, repeat_length; lia). rewrite app_length, repeat_length, <- app_assoc, <- repeat_app. f_equal. f_equal. lia.
Qed.
Lemma resize_repeat {A} k n (d : A) : (k <= n)%nat -> resize n d (repeat d k) = repeat d n.
Proof. intros HL. unfold resize. rewrite firstn_all2 by (rewrite repeat_length; lia). rewrite repeat_length, <- repeat_app. f_equal. lia. Qed.
Lemma add_zeros_r K n x : Forall (inr K) x -> (length x <= n)%nat -> map2 (radd K) (resize n 0 x) (repeat 0 n) = resize n 0 x.
Proof.
  intros HF HL. assert (G : forall y k, Forall (inr K) y -> length y = k -> map2 (radd K) y (repeat 0 k) = y).
  { induction y as [|u y IH]; intros [|k] Hy L; try discriminate; [reflexivity|]. inversion_clear Hy. cbn [map2 repeat]. rewrite IH by (auto; injection L; auto). f_equal. unfold radd, inr in *. rewrite Z.add_0_r. apply Z.mod_small. lia. }
  unfold inr in HF. destruct x as [|u x]; [unfold resize; rewrite firstn_nil; cbn [app length]; rewrite Nat.sub_0_r; clear; induction n as [|n IH]; [reflexivity|cbn [repeat map2]; rewrite IH; unfold radd; rewrite Zmod_0_l; reflexivity]|].
  apply G; [|apply resize_len, HL]. apply Forall_resize; [|exact HF]. inversion_clear HF. unfold inr. lia.
Qed.
Lemma map2_radd_comm K x : forall y, map2 (radd K) x y = map2 (radd K) y x.
Proof. induction x as [|u x IH]; intros [|v y]; try reflexivity. cbn. rewrite IH. f_equal. unfold radd. f_equal. lia. Qed.
Lemma zdot_resize n x : forall y, length x = length y -> (length x <= n)%nat -> zdot (resize n 0 x) (resize n 0 y) = zdot x y.
Proof.
  revert n. induction x as [|u x IH]; intros n [|v y] L HL; try discriminate.
  - unfold resize. rewrite firstn_nil. cbn [app length]. rewrite Nat.sub_0_r. clear. induction n as [|n IH]; [reflexivity|]. unfold zdot in *. cbn [repeat map2 fold_right] in *. rewrite IH. reflexivity.
  - destruct n as [|n]; [cbn in HL; lia|]. unfold resize. cbn [firstn length Nat.sub app]. unfold zdot. cbn [map2 fold_right]. f_equal. apply IH; cbn in *; lia.
Qed.
