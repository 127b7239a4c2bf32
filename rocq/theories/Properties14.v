(** Properties C42 (Swift3: joint messages against a malicious party) and C48 (Swift3's verify against one). *)
From Verif Require Import Base Ring RingProofs Prog Sched Conc Duo CheatSpec Emits Session Session3 Session3Proofs MpcSpec ShareSpec Rng Rel Net Aby3 Aby3Proofs Poly PolyProofs Galois Dzkp DzkpSpec DzkpAnd GaloisSpec GaloisGates GaloisSound GaloisMul Jmp JmpProofs Swift3 Swift3Spec Swift3Proofs
  Properties4 Properties10 Properties11 Properties13 Swift3Verify Swift3VerifySpec Swift3VerifyProofs Swift3VerifyKinds Swift3VerifyRun Swift3VerifyGr Swift3VerifyMain Swift3VerifyDuo Swift3VerifyMal Session3Honest DzkpProofs SpecProofs.
Local Open Scope list_scope.

(** ** C48 *)
(** Multiplications.  Two honest parties that end mul_verify have checked the cheater's proof, under weights and a
    point that come from a coin to which they contributed h; nothing the cheater does changes h. *)
Theorem C48_mul : forall G H K fuel i ei ej (s t : sst G) l m f, In K [8; 16; 32] ->
  w_p G t = w_p G s -> (0 < length (w_mul G s))%nat -> length (w_mul G t) = length (w_mul G s) ->
  calc_params (length (w_mul G s)) = (l, m) -> irreducible_poly (mod_degree m) = Ok f -> Forall (mul_wf K) (map e_prev (w_mul G s)) ->
  let gates1 := map e_prev (pad_entries (l * m) pin_zero (w_mul G s)) in
  let gates2 := map e_next (pad_entries (l * m) pin_zero (w_mul G t)) in
  let dr := draw_poly G K (mod_degree m) in
  exists h, forall tr, both_end i (mul_verify G H K fuel i ei s) (mul_verify G H K fuel (next i) ej t) tr ->
    honest_coin i tr = h /\
    exists m1 c1 o1 m2 c2 o2 p1, cheater_sent i tr m1 c1 o1 m2 c2 o2 /\ fits H o1 c1 /\ fits H o2 c2 /\
      proof_dec (poly_dec K) m1 = Ok p1 /\ gr_share K 6 l m p1 /\
      (firstn 32 o1 = firstn 32 o2 -> let coin := coin_of h o1 in
       mul_check K f l m gates1 gates2 (common_elements G dr l (w_p G s) (prev i)) (coin_weights G dr m coin (prev i)) (coin_point G dr poly_again fuel m coin (prev i))
         p1 (proof_from_seed 6 G dr l m m2) = Ok tt).
Proof.
  intros G H K fuel i ei ej s t l m f HS Hp Hpos Hlen Ep Hf W gates1 gates2 dr.
  set (es := pad_entries (l * m) pin_zero (w_mul G s)) in *. set (et := pad_entries (l * m) pin_zero (w_mul G t)) in *.
  exists (gr_coins G K m f 6 c_mul l i (map (fun e => mul_inputs (e_proof e)) es) (map (fun e => mul_inputs (e_proof e)) et) (w_p G s) (ei s) (ej t)).
  intros tr HF. pose proof (mul_fits _ l m f Hpos Ep Hf) as Hl.
  rewrite (mul_verify_eq G H K fuel i ei s l m f Hpos Ep Hf) in HF. rewrite (mul_verify_eq G H K fuel (next i) ej t l m f) in HF; [|congruence..|exact Hf].
  destruct (calc_params_ok _ _ _ Hpos Ep) as (B1 & _). pose proof (K_pos K HS) as HK.
  edestruct (gr_duo G H K fuel HS m f Hf 6 c_mul l ltac:(lia) Hl i) with (4 := HF) as
    (m1 & c1 & o1 & r1 & m2 & c2 & o2 & r2 & p1 & S1 & S2 & F1 & F2 & D1 & W1 & EH & HE).
  { exact Hp. }
  { rewrite !map_length. apply resize_len, B1. }
  { apply (kind_wfi K mul_inputs (mul_wf K) 6 (mul_inp K)). apply pad_prev; [apply pin_zero_wf; lia|exact W]. }
  split; [exact EH|]. exists m1, c1, o1, m2, c2, o2, p1. split; [split; eexists; eassumption|]. do 4 (split; [assumption|]). rewrite EH in HE. exact HE.
Qed.
Print Assumptions C48_mul.
(** A wrong multiplication of the cheater: for all but one class of values theta (chosen before its proof) of one of
    the common elements, whatever proof (m1, m2) the cheater sends to the two honest parties, they both accept only
    if the point that comes out of the coin is one of at most 2m, or one of the weights is a fixed one. *)
Theorem C48_mul_sound : forall K l m f (es et : list (entry (pinput Z))) ts j k, In K [8; 16; 32] ->
  (0 < length es)%nat -> length et = length es -> calc_params (length es) = (l, m) -> irreducible_poly (mod_degree m) = Ok f ->
  Forall (mul_wf K) (map e_prev es) -> Forall (mul_wf K) (map e_next et) -> polys K l ts -> (j < l)%nat -> (k < m)%nat -> (j * m + k < length es)%nat ->
  let z := Entry pin_zero pin_zero pin_zero in
  ~ mul_correct K (mul_join K (e_prev (nth (j * m + k) es z)) (e_next (nth (j * m + k) et z))) ->
  exists bad, forall G H fuel i ei ej (s t : sst G) theta,
  let dr := draw_poly G K (mod_degree m) in
  w_mul G s = es -> w_mul G t = et -> w_p G t = w_p G s ->
  common_elements G dr l (w_p G s) (prev i) = replaced j theta ts -> ~ same_mod2 theta bad ->
  forall m1 m2,
  let accepted betas r := exists tr c1 o1 c2 o2,
    both_end i (mul_verify G H K fuel i ei s) (mul_verify G H K fuel (next i) ej t) tr /\ cheater_sent i tr m1 c1 o1 m2 c2 o2 /\
    firstn 32 o1 = firstn 32 o2 /\ let coin := coin_of (honest_coin i tr) o1 in betas = coin_weights G dr m coin (prev i) /\ r = coin_point G dr poly_again fuel m coin (prev i) in
  (forall rs, different_mod2 rs -> (forall r, In r rs -> exists betas, accepted betas r) -> (length rs <= 2 * m)%nat) \/
  (forall betas b b' r r', length betas = m -> accepted (replaced k b betas) r -> accepted (replaced k b' betas) r' -> same_mod2 b b').
Proof.
  intros K l m f es et ts j k HS Hpos Hlen Ep Hf W1 W2 Ht Hj Hk Hg z Hbad. destruct (calc_params_ok _ _ _ Hpos Ep) as (B1 & _). pose proof (K_pos K HS) as HK.
  set (ps := pad_entries (l * m) pin_zero es). set (pt := pad_entries (l * m) pin_zero et).
  assert (Ls : length ps = (l * m)%nat) by (apply resize_len; lia). assert (Lt : length pt = (l * m)%nat) by (apply resize_len; lia).
  set (gates := map2 (mul_join K) (map e_prev ps) (map e_next pt)).
  assert (Lg : length gates = (l * m)%nat) by (unfold gates; rewrite zip_len; rewrite !map_length; lia).
  assert (Hnth : forall q, (q < l * m)%nat -> nth q gates pin_zero = mul_join K (e_prev (nth q ps z)) (e_next (nth q pt z))).
  { intros q Hq. unfold gates. rewrite (nth_zip _ pin_zero pin_zero) by (rewrite !map_length; lia). f_equal; [exact (map_nth e_prev ps z q)|exact (map_nth e_next pt z q)]. }
  destruct (C43_mul_sound K l m f gates (map e_prev ps) (map e_next pt) ts j k HS Hf) as (bad & HB); try assumption.
  { split; [apply pad_prev; [apply pin_zero_wf; lia|exact W1]|]. split; [apply pad_next; [apply pin_zero_wf; lia|exact W2]|]. rewrite !map_length, Lg, Ls, Lt. split; [reflexivity|]. split; [reflexivity|].
    intros q Hq. rewrite (Hnth q Hq). f_equal; symmetry; [exact (map_nth e_prev ps z q)|exact (map_nth e_next pt z q)]. }
  { rewrite (Hnth (j * m + k)%nat) by nia. unfold ps, pt, z. rewrite !nth_pad by lia. exact Hbad. }
  exists bad. intros G H fuel i ei ej s t theta dr Es Et Hp Hc Hth m1 m2 accepted. subst es et.
  destruct (C48_mul G H K fuel i ei ej s t l m f HS Hp Hpos Hlen Ep Hf W1) as (h & Hh). cbv zeta in Hh. fold dr in Hh.
  assert (Eth : element K (mod_degree m) theta).
  { pose proof (common_element G K HS m l (w_p G s) (prev i) j [] Hj) as E. fold dr in E. rewrite Hc, nth_replaced in E by (rewrite (proj1 Ht); exact Hj). exact E. }
  set (Good := exists p1, proof_dec (poly_dec K) m1 = Ok p1 /\ gr_share K 6 l m p1).
  assert (Dec : Good \/ ~ Good).
  { unfold Good. destruct (proof_dec (poly_dec K) m1) as [p1|e]; [|right; intros (p1 & E & _); discriminate]. destruct (gr_share_dec K 6 l m p1) as [Y|Y]; [left; eauto|right; intros (p1' & E & X); congruence]. }
  assert (Acc : forall betas r, accepted betas r -> exists p1, proof_dec (poly_dec K) m1 = Ok p1 /\ gr_share K 6 l m p1 /\ elements K (mod_degree m) m betas /\ element K (mod_degree m) r /\
    mul_check K f l m (map e_prev ps) (map e_next pt) (replaced j theta ts) betas r p1 (proof_from_seed 6 G dr l m m2) = Ok tt).
  { intros betas r (tr & c1 & o1 & c2 & o2 & HF & (S1 & S2) & Eo & Eb & Er). destruct (Hh tr HF) as (EH & m1' & c1' & o1' & m2' & c2' & o2' & p1 & (S1' & S2') & F1 & F2 & D & Gp & HE).
    destruct S1 as (r1 & S1). destruct S2 as (r2 & S2). destruct S1' as (r1' & S1'). destruct S2' as (r2' & S2'). rewrite S1 in S1'. injection S1' as <- <- <- _. rewrite S2 in S2'. injection S2' as <- <- <- _.
    exists p1. split; [exact D|]. split; [exact Gp|]. specialize (HE Eo). rewrite <- EH, <- Eb, <- Er, Hc in HE. subst betas r. split; [apply (weights_ok G K HS m)|]. split; [apply (point_ok G K fuel HS m)|exact HE]. }
  destruct Dec as [(p1 & D & Gp)|Dec].
  - apply (lift_sound different_mod2 same_mod2 (fun b bs => replaced k b bs) (fun betas r => elements K (mod_degree m) m betas /\ element K (mod_degree m) r /\ mul_check K f l m (map e_prev ps) (map e_next pt) (replaced j theta ts) betas r p1 (proof_from_seed 6 G dr l m m2) = Ok tt)
      accepted (fun bs => length bs = m) (2 * m) True); [auto|auto| |].
    + intros b r Ha. destruct (Acc b r Ha) as (p1' & D' & _ & X). rewrite D in D'. injection D' as <-. exact X.
    + intros _. exact (HB theta Eth Hth p1 _ Gp (seed_share G K HS m f Hf 6 l m2)).
  - left. intros [|r rs] _ Hr; [cbn; lia|]. destruct (Hr r (or_introl eq_refl)) as (b & Hb). destruct (Acc _ _ Hb) as (p1 & D & Gp & _). destruct Dec. exists p1. auto.
Qed.
Print Assumptions C48_mul_sound.

(** Inner products. *)
Theorem C48_dot : forall G H K fuel i ei ej (s t : sst G) l m f, In K [8; 16; 32] ->
  let dot := dr_size (w_dot G s) in let gates := length (dr_entries (w_dot G s)) in
  w_p G t = w_p G s -> (0 < gates)%nat -> length (dr_entries (w_dot G t)) = gates -> dr_size (w_dot G t) = dot ->
  dot_params dot gates = (l, m) -> irreducible_poly (mod_degree m) = Ok f ->
  let gates1 := map e_prev (pad_dots (w_dot G s) (l * m)) in
  let gates2 := map e_next (pad_dots (w_dot G t) (l * m)) in
  Forall (dot_wf K dot) gates1 ->
  let dr := draw_poly G K (mod_degree m) in
  exists h, forall tr, both_end i (dot_verify G H K fuel i ei s) (dot_verify G H K fuel (next i) ej t) tr ->
    honest_coin i tr = h /\
    exists m1 c1 o1 m2 c2 o2 p1, cheater_sent i tr m1 c1 o1 m2 c2 o2 /\ fits H o1 c1 /\ fits H o2 c2 /\
      proof_dec (poly_dec K) m1 = Ok p1 /\ gr_share K (4 * dot + 2) l m p1 /\
      (firstn 32 o1 = firstn 32 o2 -> let coin := coin_of h o1 in
       dot_check K f dot l m gates1 gates2 (common_elements G dr l (w_p G s) (prev i)) (coin_weights G dr m coin (prev i)) (coin_point G dr poly_again fuel m coin (prev i))
         p1 (proof_from_seed (4 * dot + 2) G dr l m m2) = Ok tt).
Proof.
  intros G H K fuel i ei ej s t l m f HS dot gates Hp Hpos Hlen Hsz Ep Hf gates1 gates2 W dr.
  set (es := pad_dots (w_dot G s) (l * m)) in *. set (et := pad_dots (w_dot G t) (l * m)) in *.
  exists (gr_coins G K m f (4 * dot + 2) (c_dot dot) l i (map (fun e => dot_inputs (e_proof e)) es) (map (fun e => dot_inputs (e_proof e)) et) (w_p G s) (ei s) (ej t)).
  intros tr HF. pose proof (dot_fits dot _ l m f Hpos Ep Hf) as Hl.
  rewrite (dot_verify_eq G H K fuel i ei s l m f Hpos Ep Hf) in HF. rewrite (dot_verify_eq G H K fuel (next i) ej t l m f) in HF; [|congruence|congruence|exact Hf]. rewrite Hsz in HF. cbv zeta in HF. fold dot in HF.
  destruct (dot_params_ok _ _ _ _ Hpos Ep) as (B1 & _). pose proof (K_pos K HS) as HK.
  edestruct (gr_duo G H K fuel HS m f Hf (4 * dot + 2) (c_dot dot) l ltac:(lia) Hl i) with (4 := HF) as
    (m1 & c1 & o1 & r1 & m2 & c2 & o2 & r2 & p1 & S1 & S2 & F1 & F2 & D1 & W1 & EH & HE).
  { exact Hp. }
  { rewrite !map_length. apply pad_dots_len, B1. }
  { apply (kind_wfi K dot_inputs (dot_wf K dot) (4 * dot + 2) (dot_inp K dot)). exact W. }
  split; [exact EH|]. exists m1, c1, o1, m2, c2, o2, p1. split; [split; eexists; eassumption|]. do 4 (split; [assumption|]). rewrite EH in HE. exact HE.
Qed.
Print Assumptions C48_dot.
Theorem C48_dot_sound : forall K l m f (ds dt : dotreg) ts j k, In K [8; 16; 32] ->
  let dot := dr_size ds in let gates := length (dr_entries ds) in
  (0 < gates)%nat -> length (dr_entries dt) = gates -> dr_size dt = dot -> dot_params dot gates = (l, m) -> irreducible_poly (mod_degree m) = Ok f ->
  let gates1 := map e_prev (pad_dots ds (l * m)) in let gates2 := map e_next (pad_dots dt (l * m)) in
  Forall (dot_wf K dot) gates1 -> Forall (dot_wf K dot) gates2 -> polys K l ts -> (j < l)%nat -> (k < m)%nat ->
  ~ dot_correct K (dot_join K (nth (j * m + k) gates1 din_nil) (nth (j * m + k) gates2 din_nil)) ->
  exists bad, forall G H fuel i ei ej (s t : sst G) theta,
  let dr := draw_poly G K (mod_degree m) in
  w_dot G s = ds -> w_dot G t = dt -> w_p G t = w_p G s ->
  common_elements G dr l (w_p G s) (prev i) = replaced j theta ts -> ~ same_mod2 theta bad ->
  forall m1 m2,
  let accepted betas r := exists tr c1 o1 c2 o2,
    both_end i (dot_verify G H K fuel i ei s) (dot_verify G H K fuel (next i) ej t) tr /\ cheater_sent i tr m1 c1 o1 m2 c2 o2 /\
    firstn 32 o1 = firstn 32 o2 /\ let coin := coin_of (honest_coin i tr) o1 in betas = coin_weights G dr m coin (prev i) /\ r = coin_point G dr poly_again fuel m coin (prev i) in
  (forall rs, different_mod2 rs -> (forall r, In r rs -> exists betas, accepted betas r) -> (length rs <= 2 * m)%nat) \/
  (forall betas b b' r r', length betas = m -> accepted (replaced k b betas) r -> accepted (replaced k b' betas) r' -> same_mod2 b b').
Proof.
  intros K l m f ds dt ts j k HS dot gs Hpos Hlen Hsz Ep Hf gates1 gates2 W1 W2 Ht Hj Hk Hbad. destruct (dot_params_ok _ _ _ _ Hpos Ep) as (B1 & _). pose proof (K_pos K HS) as HK.
  assert (Ls : length gates1 = (l * m)%nat) by (unfold gates1; rewrite map_length; apply pad_dots_len, B1).
  assert (Lt : length gates2 = (l * m)%nat) by (unfold gates2; rewrite map_length; apply pad_dots_len; rewrite Hlen; exact B1).
  set (gates := map2 (dot_join K) gates1 gates2).
  assert (Lg : length gates = (l * m)%nat) by (unfold gates; rewrite zip_len; congruence).
  assert (Hnth : forall q, (q < l * m)%nat -> nth q gates din_nil = dot_join K (nth q gates1 din_nil) (nth q gates2 din_nil)).
  { intros q Hq. unfold gates. apply nth_zip; congruence. }
  destruct (C43_dot_sound K dot l m f gates gates1 gates2 ts j k HS Hf) as (bad & HB); try assumption.
  { split; [exact W1|]. split; [exact W2|]. split; [congruence|]. split; [congruence|]. rewrite Lg. exact Hnth. }
  { rewrite (Hnth (j * m + k)%nat) by nia. exact Hbad. }
  exists bad. intros G H fuel i ei ej s t theta dr Es Et Hp Hc Hth m1 m2 accepted. subst ds dt.
  destruct (C48_dot G H K fuel i ei ej s t l m f HS Hp Hpos Hlen Hsz Ep Hf W1) as (h & Hh). cbv zeta in Hh. fold dr dot in Hh.
  assert (Eth : element K (mod_degree m) theta).
  { pose proof (common_element G K HS m l (w_p G s) (prev i) j [] Hj) as E. fold dr in E. rewrite Hc, nth_replaced in E by (rewrite (proj1 Ht); exact Hj). exact E. }
  set (Good := exists p1, proof_dec (poly_dec K) m1 = Ok p1 /\ gr_share K (4 * dot + 2) l m p1).
  assert (Dec : Good \/ ~ Good).
  { unfold Good. destruct (proof_dec (poly_dec K) m1) as [p1|e]; [|right; intros (p1 & E & _); discriminate]. destruct (gr_share_dec K (4 * dot + 2) l m p1) as [Y|Y]; [left; eauto|right; intros (p1' & E & X); congruence]. }
  assert (Acc : forall betas r, accepted betas r -> exists p1, proof_dec (poly_dec K) m1 = Ok p1 /\ gr_share K (4 * dot + 2) l m p1 /\ elements K (mod_degree m) m betas /\ element K (mod_degree m) r /\
    dot_check K f dot l m gates1 gates2 (replaced j theta ts) betas r p1 (proof_from_seed (4 * dot + 2) G dr l m m2) = Ok tt).
  { intros betas r (tr & c1 & o1 & c2 & o2 & HF & (S1 & S2) & Eo & Eb & Er). destruct (Hh tr HF) as (EH & m1' & c1' & o1' & m2' & c2' & o2' & p1 & (S1' & S2') & F1 & F2 & D & Gp & HE).
    destruct S1 as (r1 & S1). destruct S2 as (r2 & S2). destruct S1' as (r1' & S1'). destruct S2' as (r2' & S2'). rewrite S1 in S1'. injection S1' as <- <- <- _. rewrite S2 in S2'. injection S2' as <- <- <- _.
    exists p1. split; [exact D|]. split; [exact Gp|]. specialize (HE Eo). rewrite <- EH, <- Eb, <- Er, Hc in HE. subst betas r. split; [apply (weights_ok G K HS m)|]. split; [apply (point_ok G K fuel HS m)|exact HE]. }
  destruct Dec as [(p1 & D & Gp)|Dec].
  - apply (lift_sound different_mod2 same_mod2 (fun b bs => replaced k b bs) (fun betas r => elements K (mod_degree m) m betas /\ element K (mod_degree m) r /\ dot_check K f dot l m gates1 gates2 (replaced j theta ts) betas r p1 (proof_from_seed (4 * dot + 2) G dr l m m2) = Ok tt)
      accepted (fun bs => length bs = m) (2 * m) True); [auto|auto| |].
    + intros b r Ha. destruct (Acc b r Ha) as (p1' & D' & _ & X). rewrite D in D'. injection D' as <-. exact X.
    + intros _. exact (HB theta Eth Hth p1 _ Gp (seed_share G K HS m f Hf (4 * dot + 2) l m2)).
  - left. intros [|r rs] _ Hr; [cbn; lia|]. destruct (Hr r (or_introl eq_refl)) as (b & Hb). destruct (Acc _ _ Hb) as (p1 & D & Gp & _). destruct Dec. exists p1. auto.
Qed.
Print Assumptions C48_dot_sound.

(** AND gates, one per bit. *)
Theorem C48_and : forall G H fuel i ei ej (s t : sst G) l m,
  w_p G t = w_p G s -> (0 < length (w_and G s))%nat -> length (w_and G t) = length (w_and G s) ->
  calc_params (length (w_and G s)) = (l, m) ->
  let gates1 := map e_prev (pad_entries (l * m) pin_false (w_and G s)) in
  let gates2 := map e_next (pad_entries (l * m) pin_false (w_and G t)) in
  exists h, forall tr, both_end i (and_verify G H fuel i ei s) (and_verify G H fuel (next i) ej t) tr ->
    2 ^ 40 * (2 * Z.of_nat m + 1) < 2 ^ 64 - Z.of_nat m /\ honest_coin i tr = h /\
    exists m1 c1 o1 m2 c2 o2 p1, cheater_sent i tr m1 c1 o1 m2 c2 o2 /\ fits H o1 c1 /\ fits H o2 c2 /\
      proof_dec gf_dec m1 = Ok p1 /\ and_proof_share l m p1 /\
      (firstn 32 o1 = firstn 32 o2 -> let coin := coin_of h o1 in
       and_check l m gates1 gates2 (common_elements G (gf_draw G) l (w_p G s) (prev i)) (coin_weights G (gf_draw G) m coin (prev i)) (coin_point G (gf_draw G) (gf_again m) fuel m coin (prev i))
         p1 (proof_from_seed 6 G (gf_draw G) l m m2) = Ok tt).
Proof.
  intros G H fuel i ei ej s t l m Hp Hpos Hlen Ep gates1 gates2.
  set (es := pad_entries (l * m) pin_false (w_and G s)) in *. set (et := pad_entries (l * m) pin_false (w_and G t)) in *.
  exists (gf_coins G l m i (map (fun e => and_inputs (e_proof e)) es) (map (fun e => and_inputs (e_proof e)) et) (w_p G s) (ei s) (ej t)).
  intros tr HF. destruct (calc_params_ok _ _ _ Hpos Ep) as (B1 & _).
  assert (Hm : and_secure m = true).
  { destruct (and_secure m) eqn:Hm; [reflexivity|exfalso]. destruct HF as ((x & L) & _).
    unfold and_verify, getM, bindM at 1 in L. cbn [bind fst snd] in L. rewrite Ep in L. unfold and_set_parameters, getM, bindM in L. cbn [bind fst snd] in L.
    destruct (Nat.ltb_spec (l * m) (length (w_and G s))); [lia|]. rewrite Hm in L. cbn in L. inversion L. }
  split; [apply Z.ltb_lt, Hm|]. pose proof (and_fits _ l m Hpos Ep Hm) as Hl. destruct (and_lagrange m (small64 m Hm)) as (lag & El & _).
  rewrite (and_verify_eq G H fuel i ei s l m lag Hpos Ep Hm El) in HF. rewrite (and_verify_eq G H fuel (next i) ej t l m lag) in HF; [|congruence|congruence|exact Hm|exact El].
  edestruct (gf_duo G H fuel l m Hm Hl i) with (4 := HF) as (m1 & c1 & o1 & r1 & m2 & c2 & o2 & r2 & p1 & S1 & S2 & F1 & F2 & D1 & W1 & EH & HE).
  { exact El. }
  { exact Hp. }
  { rewrite !map_length. apply resize_len, B1. }
  split; [exact EH|]. exists m1, c1, o1, m2, c2, o2, p1. split; [split; eexists; eassumption|]. do 4 (split; [assumption|]). rewrite EH in HE. exact HE.
Qed.
Print Assumptions C48_and.
Theorem C48_and_sound : forall l m (es et : list (entry (pinput bool))) ts j k,
  (0 < length es)%nat -> length et = length es -> calc_params (length es) = (l, m) -> u64s l ts -> (j < l)%nat -> (k < m)%nat -> (j * m + k < length es)%nat ->
  let z := Entry pin_false pin_false pin_false in
  ~ and_correct (and_join (e_prev (nth (j * m + k) es z)) (e_next (nth (j * m + k) et z))) ->
  exists bad, forall G H fuel i ei ej (s t : sst G) theta,
  let dr := gf_draw G in
  w_and G s = es -> w_and G t = et -> w_p G t = w_p G s ->
  common_elements G dr l (w_p G s) (prev i) = replaced j theta ts -> theta <> bad ->
  forall m1 m2,
  let accepted betas r := exists tr c1 o1 c2 o2,
    both_end i (and_verify G H fuel i ei s) (and_verify G H fuel (next i) ej t) tr /\ cheater_sent i tr m1 c1 o1 m2 c2 o2 /\
    firstn 32 o1 = firstn 32 o2 /\ let coin := coin_of (honest_coin i tr) o1 in betas = coin_weights G dr m coin (prev i) /\ r = coin_point G dr (gf_again m) fuel m coin (prev i) in
  (forall rs, NoDup rs -> (forall r, In r rs -> exists betas, accepted betas r) -> (length rs <= 2 * m)%nat) \/
  (forall betas b b' r r', length betas = m -> accepted (replaced k b betas) r -> accepted (replaced k b' betas) r' -> b = b').
Proof.
  intros l m es et ts j k Hpos Hlen Ep Ht Hj Hk Hg z Hbad. destruct (calc_params_ok _ _ _ Hpos Ep) as (B1 & _).
  destruct (and_secure m) eqn:Hm.
  2:{ exists 0%N. intros G H fuel i ei ej s t theta dr Es Et Hp Hc Hth m1 m2 accepted. subst es et. destruct (C48_and G H fuel i ei ej s t l m Hp Hpos Hlen Ep) as (h & Hh). left. intros [|r rs] _ Hr; [cbn; lia|].
      destruct (Hr r (or_introl eq_refl)) as (b & tr & c1 & o1 & c2 & o2 & HF & _). destruct (Hh tr HF) as (X & _). apply Z.ltb_lt in X. unfold and_secure in Hm. rewrite Hm in X. discriminate. }
  set (ps := pad_entries (l * m) pin_false es). set (pt := pad_entries (l * m) pin_false et).
  assert (Ls : length ps = (l * m)%nat) by (apply resize_len; lia). assert (Lt : length pt = (l * m)%nat) by (apply resize_len; lia).
  set (gates := map2 and_join (map e_prev ps) (map e_next pt)).
  assert (Lg : length gates = (l * m)%nat) by (unfold gates; rewrite zip_len; rewrite !map_length; lia).
  assert (Hnth : forall q, (q < l * m)%nat -> nth q gates pin_false = and_join (e_prev (nth q ps z)) (e_next (nth q pt z))).
  { intros q Hq. unfold gates. rewrite (nth_zip _ pin_false pin_false) by (rewrite !map_length; lia). f_equal; [exact (map_nth e_prev ps z q)|exact (map_nth e_next pt z q)]. }
  destruct (C43_and_sound l m gates (map e_prev ps) (map e_next pt) ts j k (small64 m Hm) Lg) as (bad & HB); try assumption.
  { split; [rewrite map_length; congruence|]. split; [rewrite map_length; congruence|]. intros q. destruct (Nat.lt_ge_cases q (l * m)) as [Hq|Hq].
    - rewrite (Hnth q Hq). f_equal; symmetry; [exact (map_nth e_prev ps z q)|exact (map_nth e_next pt z q)].
    - rewrite !nth_overflow by (rewrite ?map_length; lia). reflexivity. }
  { rewrite (Hnth (j * m + k)%nat) by nia. unfold ps, pt, z. rewrite !nth_pad by lia. exact Hbad. }
  exists bad. intros G H fuel i ei ej s t theta dr Es Et Hp Hc Hth m1 m2 accepted. subst es et.
  destruct (C48_and G H fuel i ei ej s t l m Hp Hpos Hlen Ep) as (h & Hh). cbv zeta in Hh. fold dr in Hh.
  assert (Eth : u64 theta).
  { pose proof (gf_common G l (w_p G s) (prev i) j 0%N Hj) as E. fold dr in E. rewrite Hc, nth_replaced in E by (rewrite (proj1 Ht); exact Hj). exact E. }
  set (Good := exists p1, proof_dec gf_dec m1 = Ok p1 /\ and_proof_share l m p1).
  assert (Dec : Good \/ ~ Good).
  { unfold Good. destruct (proof_dec gf_dec m1) as [p1|e]; [|right; intros (p1 & E & _); discriminate]. destruct (and_share_dec l m p1) as [Y|Y]; [left; eauto|right; intros (p1' & E & X); congruence]. }
  assert (Acc : forall betas r, accepted betas r -> exists p1, proof_dec gf_dec m1 = Ok p1 /\ and_proof_share l m p1 /\ u64s m betas /\ u64 r /\
    and_check l m (map e_prev ps) (map e_next pt) (replaced j theta ts) betas r p1 (proof_from_seed 6 G dr l m m2) = Ok tt).
  { intros betas r (tr & c1 & o1 & c2 & o2 & HF & (S1 & S2) & Eo & Eb & Er). destruct (Hh tr HF) as (_ & EH & m1' & c1' & o1' & m2' & c2' & o2' & p1 & (S1' & S2') & F1 & F2 & D & Gp & HE).
    destruct S1 as (r1 & S1). destruct S2 as (r2 & S2). destruct S1' as (r1' & S1'). destruct S2' as (r2' & S2'). rewrite S1 in S1'. injection S1' as <- <- <- _. rewrite S2 in S2'. injection S2' as <- <- <- _.
    exists p1. split; [exact D|]. split; [exact Gp|]. specialize (HE Eo). rewrite <- EH, <- Eb, <- Er, Hc in HE. subst betas r. split; [apply gf_weights|]. split; [apply gf_point|exact HE]. }
  destruct Dec as [(p1 & D & Gp)|Dec].
  - apply (lift_sound (@NoDup N) eq (fun b bs => replaced k b bs) (fun betas r => u64s m betas /\ u64 r /\ and_check l m (map e_prev ps) (map e_next pt) (replaced j theta ts) betas r p1 (proof_from_seed 6 G dr l m m2) = Ok tt)
      accepted (fun bs => length bs = m) (2 * m) True); [auto|auto| |].
    + intros b r Ha. destruct (Acc b r Ha) as (p1' & D' & _ & X). rewrite D in D'. injection D' as <-. exact X.
    + intros _. exact (HB theta Eth Hth p1 _ Gp (gf_seed_share G l m m2)).
  - left. intros [|r rs] _ Hr; [cbn; lia|]. destruct (Hr r (or_introl eq_refl)) as (b & Hb). destruct (Acc _ _ Hb) as (p1 & D & Gp & _). destruct Dec. exists p1. auto.
Qed.
Print Assumptions C48_and_sound.

(** Nobody shows its coin share (the third message it sends to anybody) before it holds the proof and the commitment of
    both others. *)
Theorem C48_order : forall G H K fuel i ent (s : sst G) tr q k, k <> i ->
  (lrun (mul_verify G H K fuel i ent s) tr q \/ lrun (and_verify G H fuel i ent s) tr q \/ lrun (dot_verify G H K fuel i ent s) tr q) ->
  (3 <= length (sent_to k tr))%nat -> (2 <= length (rcvd_from (prev i) tr) /\ 2 <= length (rcvd_from (next i) tr))%nat.
Proof.
  intros G H K fuel i ent s tr q k Hk L HL.
  assert (E : forall q', lrun (A := sst G * unit) (Fail q') tr q -> False) by (intros q' L'; inversion L'; subst; cbn in HL; lia).
  destruct L as [L|[L|L]].
  - unfold mul_verify, getM, bindM at 1 in L. cbn [bind fst snd] in L. destruct (calc_params _) as [l m]. destruct (Nat.ltb _ _); [destruct (E _ L)|].
    unfold gr_verify, bindM, resM, liftM, putM in L. destruct (irreducible_poly _) as [f|e]; [|destruct (E _ L)]. cbn [of_res bind fst snd] in L. destruct (gr_lagrange _ _ _) as [lag|e]; [|destruct (E _ L)]. cbn [of_res bind fst snd] in L.
    exact (dz_order _ _ _ _ _ _ _ _ _ _ _ _ _ _ _ _ _ _ _ _ _ _ _ _ _ Hk L HL).
  - unfold and_verify, getM, bindM at 1 in L. cbn [bind fst snd] in L. destruct (calc_params _) as [l m]. unfold and_set_parameters, getM, bindM in L. cbn [bind fst snd] in L. destruct (Nat.ltb _ _); [destruct (E _ L)|]. destruct (negb _); [destruct (E _ L)|].
    unfold resM, liftM, putM in L. cbn [bind fst snd] in L. destruct (gf_lagrange _) as [lag|e]; [|destruct (E _ L)]. cbn [of_res bind fst snd] in L. exact (dz_order _ _ _ _ _ _ _ _ _ _ _ _ _ _ _ _ _ _ _ _ _ _ _ _ _ Hk L HL).
  - unfold dot_verify, getM, bindM at 1 in L. cbn [bind fst snd] in L. destruct (dot_params _ _) as [l m]. destruct (Nat.ltb _ _); [destruct (E _ L)|].
    unfold gr_verify, bindM, resM, liftM, putM in L. destruct (irreducible_poly _) as [f|e]; [|destruct (E _ L)]. cbn [of_res bind fst snd] in L. destruct (gr_lagrange _ _ _) as [lag|e]; [|destruct (E _ L)]. cbn [of_res bind fst snd] in L.
    exact (dz_order _ _ _ _ _ _ _ _ _ _ _ _ _ _ _ _ _ _ _ _ _ _ _ _ _ Hk L HL).
Qed.
Print Assumptions C48_order.

(** What a wrong statement is.  Party i holds (a, b) of the factors and masks r, party next i holds (a', b') and r'; the
    cheater therefore holds A, B and the masks R.  Its statement, joined from what i and next i registered, is correct iff
    the value i received is the one a party with these shares and masks has to send. *)
Theorem C48_mul_gate : forall K a b r s a' b' r' s', 0 <= K ->
  let A := Share (sb a) (sa a') in let B := Share (sb b) (sa b') in let R := (snd r, fst r') in
  mul_correct K (mul_join K (e_prev (register_mul K a b r s)) (e_next (register_mul K a' b' r' s'))) <->
  sb s mod 2 ^ K = radd K (local_mul K A B) (rsub K (fst R) (snd R)).
Proof.
  intros K a b r s a' b' r' s' HK. cbv zeta. unfold mul_correct, mul_join, register_mul, local_mul, radd, rsub, rmul, rneg. cbn [e_prev e_next p_a0 p_a1 p_b0 p_b1 p_r p_s sa sb fst snd].
  assert (E : forall x y u v : Z, x mod 2 ^ K = u -> y mod 2 ^ K = v -> (x mod 2 ^ K = y mod 2 ^ K <-> u = v)) by (intros; subst; reflexivity).
  replace (((sb s + 0) mod 2 ^ K) mod 2 ^ K) with (sb s mod 2 ^ K) by modring.
  match goal with |- (_ = ?x) <-> (_ = ?y) => replace x with y; [reflexivity|] end. modring.
Qed.
Print Assumptions C48_mul_gate.
Theorem C48_and_gate : forall K a b r s a' b' r' s', 0 <= K ->
  Forall (inr K) [sb a; sb b; snd r; sb s; sa a'; sa b'; fst r'] ->
  let A := Share (sb a) (sa a') in let B := Share (sb b) (sa b') in let R := (snd r, fst r') in let z := Entry pin_false pin_false pin_false in
  (forall n, (n < Z.to_nat K)%nat -> and_correct (and_join (e_prev (nth n (register_and K a b r s) z)) (e_next (nth n (register_and K a' b' r' s') z)))) <->
  sb s = rxor (local_and A B) (rxor (fst R) (snd R)).
Proof.
  intros K a b r s a' b' r' s' HK HR A B R z. unfold A, B, R.
  assert (Hi : forall x, inr K x -> forall n, K <= n -> Z.testbit x n = false).
  { intros x Hx n Hn. replace x with (x mod 2 ^ K) by (apply Z.mod_small; exact Hx). apply Z.mod_pow2_bits_high. lia. }
  assert (E : forall n, (n < Z.to_nat K)%nat -> (and_correct (and_join (e_prev (nth n (register_and K a b r s) z)) (e_next (nth n (register_and K a' b' r' s') z))) <->
    Z.testbit (sb s) (Z.of_nat n) = Z.testbit (rxor (local_and (Share (sb a) (sa a')) (Share (sb b) (sa b'))) (rxor (snd r) (fst r'))) (Z.of_nat n))).
  { intros n Hn. assert (X : forall c d q u, nth n (register_and K c d q u) z = (fun n => let bt x := Z.testbit x (Z.of_nat n) in
       and_entry (bt (sa c)) (bt (sb c)) (bt (sa d)) (bt (sb d)) (bt (fst q)) (bt (snd q)) (bt (sa u)) (bt (sb u))) n).
    { intros c d q u. unfold register_and. match goal with |- nth n (map ?f _) _ = _ => rewrite (nth_indep _ z (f 0%nat)) by (rewrite map_length, seq_length; exact Hn); rewrite (map_nth f), seq_nth by exact Hn end. reflexivity. }
    rewrite !X. cbv zeta. unfold and_entry, and_join, and_correct, rxor, local_and, rand_. cbn [e_prev e_next p_a0 p_a1 p_b0 p_b1 p_r p_s sa sb fst snd].
    rewrite !Z.lxor_spec, !Z.land_spec. rewrite !xorb_false_r, !xorb_false_l. 
    repeat match goal with |- context [Z.testbit ?x ?n] => let b := fresh "b" in generalize (Z.testbit x n); intros b end. intuition; repeat match goal with b : bool |- _ => destruct b end; cbn in *; congruence. }
  repeat match goal with HR : Forall _ (_ :: _) |- _ => let h := fresh "h" in inversion_clear HR as [|? ? h HR'0]; rename HR'0 into HR end.
  split.
  - intros HA. apply Z.bits_inj'. intros n Hn. destruct (Z_lt_dec n K) as [Hlt|Hge].
    + specialize (HA (Z.to_nat n) ltac:(lia)). apply E in HA; [|lia]. rewrite Z2Nat.id in HA by lia. exact HA.
    + unfold rxor, rand_, local_and, rxor, rand_. cbn [sa sb]. rewrite !Z.lxor_spec, !Z.land_spec, !Hi by (assumption || lia). reflexivity.
  - intros HA n Hn. apply E; [exact Hn|]. cbn [fst snd] in HA. rewrite <- HA. reflexivity.
Qed.
Print Assumptions C48_and_gate.
(** The new entry of a registry of inner products, padded with zeros to any length n. *)
Theorem C48_dot_gate : forall K n (d d' : dotreg) a b r s a' b' r' s', 0 <= K ->
  dr_size d' = dr_size d -> length b = length a -> length a' = length a -> length b' = length a -> (Nat.max (dr_size d) (length a) <= n)%nat ->
  Forall (inr K) (map sb a) -> Forall (inr K) (map sb b) -> Forall (inr K) (map sa a') -> Forall (inr K) (map sa b') ->
  let A := map2 (fun x y => Share (sb x) (sa y)) a a' in let B := map2 (fun x y => Share (sb x) (sa y)) b b' in let R := (snd r, fst r') in
  let z := Entry din_nil din_nil din_nil in
  let e := last (dr_entries (register_dot K d a b r s)) z in let e' := last (dr_entries (register_dot K d' a' b' r' s')) z in
  dot_correct K (dot_join K (pad_din n (e_prev e)) (pad_din n (e_next e'))) <-> sb s mod 2 ^ K = dot_sum K A B R mod 2 ^ K.
Proof.
  intros K n d d' a b r s a' b' r' s' HK Hd Lb La' Lb' Hn Fa Fb Fa' Fb' A B R z e e'.
  assert (LA : length A = length B) by (unfold A, B; rewrite !zip_len; congruence).
  assert (S1 : map sa A = map sb a /\ map sb A = map sa a' /\ map sa B = map sb b /\ map sb B = map sa b').
  { assert (X : forall (x y : list share), length y = length x -> map sa (map2 (fun x y => Share (sb x) (sa y)) x y) = map sb x /\ map sb (map2 (fun x y => Share (sb x) (sa y)) x y) = map sa y).
    { clear. induction x as [|u x IH]; intros [|v y] L; try discriminate; [split; reflexivity|]. injection L as L. destruct (IH y L) as [E1 E2]. cbn. rewrite E1, E2. split; reflexivity. }
    destruct (X a a' La') as [X1 X2]. destruct (X b b' ltac:(congruence)) as [X3 X4]. auto. }
  destruct S1 as (A1 & A2 & B1 & B2). rewrite dot_sum_eq by exact LA. rewrite A1, A2, B1, B2. unfold R. cbn [fst snd].
  assert (P : forall (c : list Z) len, length c = len -> (Nat.max (dr_size d) len <= n)%nat -> resize n 0 (if Nat.ltb len (dr_size d) then resize (dr_size d) 0 c else c) = resize n 0 c).
  { intros c len Lc Hm. destruct (Nat.ltb_spec len (dr_size d)); [|reflexivity]. apply resize_twice. lia. }
  set (len := length a) in *.
  assert (E1 : pad_din n (e_prev e) = DIn (resize n 0 (map sb a)) (repeat 0 n) (resize n 0 (map sb b)) (repeat 0 n) (snd r) (sb s)).
  { unfold e, register_dot. cbn [dr_entries]. rewrite last_last. unfold pad_din. cbn [e_prev d_a0 d_a1 d_b0 d_b1 d_r d_s]. fold len. rewrite !P by (rewrite ?map_length; auto). rewrite resize_repeat by (destruct (Nat.ltb (dr_size d) len); lia). reflexivity. }
  assert (E2 : pad_din n (e_next e') = DIn (repeat 0 n) (resize n 0 (map sa a')) (repeat 0 n) (resize n 0 (map sa b')) (rneg K (fst r')) 0).
  { unfold e', register_dot. cbn [dr_entries]. rewrite last_last. unfold pad_din. cbn [e_next d_a0 d_a1 d_b0 d_b1 d_r d_s]. rewrite Hd, La'. rewrite !P by (rewrite ?map_length; auto). rewrite resize_repeat by (destruct (Nat.ltb (dr_size d) len); lia). reflexivity. }
  rewrite E1, E2. unfold dot_correct, dot_join. cbn [d_a0 d_a1 d_b0 d_b1 d_r d_s]. rewrite !(map2_radd_comm K (repeat 0 n)). rewrite !add_zeros_r by (rewrite ?map_length; auto; lia).
  rewrite !zdot_resize by (rewrite !map_length; lia). change zdot with dotp.
  replace (radd K (sb s) 0 mod 2 ^ K) with (sb s mod 2 ^ K) by (unfold radd; modring).
  match goal with |- (_ = ?x) <-> (_ = ?y) => replace x with y; [reflexivity|] end. unfold radd, rneg. modring.
Qed.
Print Assumptions C48_dot_gate.

(** The hypotheses are met: in an honest run of and_verify the two parties finish, and the third opens the same coin
    share to both. *)
Theorem C48_and_met : forall G H K fuel (ent : pid -> sst G -> rstate G) (s : pid -> sst G) l m i, (forall x, bytes (hfun H x)) -> winv G K s ->
  (0 < length (w_and G (s P0)))%nat -> calc_params (length (w_and G (s P0))) = (l, m) -> 2 ^ 40 * (2 * Z.of_nat m + 1) < 2 ^ 64 - Z.of_nat m ->
  exists P c tr c1 o1 c2 o2 m1 m2, both_finish i (and_verify G H fuel i (ent i) (s i)) (and_verify G H fuel (next i) (ent (next i)) (s (next i))) P c tr /\
    cheater_sent i tr m1 c1 o1 m2 c2 o2 /\ firstn 32 o1 = firstn 32 o2.
Proof.
  intros G H K fuel ent s l m i HH Hs Hpos Ep Hm. destruct (C47_and_accepts G H K fuel ent s l m Hs Hpos Ep Hm) as (s' & a & HE & _).
  set (P := fun j => and_verify G H fuel j (ent j) (s j)) in *. destruct HE as (n & HE). destruct (HE [] _ (steps_nil _)) as (_ & (sched & Hst & _) & _).
  destruct (project P sched _ Hst) as (tr & L & Q).
  assert (Hfin : forall j, get (progs (finished (fun j => (s' j, a j)))) j = Ret (s' j, a j)) by (intros j; unfold finished; cbn; destruct j; reflexivity).
  assert (HF : both_finish i (P i) (P (next i)) P (finished (fun j => (s' j, a j))) tr).
  { split; [reflexivity|]. split; [reflexivity|]. split.
    - apply emits_sends. unfold P, and_verify. apply emitsM_bind; [apply emitsM_get|]. intros t. destruct (calc_params _) as [l' m']. apply emitsM_bind.
      + unfold and_set_parameters. apply emitsM_bind; [apply emitsM_get|]. intros u. destruct (Nat.ltb _ _); [apply emitsM_fail|]. destruct (negb _); [apply emitsM_fail|apply emitsM_put].
      + intros _. apply emitsM_bind; [apply emitsM_res|]. intros lag. apply emitsM_bind; [apply emitsM_get|]. intros u. apply dz_emits; [exact HH|apply gf_enc_bytes].
    - split; [split; [exists sched; exact Hst|split; [exact L|exact Q]]|]. split; eexists; apply Hfin. }
  pose proof (lens_and G K s Hs) as Hlen. destruct (and_lagrange m (small64 m ltac:(apply Z.ltb_lt, Hm))) as (lag & El & _).
  pose proof (L (prev i)) as Lk. rewrite Hfin in Lk. unfold P in Lk. rewrite (and_verify_eq G H fuel (prev i) (ent (prev i)) (s (prev i)) l m lag) in Lk; [|rewrite Hlen; assumption|rewrite Hlen; assumption|apply Z.ltb_lt, Hm|exact El].
  destruct (dz_local _ _ _ _ _ _ _ _ _ _ _ _ _ _ _ _ _ _ _ _ _ _ _ _ Lk) as (pr & Epr & m1 & c1 & o1 & sh & m2 & c2 & o2 & p1 & coin & sp & sn & rcv & _ & _ & S1 & S2 & _).
  replace (next (prev i)) with i in S1 by (destruct i; reflexivity). replace (prev (prev i)) with (next i) in S2 by (destruct i; reflexivity).
  exists P, (finished (fun j => (s' j, a j))), tr. do 6 eexists. split; [exact HF|]. split; [split; eexists; [exact S1|exact S2]|]. reflexivity.
Qed.
Print Assumptions C48_and_met.
Example C48_example : (forall x, bytes (hfun pad_hasher x)) /\ calc_params (length (w_and one_rng (ex_gates P0))) = (3, 3)%nat /\ winv one_rng 8 ex_gates /\
  ~ mul_correct 8 (mul_join 8 (e_prev (register_mul 8 (Share 1 2) (Share 3 4) (5, 6) (Share 7 8))) (e_next (register_mul 8 (Share 2 9) (Share 4 3) (6, 5) (Share 7 8)))) /\
  mul_correct 8 (mul_join 8 (e_prev (register_mul 8 (Share 1 2) (Share 3 4) (5, 6) (Share 7 24))) (e_next (register_mul 8 (Share 2 9) (Share 4 3) (6, 5) (Share 7 8)))).
Proof.
  split. { intros x. unfold bytes. cbn [pad_hasher hfun]. apply Forall_forall. intros b Hb. apply in_firstn in Hb. apply in_app_or in Hb. destruct Hb as [Hb|Hb].
    - apply in_map_iff in Hb. destruct Hb as (y & <- & _). unfold inr. change (2 ^ 8) with 256. apply Z.mod_pos_bound. lia.
    - apply repeat_spec in Hb. subst. unfold inr. lia. }
  split; [reflexivity|]. split; [apply C47_example|]. split; [intros X; vm_compute in X; discriminate X|reflexivity].
Qed.

(** ** C42 *)
(** [session3 i ops]: an arbitrary sequence of sends, vouched-for values, receptions and verifications.  Parties i and j are
    honest, k runs any program.  If i finishes, then for every verification of i the values that i had received from k since
    the previous one are, byte for byte, those that j vouched for, or the two strings collide under the hash.  Values and
    digests between i and j travel in one channel, so j must send i what i expects from j, in the same order. *)
Theorem C42_detect : forall (G : rng) (H : hasher) (P : pid -> prog (sst G * list (list (pid * (Z * Z))))) i j k opsi opsj si sj more sched c si' log,
  i <> j -> k <> i -> k <> j ->
  w_rn G si = [] -> w_rp G si = [] -> w_sn G sj = [] -> w_sp G sj = [] ->
  sends_to i opsj = expects_from j opsi ++ more ->
  P i = session3 G H i opsi [] si -> P j = session3 G H j opsj [] sj ->
  steps sched (start P) c -> get (progs c) i = Ret (si', log) ->
  forall n seg, nth_error log n = Some seg ->
    exists buf, nth_error (vouched i opsj []) n = Some buf /\ (wire (got_from k seg) = wire buf \/ collision H (wire (got_from k seg)) (wire buf)).
Proof. intros G H. exact (session3_detect G H). Qed.
Print Assumptions C42_detect.
(** Honest parties: the values arrive, in order, and no verification fails. *)
Theorem C42_honest : forall (G : rng) (H : hasher) segs (s : pid -> sst G), Forall (Forall round_ok) segs ->
  (forall i, w_sn G (s i) = [] /\ w_sp G (s i) = [] /\ w_rn G (s i) = [] /\ w_rp G (s i) = []) ->
  honest_run (fun i => session3 G H i (rounds_ops i segs) []) s (fun _ log => forall i, log i = map (gets i) segs).
Proof.
  intros G H segs s HR HE. apply wpM_honest, session3_honest; [exact HR|].
  split; intros i; destruct (HE i) as (? & ? & ? & ?); [destruct (HE (prev i)) as (? & ? & ? & ?)|destruct (HE (next i)) as (? & ? & ? & ?)]; congruence.
Qed.
Print Assumptions C42_honest.
Definition wfresh : sst one_rng := SSt one_rng (Prf one_rng tt tt) tt [] [] [] [] [] [] [] (DotReg 0 0 []).
(** P2 sends 7 to P0 where P1 vouches for 8: P0 stops with an error.  With honest parties it obtains 8. *)
Example C42_example :
  (let P := fun i => match i with
     | P0 => session3 one_rng pad_hasher P0 [WReceive 8 P2; WVerify] [] wfresh
     | P1 => session3 one_rng pad_hasher P1 [WQueue 8 8 P0; WVerify] [] wfresh
     | P2 => Send P0 [7] (Send P0 (hfun pad_hasher []) (Fail EOther))
     end in
   exists sched c, steps sched (start P) c /\ get (progs c) P0 = Fail EJmpVerify) /\
  sends_to P0 [WQueue 8 8 P0; WVerify] = expects_from P1 [WReceive 8 P2; WVerify] ++ [] /\
  Forall (Forall round_ok) [[Round 8 P2 P0 [8; 9]; Round 16 P0 P1 [513]]; [Round 1 P1 P0 [1]]] /\
  map (gets P0) [[Round 8 P2 P0 [8; 9]; Round 16 P0 P1 [513]]; [Round 1 P1 P0 [1]]] = [[(P2, (8, 8)); (P2, (8, 9))]; [(P1, (1, 1))]].
Proof.
  split.
  - exists [P2; P0; P0; P0; P2; P1; P1; P0; P0]. eexists. split.
    + repeat (eapply steps_cons; [first [eapply step_send; reflexivity|eapply step_recv; reflexivity]|]). apply steps_nil.
    + reflexivity.
  - split; [reflexivity|]. split; [|reflexivity].
    repeat constructor; cbn; try tauto; try discriminate; lia.
Qed.
