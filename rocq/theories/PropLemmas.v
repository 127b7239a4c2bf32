(** Lemmas assembled for the property files. *)
From Verif Require Import Base Ring RingProofs Prog Sched Rel Rng Net BinTrait BinProofs AddProofs Iris IrisSpec IrisProofs
  Protocol MpcSpec ShareSpec Plain Aby3 Aby3Proofs Aby3Proofs2 SlicedProofs OrProofs ProtocolProofs EngineProofs PlainProofs
  SpecProofs Client ClientProofs Apis ApiProofs.

(** ** C01 *)
Definition byte (b : Z) : Prop := 0 <= b < 256.
Lemma take_canonical K bs v r : In K widths -> Forall (fun b => 0 <= b < 256) bs -> take_from_bytes K bs = Ok (v, r) ->
  inr K v /\ bs = to_bytes K v ++ r.
Proof.
  intros HK Hb H. pose proof (take_shorter _ _ _ _ H) as Hl. unfold take_from_bytes in H.
  destruct (Nat.ltb (length bs) (nbytes K)) eqn:E; [discriminate|]. apply Nat.ltb_ge in E.
  assert (F : from_bytes K (firstn (nbytes K) bs) = Ok v).
  { unfold from_bytes. rewrite firstn_length_le by exact E. rewrite Nat.eqb_refl.
    destruct ((K =? 1) && _); [discriminate|]. congruence. }
  assert (Hf : Forall (fun b => 0 <= b < 256) (firstn (nbytes K) bs)).
  { rewrite <- (firstn_skipn (nbytes K) bs) in Hb. apply Forall_app in Hb. tauto. }
  split; [apply (from_bytes_range K _ v HK Hf F)|].
  rewrite <- (from_bytes_canonical K _ v HK Hf F).
  destruct ((K =? 1) && _); [discriminate|]. injection H as _ <-. symmetry. apply firstn_skipn.
Qed.
Lemma take_n_canonical K n : In K widths -> forall bs vs r, Forall (fun b => 0 <= b < 256) bs -> take_n K n bs = Ok (vs, r) ->
  Forall (inr K) vs /\ length vs = n /\ bs = concat (map (to_bytes K) vs) ++ r.
Proof.
  intros HK. induction n as [|n IH]; intros bs vs r Hb H; cbn [take_n] in H.
  - injection H as <- <-. auto.
  - destruct (take_from_bytes K bs) as [[v bs']|] eqn:E; [|discriminate].
    destruct (take_n K n bs') as [[vs' r']|] eqn:E'; [|discriminate]. injection H as <- <-.
    destruct (take_canonical _ _ _ _ HK Hb E) as [Hv ->]. apply Forall_app in Hb.
    destruct (IH _ _ _ (proj2 Hb) E') as (H1 & H2 & ->). split; [constructor; assumption|]. split; [cbn; congruence|].
    cbn [map concat]. rewrite app_assoc. reflexivity.
Qed.
Lemma vec_canonical K bs n vs : In K widths -> Forall (fun b => 0 <= b < 256) bs -> ring_vec_from_bytes K bs n = Ok vs ->
  Forall (inr K) vs /\ length vs = n /\ bs = ring_slice_to_bytes K vs.
Proof.
  intros HK Hb H. unfold ring_vec_from_bytes in H. destruct (take_n K n bs) as [[l r]|] eqn:E; [|discriminate].
  destruct r; [|discriminate]. injection H as ->. destruct (take_n_canonical _ _ HK _ _ _ Hb E) as (H1 & H2 & H3).
  rewrite app_nil_r in H3. rewrite ring_slice_to_bytes_eq. auto.
Qed.
Lemma iter_is_vec K n bs vs : iter_drain K n bs = Ok vs -> exists r, take_n K n bs = Ok (vs, r).
Proof.
  revert bs vs. induction n as [|n IH]; intros bs vs H; cbn [iter_drain take_n] in *.
  - injection H as <-. eauto.
  - destruct (take_from_bytes K bs) as [[v bs']|]; [|discriminate].
    destruct (iter_drain K n bs') as [l|] eqn:E; [|discriminate]. injection H as <-.
    destruct (IH _ _ E) as [r ->]. eauto.
Qed.
Lemma iter_canonical K bs n vs : In K widths -> Forall (fun b => 0 <= b < 256) bs -> ring_iter_from_bytes K bs n = Ok vs ->
  Forall (inr K) vs /\ length vs = n /\ bs = ring_slice_to_bytes K vs.
Proof.
  intros HK Hb H. unfold ring_iter_from_bytes in H. destruct (Nat.eqb_spec (length bs) (n * nbytes K)) as [Hl|]; [|discriminate].
  destruct (iter_is_vec _ _ _ _ H) as [r E]. destruct (take_n_canonical _ _ HK _ _ _ Hb E) as (H1 & H2 & H3).
  destruct (take_n_length _ _ _ _ _ E) as [_ Hl']. assert (r = []) as -> by (destruct r; [reflexivity|cbn in Hl'; lia]).
  rewrite app_nil_r in H3. rewrite ring_slice_to_bytes_eq. auto.
Qed.
Lemma vec_no_panic K bs n e : ring_vec_from_bytes K bs n = Err e -> e = EConversion.
Proof.
  unfold ring_vec_from_bytes.
  assert (H : forall n bs e, take_n K n bs = Err e -> e = EConversion).
  { clear. induction n as [|n IH]; intros bs e H; cbn [take_n] in H; [discriminate|].
    destruct (take_from_bytes K bs) as [[v b]|e'] eqn:E.
    - destruct (take_n K n b) as [[? ?]|] eqn:E'; [discriminate|]. injection H as ->. eauto.
    - injection H as ->. unfold take_from_bytes in E. destruct (Nat.ltb _ _); [congruence|]. destruct (_ && _); congruence. }
  destruct (take_n K n bs) as [[? [|? ?]]|] eqn:E; [discriminate|congruence|]. intros H0. injection H0 as ->. eauto.
Qed.
Lemma from_no_panic K bs e : from_bytes K bs = Err e -> e = EConversion.
Proof. unfold from_bytes. destruct (Nat.eqb _ _); [|congruence]. cbv zeta. destruct (_ && _); congruence. Qed.
Lemma to_bytes_length K x : length (to_bytes K x) = nbytes K.
Proof. rewrite to_bytes_eq. apply to_be_length. Qed.
Lemma to_bytes_bytes K x : Forall (fun b => 0 <= b < 256) (to_bytes K x).
Proof. rewrite to_bytes_eq. apply to_be_bytes. Qed.

(** ** C08: the share dealt to party i with dealer randomness a, b *)
Definition dealt (K x a b : Z) (i : pid) : share :=
  let c := rsub K (rsub K x a) b in
  match i with P0 => Share a c | P1 => Share b a | P2 => Share c b end.
Lemma share_value_dealt G K x r :
  snd (share_value G K x r) =
  let a := snd (draw G K r) in let b := snd (draw G K (fst (draw G K r))) in
  (dealt K x a b P0, dealt K x a b P1, dealt K x a b P2).
Proof.
  unfold share_value. destruct (draw G K r) as [r1 a]. cbn [fst snd]. destruct (draw G K r1) as [r2 b]. reflexivity.
Qed.
Lemma mod_sub_shape K x a b : rsub K (rsub K x a) b = (x - a - b) mod 2 ^ K.
Proof. unfold rsub. modring. Qed.
Lemma dealt_shared K x a b : 0 <= K -> inr K x -> inr K a -> inr K b -> arith_shared K (dealt K x a b) x.
Proof.
  intros HK Hx Ha Hb. unfold dealt, arith_shared. split; [|split].
  - intros []; cbn [sa]; try assumption. unfold rsub. apply inr_mod, HK.
  - intros []; reflexivity.
  - cbn [sa]. rewrite mod_sub_shape. rewrite Z.add_mod_idemp_r by (pose proof (pow2_pos K HK); lia).
    replace (a + b + (x - a - b)) with x by lia. symmetry. apply Z.mod_small, Hx.
Qed.
Lemma dealt_unique K x i u v : 0 <= K -> inr K x -> inr K u -> inr K v ->
  exists a b, (inr K a /\ inr K b /\ dealt K x a b i = Share u v) /\
    forall a' b', inr K a' -> inr K b' -> dealt K x a' b' i = Share u v -> a' = a /\ b' = b.
Proof.
  intros HK Hx Hu Hv. pose proof (pow2_pos K HK) as Hp. unfold inr in *.
  assert (Hm : forall z, 0 <= z < 2 ^ K -> z mod 2 ^ K = z) by (intros; apply Z.mod_small; assumption).
  unfold dealt. destruct i.
  - exists u, ((x - u - v) mod 2 ^ K). split.
    + split; [exact Hu|]. split; [apply Z.mod_pos_bound, Hp|]. rewrite mod_sub_shape. f_equal.
      rewrite <- (Hm v Hv) at 2. rewrite Zminus_mod_idemp_r. f_equal. lia.
    + intros a' b' Ha' Hb' E. rewrite mod_sub_shape in E. injection E as -> E. split; [reflexivity|].
      rewrite <- (Hm b' Hb'). rewrite <- E. rewrite Zminus_mod_idemp_r. f_equal. lia.
  - exists v, u. split; [auto|]. intros a' b' _ _ E. injection E as -> ->. auto.
  - exists ((x - v - u) mod 2 ^ K), v. split.
    + split; [apply Z.mod_pos_bound, Hp|]. split; [exact Hv|]. rewrite mod_sub_shape. f_equal.
      rewrite <- (Hm u Hu) at 2. rewrite <- Zminus_mod_idemp_l, Zminus_mod_idemp_r, Zminus_mod_idemp_l. f_equal. lia.
    + intros a' b' Ha' Hb' E. rewrite mod_sub_shape in E. injection E as E ->. split; [|reflexivity].
      rewrite <- (Hm a' Ha'). rewrite <- E. rewrite Zminus_mod_idemp_r. f_equal. lia.
Qed.

(** ** C02 *)
Lemma bit_panic : exists (m : msg), Forall byte m /\
  forall G (s : prf G), exists out k,
    open_bit_many G P0 [szero] s = Send P1 out (Recv P2 k) /\ k m = Fail EPanic.
Proof.
  exists [2]. split; [constructor; [unfold byte; lia|constructor]|].
  intros G s. eexists. eexists. split; reflexivity.
Qed.
(** ** C04 *)
Lemma bits_get c : wf_code c -> exists l, bits c = Ok l /\ length l = IRIS_CODE_SIZE /\ forall n b, nth_error l n = Some b -> Iris.get_bit c (Z.of_nat n) = Ok b.
Proof.
  intros H. exists (map (bit_at c) positions). split; [apply bits_spec, H|].
  split. { rewrite map_length. apply positions_length. }
  intros n b Hn. rewrite nth_error_map in Hn. destruct (nth_error positions n) as [p|] eqn:E; [|discriminate].
  injection Hn as <-.
  assert (Hp : p = Z.of_nat n).
  { unfold positions in E. rewrite nth_error_map in E. destruct (nth_error (seq 0 IRIS_CODE_SIZE) n) as [q|] eqn:E'; [|discriminate].
    injection E as <-. f_equal. assert (Hl : (n < IRIS_CODE_SIZE)%nat) by (rewrite <- (seq_length IRIS_CODE_SIZE 0); apply nth_error_Some; congruence).
    rewrite (nth_error_nth' _ _ 0%nat) in E' by (rewrite seq_length; exact Hl). rewrite seq_nth in E' by exact Hl. injection E' as <-. reflexivity. }
  subst p. apply get_bit_ok; [exact H|]. apply in_positions. apply nth_error_In with (n := n). exact E.
Qed.
Lemma set_get c i v : wf_code c -> 0 <= i < 12800 ->
  exists c', set_bit c i v = Ok c' /\ wf_code c' /\ Iris.get_bit c' i = Ok v /\   (forall j, 0 <= j < 12800 -> j <> i -> Iris.get_bit c' j = Iris.get_bit c j).
Proof.
  intros H Hi. destruct (set_bit_spec c i v H Hi) as (c' & E & W & B & O). exists c'. split; [exact E|]. split; [exact W|]. split.
  - rewrite get_bit_ok by assumption. rewrite B. reflexivity.
  - intros j Hj Hn. rewrite !get_bit_ok by assumption. rewrite O by lia. reflexivity.
Qed.
Lemma flip_get c i : wf_code c -> 0 <= i < 12800 ->
  exists c' b, flip_bit c i = Ok c' /\ wf_code c' /\ Iris.get_bit c i = Ok b /\ Iris.get_bit c' i = Ok (negb b) /\   (forall j, 0 <= j < 12800 -> j <> i -> Iris.get_bit c' j = Iris.get_bit c j).
Proof.
  intros H Hi. destruct (flip_bit_spec c i H Hi) as (c' & E & W & B & O). exists c', (bit_at c i).
  split; [exact E|]. split; [exact W|]. rewrite !get_bit_ok by assumption. split; [reflexivity|]. split.
  - rewrite B. reflexivity.
  - intros j Hj Hn. rewrite !get_bit_ok by assumption. rewrite O by lia. reflexivity.
Qed.
Lemma ops_get a b i : wf_code a -> wf_code b -> 0 <= i < 12800 ->
  exists x y, Iris.get_bit a i = Ok x /\ Iris.get_bit b i = Ok y /\   Iris.get_bit (code_and a b) i = Ok (x && y) /\ Iris.get_bit (code_xor a b) i = Ok (xorb x y).
Proof.
  intros Ha Hb Hi. exists (bit_at a i), (bit_at b i). rewrite !get_bit_ok by (try assumption; try apply code_and_wf; try apply code_xor_wf; assumption).
  rewrite code_and_bit, code_xor_bit by assumption. auto.
Qed.
