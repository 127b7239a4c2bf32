(** The distributed zero-knowledge proofs of Swift3: dzkp/and_proof.rs, dzkp/mul_proof.rs, dzkp/dot_proof.rs.
    The three files differ in the ring (GF(2^64) for AND gates, a Galois ring Z/2^K[x]/f for the others) and in
    the circuit c; the common text is one definition here, parametrised by both. *)
From Verif Require Import Base Ring Rng Gf2 Poly Swift3.

(** and_proof.rs:178-189, mul_proof.rs:162-173: f0 f2 + f0 f3 + f1 f2 + f4 - f5 *)
Definition c_mul (B : Type) (OB : rops B) (f : list B) : B :=
  let x i := nth i f (o0 OB) in
  (osub OB (oadd OB (oadd OB (oadd OB (omul OB (x 0) (x 2)) (omul OB (x 0) (x 3))) (omul OB (x 1) (x 2))) (x 4)) (x 5))%nat.
(** dot_proof.rs:245-263 *)
Definition c_dot (dot : nat) (B : Type) (OB : rops B) (f : list B) : B :=
  let x i := nth i f (o0 OB) in
  (fold_left (fun res i => oadd OB res
      (oadd OB (oadd OB (omul OB (x i) (x (2 * dot + i))) (omul OB (x i) (x (3 * dot + i)))) (omul OB (x (dot + i)) (x (2 * dot + i)))))
    (seq 0 dot) (osub OB (x (4 * dot)) (x (4 * dot + 1))))%nat.

Section Dzkp.
  Context {A : Type}.
  Variables (O : rops A) (red : A -> res A) (eqb : A -> A -> bool).
  Variable n : nat. (** inputs per gate: 6, or 4 * dot + 2 *)
  Variable cf : forall B : Type, rops B -> list B -> B.

  (** and_proof.rs:39-43, 58-63, and the same in the other files *)
  Record dproof := DProof { dp_w : list A; dp_a : list A }.
  Record dshare := DShare { ds_f : list A; ds_pr : A; ds_b : A }.

  (** and_proof.rs:191-215, mul_proof.rs:175-200, dot_proof.rs:265-290; the chunks have n elements whenever the
      callers' length checks pass, so the assertion in c cannot fail *)
  Definition g_sum {B : Type} (OB : rops B) (scale : B -> A -> B) (thetas : list A) (f : list B) : B :=
    fold_left (fun res tf => oadd OB res (scale (cf B OB (snd tf)) (fst tf))) (combine thetas (chunks n f)) (o0 OB).
  (** and_proof.rs:240-249, 306-315: the values at the points 0, 1, .., m of input i of row j *)
  Definition point_values (l m : nat) (w : list A) (inputs : list (list A)) (j i : nat) : list A :=
    nth (i * l + j) w (o0 O) :: map (fun k => nth i (nth (j * m + k) inputs []) (o0 O)) (seq 0 m).
  (** the order in which the loops over j and i push their results *)
  Definition rows (l : nat) : list (nat * nat) := flat_map (fun j => map (fun i => (j, i)) (seq 0 n)) (seq 0 l).
  (** and_proof.rs:217-252, 269-271 (mul_proof.rs:202-237, 250-252; dot_proof.rs:292-328, 341-343): the
      coefficients of g; w are the prover's random values *)
  Definition prove (l m : nat) (inputs : list (list A)) (thetas : list A) (lag : list (list A)) (w : list A) : res (list A) :=
    if negb (Nat.eqb l (length thetas)) || negb (Nat.eqb (m + 1) (length lag)) || negb (Nat.eqb (length inputs) (l * m)) then Err EPanic
    else
      rbind (mapM_res (fun ji => interpolate O (point_values l m w inputs (fst ji) (snd ji)) lag) (rows l)) (fun f =>
      rbind (mapM_res red (g_sum (pops O) (p_scale O) thetas f)) (fun g =>
      Ok (resize (2 * m + 1) (o0 O) g))).
  (** and_proof.rs:257-279: the explicit share is the value minus the share regenerated from the seed *)
  Definition explicit_share (w g : list A) (r : dproof) : dproof :=
    DProof (map2 (osub O) w (dp_w r)) (map2 (osub O) g (dp_a r)).

  (** and_proof.rs:320-335: the sum of a_k x^k with running powers *)
  Definition power_sum (a : list A) (x : A) : A :=
    fst (fold_left (fun sp ak => (oadd O (fst sp) (omul O ak (snd sp)), omul O (snd sp) x)) a (o0 O, o1 O)).
  (** and_proof.rs:284-340, mul_proof.rs:261-316, dot_proof.rs:355-411 *)
  Definition verify_pi (l m : nat) (betas : list A) (r : A) (lag : list (list A)) (coords : list A) (inputs : list (list A)) (p : dproof) : res dshare :=
    if negb (Nat.eqb m (length betas)) || negb (Nat.eqb (m + 1) (length lag)) || negb (Nat.eqb (m * l) (length inputs))
       || negb (Nat.eqb (m + 1) (length coords)) then Err EPanic
    else if negb (Nat.eqb (length (dp_w p)) (n * l)) || negb (Nat.eqb (length (dp_a p)) (2 * m + 1)) then Err EDZKPVerify
    else
      rbind (mapM_res (fun ji => rbind (interpolate O (point_values l m (dp_w p) inputs (fst ji) (snd ji)) lag)
                                   (fun q => red (p_eval O q r))) (rows l)) (fun f =>
      rbind (red (power_sum (dp_a p) r)) (fun pr =>
      rbind (red (fold_left (fun b bc => oadd O b (omul O (power_sum (dp_a p) (snd bc)) (fst bc))) (combine betas (tl coords)) (o0 O))) (fun b =>
      Ok (DShare f pr b)))).
  (** and_proof.rs:364-402, mul_proof.rs:340-370, dot_proof.rs:435-461 *)
  Definition combine_verifications (l : nat) (thetas : list A) (p q : dshare) : res unit :=
    if negb (Nat.eqb l (length thetas)) then Err EPanic
    else if negb (oz O (oadd O (ds_b p) (ds_b q))) then Err EDZKPVerify
    else if negb (Nat.eqb (length (ds_f p)) (length (ds_f q))) || negb (Nat.eqb (length (ds_f p)) (n * l)) then Err EDZKPVerify
    else
      rbind (red (g_sum O (omul O) thetas (map2 (oadd O) (ds_f p) (ds_f q)))) (fun pr =>
      if eqb pr (oadd O (ds_pr p) (ds_pr q)) then Ok tt else Err EDZKPVerify).

  (** Drawing elements: GF2p64::random, Poly::random *)
  Variable G : rng.
  Variable draw_el : rstate G -> rstate G * A.
  Fixpoint draw_els (k : nat) (s : rstate G) : rstate G * list A :=
    match k with
    | 0%nat => (s, [])
    | S k => let '(s1, v) := draw_el s in let '(s2, vs) := draw_els k s1 in (s2, v :: vs)
    end.
  (** and_proof.rs:45-56, mul_proof.rs:46-62, dot_proof.rs:71-90 *)
  Definition proof_from_seed (l m : nat) (seed : list Z) : dproof :=
    let '(s1, w) := draw_els (n * l) (rseed G seed) in
    let '(_, a) := draw_els (2 * m + 1) s1 in
    DProof w a.
  (** and_proof.rs:217-282: the prover with its generator; the seed and the explicit share *)
  Definition prove_rng (l m : nat) (inputs : list (list A)) (thetas : list A) (lag : list (list A)) (s : rstate G)
    : res (rstate G * (list Z * dproof)) :=
    let '(s1, w) := draw_els (n * l) s in
    rbind (prove l m inputs thetas lag w) (fun g =>
    let '(s2, seed) := draw_bytes G 32 s1 in
    Ok (s2, (seed, explicit_share w g (proof_from_seed l m seed)))).
End Dzkp.
Arguments dproof : clear implicits. Arguments dshare : clear implicits.

(** ** AND gates: and_proof.rs *)
Definition and_inputs (p : pinput bool) : list N := map gf_lift [p_a0 p; p_a1 p; p_b0 p; p_b1 p; p_r p; p_s p].
Definition pin_false : pinput bool := PIn false false false false false false.
(** and_proof.rs:147-154 *)
Definition and_points (num : nat) : list N := map N.of_nat (seq 0 num).
(** gf2p64.rs:26-28 *)
Definition gf_draw (G : rng) (s : rstate G) : rstate G * N := let '(s1, v) := draw G 64 s in (s1, Z.to_N v).

(** and_proof.rs:217-271, 284-340, 364-402: GF2p64 values are kept reduced, and compared as they are *)
Definition and_prove : nat -> nat -> list (list N) -> list N -> list (list N) -> list N -> res (list N) := prove gf_ops (@Ok N) 6 c_mul.
Definition and_verify_pi : nat -> nat -> list N -> N -> list (list N) -> list N -> list (list N) -> dproof N -> res (dshare N) := verify_pi gf_ops (@Ok N) 6.
Definition and_combine : nat -> list N -> dshare N -> dshare N -> res unit := combine_verifications gf_ops (@Ok N) N.eqb 6 c_mul.

(** ** Multiplications and inner products: mul_proof.rs, dot_proof.rs *)
Definition mul_inputs (p : pinput Z) : list (list Z) := map (fun x => [x]) [p_a0 p; p_a1 p; p_b0 p; p_b1 p; p_r p; p_s p].
Definition pin_zero : pinput Z := PIn 0 0 0 0 0 0.
Definition dot_inputs (p : dinput) : list (list Z) := map (fun x => [x]) (d_a0 p ++ d_a1 p ++ d_b0 p ++ d_b1 p ++ [d_r p; d_s p]).
(** polynomial.rs:44-50: degree d - 1, d coefficients *)
Fixpoint draw_poly (G : rng) (K : Z) (d : nat) (s : rstate G) : rstate G * list Z :=
  match d with
  | O => (s, [])
  | S d => let '(s1, v) := draw G K s in let '(s2, vs) := draw_poly G K d s1 in (s2, v :: vs)
  end.
(** Vec equality *)
Fixpoint zlist_eqb (p q : list Z) : bool :=
  match p, q with [], [] => true | a :: p, b :: q => (a =? b) && zlist_eqb p q | _, _ => false end.

(** ** Parameters.  The code computes them in f64: ceil(sqrt(muls)) and ceil(muls / l) are exact for fewer than
    2^52 gates. *)
Definition ceil_sqrt (x : nat) : nat := let s := Nat.sqrt x in if Nat.eqb (s * s) x then s else S s.
Definition ceil_div (x y : nat) : nat := ((x + y - 1) / y)%nat.
(** and_proof.rs:156-162, mul_proof.rs:131-137 *)
Definition calc_params (muls : nat) : nat * nat := let l := ceil_sqrt muls in (l, ceil_div muls l).
(** dot_proof.rs:191-197 *)
Definition dot_params (dot muls : nat) : nat * nat := let m := ceil_sqrt ((4 * dot + 2) * muls) in (ceil_div muls m, m).
(** mul_proof.rs:149-151, dot_proof.rs:231-233: the degree of the modulus *)
Definition mod_degree (m : nat) : nat := (Nat.log2_up (2 * m) + 40)%nat.
(** and_proof.rs:164-179: resizing and the assertion log2(2^64 - m) - log2(2m + 1) > 40 *)
Definition and_secure (m : nat) : bool := 2 ^ 40 * (2 * Z.of_nat m + 1) <? 2 ^ 64 - Z.of_nat m.
