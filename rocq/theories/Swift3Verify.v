(** Swift3's verification of the registered multiplications: swift3/protocol.rs:631-873, 1731-1909, 2297-2311,
    and the parameter handling of dzkp/{and,mul,dot}_proof.rs. *)
From Verif Require Import Base Ring Prog Rng Net Jmp Gf2 Poly Swift3 Swift3Setup Dzkp DzkpSpec GaloisSpec.

(** ** bincode 1.3 (default options: fixed-size little-endian integers, u64 lengths, trailing bytes allowed) *)
Definition from_le (bs : list Z) : Z := fold_right (fun b acc => b + 256 * acc) 0 bs.
Definition bc_uint (k : nat) (v : Z) : list Z := to_le k v.
Definition bc_take (k : nat) (bs : list Z) : res (Z * list Z) :=
  if Nat.ltb (length bs) k then Err ESerialization else Ok (from_le (firstn k bs), skipn k bs).
(** A vector: its length as u64, then the elements. *)
Definition bc_vec {A} (enc : A -> list Z) (l : list A) : list Z := bc_uint 8 (Z.of_nat (length l)) ++ flat_map enc l.
Fixpoint bc_elems {A} (dec : list Z -> res (A * list Z)) (n : nat) (bs : list Z) : res (list A * list Z) :=
  match n with
  | O => Ok ([], bs)
  | S n => rbind (dec bs) (fun ab => rbind (bc_elems dec n (snd ab)) (fun lb => Ok (fst ab :: fst lb, snd lb)))
  end.
(** Every element takes at least one byte, so a length beyond the number of bytes left ends in the same error. *)
Definition bc_list {A} (dec : list Z -> res (A * list Z)) (bs : list Z) : res (list A * list Z) :=
  rbind (bc_take 8 bs) (fun lb =>
  if Z.of_nat (length (snd lb)) <? fst lb then Err ESerialization else bc_elems dec (Z.to_nat (fst lb)) (snd lb)).
(** dzkp/gf2p64.rs:84-101 *)
Definition gf_enc (x : N) : list Z := bc_uint 8 (Z.of_N x).
Definition gf_dec (bs : list Z) : res (N * list Z) := rbind (bc_take 8 bs) (fun vb => Ok (Z.to_N (fst vb), snd vb)).
(** dzkp/polynomial.rs:33-37: a struct is the sequence of its fields; types/ring_element.rs:173-177: the integer *)
Definition poly_enc (K : Z) (p : list Z) : list Z := bc_vec (bc_uint (nbytes K)) p.
Definition poly_dec (K : Z) (bs : list Z) : res (list Z * list Z) := bc_list (bc_take (nbytes K)) bs.

Section Kind.
  (** The common text of and_verify, mul_verify and dot_verify, for one choice of ring, circuit and encoding. *)
  Context {A : Type}.
  Variables (O : rops A) (red : A -> res A) (eqb : A -> A -> bool).
  Variable n : nat.
  Variable cf : forall B : Type, rops B -> list B -> B.
  Variables (enc : A -> list Z) (dec : list Z -> res (A * list Z)).
  Variables (G : rng) (H : hasher).
  Variable draw_el : rstate G -> rstate G * A.
  Variable again : A -> bool. (** the evaluation points that are drawn again *)
  Variable fuel : nat. (** the number of redraws followed; the code loops until it succeeds *)
  Local Open Scope M_scope.

  (** and_proof.rs:38-42, mul_proof.rs:41-46, dot_proof.rs:65-70 *)
  Definition proof_enc (p : dproof A) : list Z := bc_vec enc (dp_w p) ++ bc_vec enc (dp_a p).
  Definition proof_dec (bs : list Z) : res (dproof A) :=
    rbind (bc_list dec bs) (fun wb => rbind (bc_list dec (snd wb)) (fun ab => Ok (DProof (fst wb) (fst ab)))).
  (** and_proof.rs:57-62, mul_proof.rs:64-70, dot_proof.rs:94-100 *)
  Definition share_enc (s : dshare A) : list Z := bc_vec enc (ds_f s) ++ enc (ds_pr s) ++ enc (ds_b s).
  Definition share_dec (bs : list Z) : res (dshare A) :=
    rbind (bc_list dec bs) (fun fb => rbind (dec (snd fb)) (fun pb => rbind (dec (snd pb)) (fun bb => Ok (DShare (fst fb) (fst pb) (fst bb))))).

  (** protocol.rs:1807-1821, 1862-1880: one vector per party *)
  Definition draw_three (k : nat) (s : rstate G) : rstate G * (pid -> list A) :=
    let '(s0, v0) := draw_els G draw_el k s in
    let '(s1, v1) := draw_els G draw_el k s0 in
    let '(s2, v2) := draw_els G draw_el k s1 in
    (s2, fun j => match j with P0 => v0 | P1 => v1 | P2 => v2 end).
  (** protocol.rs:1882-1892, 1894-1909: three elements, then each is drawn again while it is not allowed *)
  Fixpoint redraw (f : nat) (s : rstate G) (v : A) : rstate G * A :=
    match f with
    | 0%nat => (s, v)
    | S f => if again v then let '(s1, v1) := draw_el s in redraw f s1 v1 else (s, v)
    end.
  Definition draw_points (s : rstate G) : rstate G * (pid -> A) :=
    let '(s0, v0) := draw_el s in
    let '(s1, v1) := draw_el s0 in
    let '(s2, v2) := draw_el s1 in
    let '(s3, r0) := redraw fuel s2 v0 in
    let '(s4, r1) := redraw fuel s3 v1 in
    let '(s5, r2) := redraw fuel s4 v2 in
    (s5, fun j => match j with P0 => r0 | P1 => r1 | P2 => r2 end).

  Variable i : pid.

  (** random/prf.rs:49-55, gen_p for a 32-byte seed *)
  Definition gen_seed : M (sst G) (list Z) := fun s =>
    let '(r, v) := draw_bytes G 32 (w_p G s) in Ret (w_set_p G s r, v).

  (** protocol.rs:1731-1767 (and 1769-1805, 1823-1860): explicit share to the next party, seed to the previous *)
  Definition exchange_proofs (l m : nat) (seed : list Z) (p : dproof A) : M (sst G) (dproof A * dproof A) :=
    b <- liftM (Send (next i) (proof_enc p) (Send (prev i) seed (Recv (prev i) Ret))) ;;
    p_prev <- resM (proof_dec b) ;;
    sn <- liftM (Recv (next i) Ret) ;;
    if negb (Nat.eqb (length sn) (length seed)) then failM EOther
    else retM (p_prev, proof_from_seed n G draw_el l m sn).

  (** protocol.rs:643-695 (and 726-778, 809-862): everything up to the final comparison.  [proof], [vprev] and
      [vnext] are the statements of the registry, [ent] is ChaCha12Rng::from_entropy.  The result: the
      coefficients for the proof of the next party and the two shares of its verification. *)
  Definition dz_exchange (l m : nat) (lag : list (list A)) (coords : list A) (proof vprev vnext : list (list A)) (ent : rstate G)
    : M (sst G) (list A * dshare A * dshare A) :=
    seed <- gen_seed ;;
    let thetas := snd (draw_three l (rseed G seed)) in
    pr <- resM (prove_rng O red n cf G draw_el l m proof (thetas i) lag ent) ;;
    ps <- exchange_proofs l m (fst (snd pr)) (snd (snd pr)) ;;
    let '(s1, cseed) := draw_bytes G 32 (fst pr) in
    let '(_, crand) := draw_bytes G 32 s1 in
    coin <- w_coin G H i cseed crand ;;
    let '(s2, betas) := draw_three m (rseed G coin) in
    let r := snd (draw_points s2) in
    sp <- resM (verify_pi O red n l m (betas (prev i)) (r (prev i)) lag coords vprev (fst ps)) ;;
    sn <- resM (verify_pi O red n l m (betas (next i)) (r (next i)) lag coords vnext (snd ps)) ;;
    b <- liftM (Send (next i) (share_enc sp) (Recv (prev i) Ret)) ;;
    rcv <- resM (share_dec b) ;;
    retM (thetas (next i), rcv, sn).
  (** protocol.rs:697-707: the final comparison *)
  Definition dz_decide (l : nat) (x : list A * dshare A * dshare A) : res unit :=
    let '(thetas, rcv, sn) := x in combine_verifications O red eqb n cf l thetas rcv sn.
  Definition dz_verify (l m : nat) (lag : list (list A)) (coords : list A) (proof vprev vnext : list (list A)) (ent : rstate G) : M (sst G) unit :=
    x <- dz_exchange l m lag coords proof vprev vnext ent ;; resM (dz_decide l x).
End Kind.

Section Verify.
  Variables (G : rng) (H : hasher).
  Variable K : Z. (** the width of the arithmetic shares *)
  Variable fuel : nat.
  Variable i : pid.
  Local Open Scope M_scope.

  (** Vec::resize of the three vectors of a registry *)
  Definition pad_entries {A} (n : nat) (d : A) (l : list (entry A)) : list (entry A) := resize n (Entry d d d) l.

  (** and_proof.rs:164-179: the state is changed before the last assertion *)
  Definition and_set_parameters (l m : nat) : M (sst G) unit :=
    s <- getM ;;
    if Nat.ltb (l * m) (length (w_and G s)) then failM EPanic
    else if negb (and_secure m) then failM EPanic
    else putM (w_set_and G s (pad_entries (l * m) pin_false (w_and G s))).
  (** protocol.rs:1886 *)
  Definition gf_again (m : nat) (r : N) : bool := (r <=? N.of_nat m)%N.
  (** protocol.rs:631-708; [ent] gives the entropy of this call *)
  Definition and_verify (ent : sst G -> rstate G) : M (sst G) unit :=
    s <- getM ;;
    let '(l, m) := calc_params (length (w_and G s)) in
    and_set_parameters l m ;;;
    lag <- resM (gf_lagrange (and_points (m + 1))) ;;
    t <- getM ;;
    dz_verify gf_ops (@Ok N) N.eqb 6 c_mul gf_enc gf_dec G H (gf_draw G) (gf_again m) fuel i l m lag (and_points (m + 1))
      (map (fun e => and_inputs (e_proof e)) (w_and G t)) (map (fun e => and_inputs (e_prev e)) (w_and G t)) (map (fun e => and_inputs (e_next e)) (w_and G t)) (ent s).

  (** protocol.rs:1902: r.coeffs[0].is_zero() *)
  Definition poly_again (r : list Z) : bool := match r with c :: _ => c =? 0 | [] => false end.
  (** The common part of mul_verify and dot_verify, after set_parameters. *)
  Definition gr_verify (n : nat) (cf : forall B : Type, rops B -> list B -> B) (l m : nat) (f : list Z) (proof vprev vnext : list (list (list Z))) (ent : rstate G) : M (sst G) unit :=
    lag <- resM (gr_lagrange K (mul_points (m + 1)) f) ;;
    dz_verify (pz_ops K) (fun c => p_rem K c f) zlist_eqb n cf (poly_enc K) (poly_dec K) G H (draw_poly G K (mod_degree m)) poly_again fuel i
      l m lag (mul_points (m + 1)) proof vprev vnext ent.
  (** mul_proof.rs:139-153, protocol.rs:710-790 *)
  Definition mul_verify (ent : sst G -> rstate G) : M (sst G) unit :=
    s <- getM ;;
    let '(l, m) := calc_params (length (w_mul G s)) in
    if Nat.ltb (l * m) (length (w_mul G s)) then failM EPanic
    else
      f <- resM (irreducible_poly (mod_degree m)) ;;
      let es := pad_entries (l * m) pin_zero (w_mul G s) in
      putM (w_set_mul G s es) ;;;
      gr_verify 6 c_mul l m f (map (fun e => mul_inputs (e_proof e)) es) (map (fun e => mul_inputs (e_prev e)) es) (map (fun e => mul_inputs (e_next e)) es) (ent s).

  (** dot_proof.rs:35-46, 199-243: new entries are zero vectors of the current size, the first max_dot entries
      are padded *)
  Definition din_zero (dot : nat) : dinput := DIn (repeat 0 dot) (repeat 0 dot) (repeat 0 dot) (repeat 0 dot) 0 0.
  Definition pad_din (dot : nat) (d : dinput) : dinput :=
    DIn (resize dot 0 (d_a0 d)) (resize dot 0 (d_a1 d)) (resize dot 0 (d_b0 d)) (resize dot 0 (d_b1 d)) (d_r d) (d_s d).
  Definition pad_dots (d : dotreg) (n : nat) : list (entry dinput) :=
    let es := pad_entries n (din_zero (dr_size d)) (dr_entries d) in
    map (fun e => Entry (pad_din (dr_size d) (e_proof e)) (pad_din (dr_size d) (e_prev e)) (pad_din (dr_size d) (e_next e))) (firstn (dr_max d) es) ++ skipn (dr_max d) es.
  (** protocol.rs:792-873 *)
  Definition dot_verify (ent : sst G -> rstate G) : M (sst G) unit :=
    s <- getM ;;
    let d := w_dot G s in
    let dot := dr_size d in
    let '(l, m) := dot_params dot (length (dr_entries d)) in
    if Nat.ltb (l * m) (length (dr_entries d)) then failM EPanic
    else
      f <- resM (irreducible_poly (mod_degree m)) ;;
      let es := pad_dots d (l * m) in
      putM (w_set_dot G s (DotReg dot (dr_max d) es)) ;;;
      gr_verify (4 * dot + 2) (c_dot dot) l m f (map (fun e => dot_inputs (e_proof e)) es) (map (fun e => dot_inputs (e_prev e)) es) (map (fun e => dot_inputs (e_next e)) es) (ent s).

  (** protocol.rs:2297-2311 *)
  Definition nonempty {A} (l : list A) : bool := match l with [] => false | _ => true end.
  Definition sw_verify (ent_mul ent_and ent_dot : sst G -> rstate G) : M (sst G) unit :=
    (s <- getM ;; if nonempty (w_mul G s) then mul_verify ent_mul else retM tt) ;;;
    (s <- getM ;; if nonempty (w_and G s) then and_verify ent_and else retM tt) ;;;
    (s <- getM ;; if nonempty (dr_entries (w_dot G s)) then dot_verify ent_dot else retM tt).
End Verify.
