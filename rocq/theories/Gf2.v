(** Polynomials over GF(2) in machine words and the field GF(2^64): dzkp/gf2p64.rs, and what it uses of
    the gf256 crate (a dependency: p64 and gf2p64 with the modulus x^64 + x^4 + x^3 + x + 1).
    Bit n of a number is the coefficient of x^n. *)
From Verif Require Import Base.
Local Open Scope N_scope.

(** Carry-less multiplication of polynomials of any degree. *)
Fixpoint clmul_pos (a : N) (p : positive) : N :=
  match p with
  | xH => a
  | xO p => N.double (clmul_pos a p)
  | xI p => N.lxor a (N.double (clmul_pos a p))
  end.
Definition clmul (a b : N) : N := match b with N0 => 0 | Npos p => clmul_pos a p end.
(** Long division: quotient and remainder. *)
Fixpoint cldivmod (fuel : nat) (a b : N) : N * N :=
  match fuel with
  | O => (0, a)
  | S f =>
      if N.size a <? N.size b then (0, a)
      else
        let s := N.size a - N.size b in
        let '(q, r) := cldivmod f (N.lxor a (N.shiftl b s)) b in
        (N.lxor (N.shiftl 1 s) q, r)
  end.
Definition cldiv (a b : N) : N := fst (cldivmod (N.to_nat (N.size a)) a b).
Definition clmod (a b : N) : N := snd (cldivmod (N.to_nat (N.size a)) a b).
(** p64's operators: products are truncated to 64 bits, sums and differences are xor *)
Definition p64_mul (a b : N) : N := clmul a b mod 2 ^ 64.

(** gf2p64.rs:53-77 (the loop runs at most 65 times; p64 division by zero cannot occur) *)
Fixpoint p64_euclid (fuel : nat) (r0 r1 s0 s1 : N) : N * N :=
  match fuel with
  | O => (r0, s0)
  | S f =>
      if r1 =? 0 then (r0, s0)
      else
        let q := cldiv r0 r1 in
        p64_euclid f r1 (N.lxor r0 (p64_mul q r1)) s1 (N.lxor s0 (p64_mul q s1))
  end.
Definition p64_extended_euclid_rev (a b : N) : N * N := p64_euclid 66 b a 0 1.
(** gf2p64.rs:79-81 *)
Definition inv_mod (a modulus : N) : N := snd (p64_extended_euclid_rev a modulus).

(** gf2p64.rs:12-18 *)
Definition GF_MODULUS : N := 2 ^ 64 + 27.
(** gf2p64.rs:100-190; addition, subtraction: xor; negation: identity *)
Definition gf_add (a b : N) : N := N.lxor a b.
Definition gf_mul (a b : N) : N := clmod (clmul a b) GF_MODULUS.
(** gf2p64.rs:36-38: gf2p64::recip is self^(2^64 - 2), and panics for zero *)
Fixpoint gf_pow (a : N) (p : positive) : N :=
  match p with
  | xH => a
  | xO p => let s := gf_pow a p in gf_mul s s
  | xI p => let s := gf_pow a p in gf_mul a (gf_mul s s)
  end.
Definition gf_inverse (a : N) : res N := if a =? 0 then Err EPanic else Ok (gf_pow a (2 ^ 64 - 2)%positive).
(** gf2p64.rs:40-42 *)
Definition gf_lift (b : bool) : N := if b then 1 else 0.
