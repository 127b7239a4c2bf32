(** Default methods of traits/mpc_trait.rs and the plain engine. *)
From Verif Require Import Base Ring Prog BinTrait Iris Protocol.
Local Open Scope M_scope.

(** mpc_trait.rs:51-80: zero out the masked positions of both codes, then dot_many.  Entries are
    independent, so the set_at loop is written as one pass over code and mask bits
    (both have 12800 entries there). *)
Definition masked (A : Type) (zero : A) (l : list A) (bs : list bool) : list A :=
  map2 (fun x (b : bool) => if b then x else zero) l bs.
Definition default_masked_dot_many {S A} (zero : A) (dot_many : list (list A) -> list (list A) -> M S (list A))
           (a : list A) (b : list (list A)) (masks : list code) : M S (list A) :=
  vecs <- resM (mapM_res (fun bm =>
            if negb (Nat.eqb (length a) IRIS_CODE_SIZE) || negb (Nat.eqb (length (fst bm)) IRIS_CODE_SIZE)
            then Err EInvalidCodeSize
            else rbind (bits (snd bm)) (fun bs => Ok (masked A zero a bs, masked A zero (fst bm) bs)))
          (combine b masks)) ;;
  dot_many (map fst vecs) (map snd vecs).

(** swift3/vecshare.rs:13-33 and spdzwise/vecshare.rs:48-80: sum of the entries whose mask bit is
    set, [zip]ped with mask.bits(). *)
Definition zip_filter_sum {A} (zero : A) (add : A -> A -> A) (l : list A) (bs : list bool) : A :=
  fold_left (fun acc (xb : A * bool) => if snd xb then add acc (fst xb) else acc) (combine l bs) zero.
Definition zip_filter_reduce_add_twice {A} (zero : A) (add : A -> A -> A) (a b : list A) (mask : code) : res (A * A) :=
  if Nat.eqb (length a) 0 || negb (Nat.eqb (length a) (length b)) then Err EInvalidCodeSize
  else rbind (bits mask) (fun bs => Ok (zip_filter_sum zero add a bs, zip_filter_sum zero add b bs)).

Section Plain.
  Variable signed : bool.
  Variable K : Z.
  (** The value of the K-bit pattern x as the Rust integer type. *)
  Definition sval (x : Z) : Z := if signed && (2 ^ (K - 1) <=? x) then x - 2 ^ K else x.
  (** [a + b] on the primitive type, with overflow checks (debug builds panic; release builds wrap). *)
  Definition checked_add (a b : Z) : res Z :=
    let lo := if signed then - 2 ^ (K - 1) else 0 in
    let hi := if signed then 2 ^ (K - 1) else 2 ^ K in
    let r := sval a + sval b in
    if (lo <=? r) && (r <? hi) then Ok (r mod 2 ^ K) else Err EPanic.
  Fixpoint plain_sum (l : list Z) (bs : list bool) (acc : Z) : res Z :=
    match l, bs with
    | x :: l, b :: bs => if b then rbind (checked_add acc x) (plain_sum l bs) else plain_sum l bs acc
    | _, _ => Ok acc
    end.
  (** mpc_trait.rs:108-128 *)
  Definition plain_filter_reduce_add_twice (a b : list Z) (mask : code) : res (Z * Z) :=
    if Nat.eqb (length a) 0 || negb (Nat.eqb (length a) (length b)) || negb (Nat.eqb (length a) IRIS_CODE_SIZE)
    then Err EInvalidCodeSize
    else rbind (bits mask) (fun bs => rbind (plain_sum a bs 0) (fun s1 => rbind (plain_sum b bs 0) (fun s2 => Ok (s1, s2)))).

  (** mpc_trait.rs:275-284 *)
  Definition plain_dot (a b : list Z) : M unit Z :=
    if negb (Nat.eqb (length a) (length b)) then failM EInvalidSize
    else retM (fold_left (fun r xy => radd K r (rmul K (fst xy) (snd xy))) (combine a b) 0).
  (** mpc_trait.rs:286-298 *)
  Definition plain_dot_many (a b : list (list Z)) : M unit (list Z) :=
    if negb (Nat.eqb (length a) (length b)) then failM EInvalidSize
    else mapM2 plain_dot a b.
  (** mpc_trait.rs:197-323: the Plain engine; Bit is 0 or 1. *)
  Definition plain_engine : mpc unit Z Z :=
    {| m_K := K;
       m_precompute := fun _ => retM tt;
       m_masked_dot_many := default_masked_dot_many 0 plain_dot_many;
       m_filter_reduce_add_twice := plain_filter_reduce_add_twice;
       m_add := radd K;
       m_sub := rsub K;
       m_mul_const := rmul K;
       m_sub_const := fun _ => rsub K;
       m_get_msb_many := fun a => retM (map (get_msb K) a);
       m_reduce_binary_or := fun a _ => retM (fold_left ror a 0);
       m_verify := retM tt;
       m_open_bit := fun b => retM (b =? 1) |}.
End Plain.
