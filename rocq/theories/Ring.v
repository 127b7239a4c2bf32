(** Ring elements modulo 2^K and their wire format. *)
From Verif Require Import Base.

(** The widths the code instantiates: Bit, u8, u16, u32, u64, u128
    (iris-mpc/src/types/int_ring.rs:108-440). *)
Definition widths : list Z := [1; 8; 16; 32; 64; 128].

(** Canonical representatives. *)
Definition inr (K x : Z) : Prop := 0 <= x < 2 ^ K.
Definition norm (K x : Z) : Z := x mod 2 ^ K.

(** iris-mpc/src/types/ring_element.rs:160-350: Add/Sub/Mul/Neg are wrapping operations. *)
Definition radd (K a b : Z) : Z := (a + b) mod 2 ^ K.
Definition rsub (K a b : Z) : Z := (a - b) mod 2 ^ K.
Definition rmul (K a b : Z) : Z := (a * b) mod 2 ^ K.
Definition rneg (K a : Z) : Z := (- a) mod 2 ^ K.
(** ring_element.rs:363-369 (Not) *)
Definition rnot (K a : Z) : Z := 2 ^ K - 1 - a.
(** ring_element.rs:371-453: ^, |, & act on the underlying integer. *)
Definition rxor (a b : Z) : Z := Z.lxor a b.
Definition ror (a b : Z) : Z := Z.lor a b.
Definition rand_ (a b : Z) : Z := Z.land a b.
(** ring_element.rs:455-481, bit.rs:329-365: shifts.  uN::wrapping_shl takes the amount mod N,
    Bit yields 0 for a non-zero amount. *)
Definition rshl (K a s : Z) : Z :=
  if K =? 1 then (if s =? 0 then a else 0) else Z.shiftl a (s mod K) mod 2 ^ K.
Definition rshr (K a s : Z) : Z :=
  if K =? 1 then (if s =? 0 then a else 0) else Z.shiftr a (s mod K).
(** ring_element.rs:87-89 *)
Definition get_msb (K a : Z) : Z := if Z.shiftr a (K - 1) =? 1 then 1 else 0.
(** ring_element.rs:91-93 *)
Definition get_bit (K a i : Z) : Z := Z.land (Z.shiftr a i) 1.
(** ring_element.rs:95-103 *)
Definition to_bits (K a : Z) : list Z :=
  map (fun i => if Z.land (Z.shiftr a (Z.of_nat i)) 1 =? 1 then 1 else 0) (seq 0 (Z.to_nat K)).
(** ring_element.rs:105-116 *)
Definition from_bits (K : Z) (bits : list Z) : res Z :=
  if Z.of_nat (length bits) =? K then
    Ok (fold_left (fun r ib => Z.lor r (Z.shiftl (snd ib) (Z.of_nat (fst ib))))
          (combine (seq 0 (length bits)) bits) 0)
  else Err EConversion.

(** ** Bytes *)

(** aby3/utils.rs:244 [(T::K + 7) / 8]; also size_of::<uN>() for the integer types. *)
Definition nbytes (K : Z) : nat := Z.to_nat ((K + 7) / 8).

(** bytes::BufMut::put_u8/put_u16/...: n bytes, most significant first. *)
Fixpoint to_be (n : nat) (x : Z) : list Z :=
  match n with
  | O => []
  | S n' => to_be n' (x / 256) ++ [x mod 256]
  end.
Definition of_be (l : list Z) : Z := fold_left (fun acc b => acc * 256 + b) l 0.
(** uN::to_le_bytes *)
Definition to_le (n : nat) (x : Z) : list Z := rev (to_be n x).

(** int_ring.rs:116-118,172-174,229-231,...: add_to_bytes *)
Definition add_to_bytes (K x : Z) (out : list Z) : list Z := out ++ to_be (nbytes K) x.
(** int_ring.rs:60-64 *)
Definition to_bytes (K x : Z) : list Z := add_to_bytes K x [].
(** int_ring.rs:155-157,212-214,...: what add_to_hash feeds to the hasher *)
Definition hash_bytes (K x : Z) : list Z := to_le (nbytes K) x.

(** int_ring.rs:134-139 (Bit; bit.rs:67-73), 190-195, 247-252, ...: take_from_bytes_mut. *)
Definition take_from_bytes (K : Z) (bs : list Z) : res (Z * list Z) :=
  if Nat.ltb (length bs) (nbytes K) then Err EConversion
  else
    let v := of_be (firstn (nbytes K) bs) in
    if (K =? 1) && negb ((v =? 0) || (v =? 1)) then Err EConversion
    else Ok (v, skipn (nbytes K) bs).

(** int_ring.rs:120-125 (Bit), 176-181, 233-238, ...: from_bytes_mut *)
Definition from_bytes (K : Z) (bs : list Z) : res Z :=
  if Nat.eqb (length bs) (nbytes K) then
    let v := of_be bs in
    if (K =? 1) && negb ((v =? 0) || (v =? 1)) then Err EConversion else Ok v
  else Err EConversion.

(** aby3/utils.rs:278-302 ring_slice_to_bytes, ring_iter_to_bytes *)
Definition ring_slice_to_bytes (K : Z) (l : list Z) : list Z :=
  fold_left (fun out v => add_to_bytes K v out) l [].

(** aby3/utils.rs:226-238 ring_vec_from_bytes *)
Fixpoint take_n (K : Z) (n : nat) (bs : list Z) : res (list Z * list Z) :=
  match n with
  | O => Ok ([], bs)
  | S n' => match take_from_bytes K bs with
            | Err e => Err e
            | Ok (v, bs') => match take_n K n' bs' with
                             | Err e => Err e
                             | Ok (vs, r) => Ok (v :: vs, r)
                             end
            end
  end.
Definition ring_vec_from_bytes (K : Z) (bs : list Z) (n : nat) : res (list Z) :=
  match take_n K n bs with
  | Err e => Err e
  | Ok (vs, []) => Ok vs
  | Ok (_, _ :: _) => Err EConversion
  end.

(** aby3/utils.rs:240-274 ring_iter_from_bytes followed by draining the RingBytesIter:
    the length is checked up front (ConversionError); [next] then uses [expect], so an
    element that does not decode is a panic. *)
Fixpoint iter_drain (K : Z) (n : nat) (bs : list Z) : res (list Z) :=
  match n with
  | O => Ok []
  | S n' => match take_from_bytes K bs with
            | Err _ => Err EPanic
            | Ok (v, bs') => match iter_drain K n' bs' with
                             | Err e => Err e
                             | Ok vs => Ok (v :: vs)
                             end
            end
  end.
Definition ring_iter_from_bytes (K : Z) (bs : list Z) (n : nat) : res (list Z) :=
  if Nat.eqb (length bs) (n * nbytes K) then iter_drain K n bs else Err EConversion.

(** ** Casts to and from the verification ring (types/sharable.rs:88-420)
    Bit,u8,u16,u32 -> u64; u64,u128 -> u128.  Casting up zero-extends, casting down truncates. *)
Definition verif_width (K : Z) : Z := if K <=? 32 then 64 else 128.
Definition to_verif (x : Z) : Z := x.
Definition from_verif (K x : Z) : Z := x mod 2 ^ K.

(** ** Inverse (types/mod.rs:9-32, int_ring.rs:148-153,201-210,258-267,...) *)
(** One iteration of the loop works with wrapping arithmetic of the double-width type (W bits). *)
Fixpoint euclid_loop (fuel : nat) (W r0 r1 s0 s1 : Z) : option (Z * Z) :=
  if r1 =? 0 then Some (r0, s0)
  else match fuel with
       | O => None
       | S f =>
           let q := r0 / r1 in
           euclid_loop f W r1 ((r0 - (q * r1) mod 2 ^ W) mod 2 ^ W)
                       s1 ((s0 - (q * s1) mod 2 ^ W) mod 2 ^ W)
       end.
Definition extended_euclid_rev (fuel : nat) (W a b : Z) : option (Z * Z) :=
  euclid_loop fuel W b a 0 1.
(** [None] = out of fuel (never happens with the fuel below, see RingProofs);
    u128 is [todo!()] (int_ring.rs:429-431). *)
Definition inverse (K x : Z) : option (res Z) :=
  if K =? 128 then Some (Err EPanic)
  else if K =? 1 then Some (if x =? 0 then Err ENoInverse else Ok x)
  else if Z.land 1 x =? 0 then Some (Err ENoInverse)
  else match extended_euclid_rev (Z.to_nat (2 * K + 2)) (2 * K) x (2 ^ K) with
       | None => None
       | Some (_, s) => Some (Ok (s mod 2 ^ K))
       end.
