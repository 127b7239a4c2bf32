(** plain-reference/src/lib.rs: iris codes and the plain matching rule. *)
From Verif Require Import Base.
From Coq Require Import Floats.SpecFloat.

(** lib.rs:22-24.  As a [nat] only through [Z.to_nat] (never unfolded). *)
Definition IRIS_CODE_SIZE_Z : Z := 12800.
Definition IRIS_CODE_SIZE : nat := Z.to_nat IRIS_CODE_SIZE_Z.
Definition IRIS_CODE_SIZE_U64 : nat := 200.

(** lib.rs:12-14: IrisCodeArray([u64; 200]).  A value is well formed if it has 200 words < 2^64. *)
Definition code := list Z.
Definition wf_code (c : code) : Prop :=
  length c = IRIS_CODE_SIZE_U64 /\ Forall (fun w => 0 <= w < 2 ^ 64) c.
(** lib.rs:25-26 *)
Definition ZERO : code := repeat 0 IRIS_CODE_SIZE_U64.
Definition ONES : code := repeat (2 ^ 64 - 1) IRIS_CODE_SIZE_U64.

(** self.0[word] = f(self.0[word]); an index >= 200 panics. *)
Fixpoint update_word (c : code) (word : nat) (f : Z -> Z) : res code :=
  match c, word with
  | [], _ => Err EPanic
  | w :: t, O => Ok (f w :: t)
  | w :: t, S n => match update_word t n f with Ok t' => Ok (w :: t') | Err e => Err e end
  end.

(** lib.rs:28-36 set_bit; i : usize *)
Definition set_bit (c : code) (i : Z) (v : bool) : res code :=
  let word := Z.to_nat (i / 64) in
  let bit := i mod 64 in
  if v then update_word c word (fun w => Z.lor w (Z.shiftl 1 bit))
  else update_word c word (fun w => Z.land w (2 ^ 64 - 1 - Z.shiftl 1 bit)).
(** lib.rs:45-49 get_bit *)
Definition get_bit (c : code) (i : Z) : res bool :=
  match nth_error c (Z.to_nat (i / 64)) with
  | None => Err EPanic
  | Some w => Ok (Z.land (Z.shiftr w (i mod 64)) 1 =? 1)
  end.
(** lib.rs:51-55 flip_bit *)
Definition flip_bit (c : code) (i : Z) : res code :=
  update_word c (Z.to_nat (i / 64)) (fun w => Z.lxor w (Z.shiftl 1 (i mod 64))).

(** u64::count_ones *)
Definition popcount (w : Z) : Z :=
  fold_right (fun i a => (if Z.testbit w (Z.of_nat i) then 1 else 0) + a) 0 (seq 0 64).
(** lib.rs:64-66 *)
Definition count_ones (c : code) : Z := fold_left (fun a w => a + popcount w) c 0.

(** lib.rs:76-113: & and ^ word by word. *)
Definition code_and (a b : code) : code := map2 Z.land a b.
Definition code_xor (a b : code) : code := map2 Z.lxor a b.

(** lib.rs:186-207: the Bits iterator; state (current, index). *)
Definition bits_next (c : code) (st : Z * Z) : res (option (bool * (Z * Z))) :=
  let '(current, index) := st in
  if index >=? IRIS_CODE_SIZE_Z then Ok None
  else
    match (if index mod 64 =? 0 then
             match nth_error c (Z.to_nat (index / 64)) with Some w => Ok w | None => Err EPanic end
           else Ok current) with
    | Err e => Err e
    | Ok cur => Ok (Some (Z.land cur 1 =? 1, (Z.shiftr cur 1, index + 1)))
    end.
Fixpoint bits_from (fuel : nat) (c : code) (st : Z * Z) : res (list bool) :=
  match fuel with
  | O => Ok []
  | S f => match bits_next c st with
           | Err e => Err e
           | Ok None => Ok []
           | Ok (Some (b, st')) => match bits_from f c st' with
                                   | Err e => Err e
                                   | Ok l => Ok (b :: l)
                                   end
           end
  end.
(** lib.rs:37-43, draining the iterator (12800 items, then None). *)
Definition bits (c : code) : res (list bool) := bits_from (S IRIS_CODE_SIZE) c (0, 0).

(** ** f64 arithmetic (IEEE-754 binary64 through Coq's SpecFloat, axiom-free) *)
Definition f64_of_Z (n : Z) : spec_float := binary_normalize 53 1024 n 0 false.
Definition f64_mul := SFmul 53 1024.
(** The constants as rustc rounds the decimal literals: nearest double, i.e. the
    correctly rounded quotient of two small integers. *)
Definition f64_div := SFdiv 53 1024.
Definition RATIO_034 : spec_float := f64_div (f64_of_Z 34) (f64_of_Z 100).
Definition RATIO_070 : spec_float := f64_div (f64_of_Z 70) (f64_of_Z 100).
(** [x as usize]: truncation towards zero; negative, NaN -> 0; (overflow does not occur here). *)
Definition f64_to_usize (x : spec_float) : Z :=
  match x with
  | S754_finite false m e => if 0 <=? e then Zpos m * 2 ^ e else Zpos m / 2 ^ (- e)
  | S754_infinity false => 2 ^ 64 - 1
  | _ => 0
  end.

(** lib.rs:7-10 *)
Definition MASK_THRESHOLD : Z := f64_to_usize (f64_mul RATIO_070 (f64_of_Z IRIS_CODE_SIZE_Z)).
(** lib.rs:165 and iris-mpc/src/iris/protocol.rs:167 *)
Definition match_threshold (mask_len : Z) : Z := f64_to_usize (f64_mul (f64_of_Z mask_len) RATIO_034).

(** lib.rs:115-119 *)
Record iris := { ir_code : code; ir_mask : code }.

(** lib.rs:155-167 *)
Definition is_close (a b : iris) : res bool :=
  let combined_mask := code_and (ir_mask a) (ir_mask b) in
  let combined_mask_len := count_ones combined_mask in
  if combined_mask_len <? MASK_THRESHOLD then Err EPanic
  else
    let combined_code := code_and (code_xor (ir_code a) (ir_code b)) combined_mask in
    let code_distance := count_ones combined_code in
    Ok (code_distance <? match_threshold combined_mask_len).
