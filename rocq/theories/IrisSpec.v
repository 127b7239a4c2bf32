(** Specification of iris codes: a code is an array of 12800 bits, a match is a statement about
    sets of positions.  Nothing here refers to how the code computes. *)
From Verif Require Import Base Iris.

(** Bit i of a code: bit (i mod 64) of 64-bit word (i / 64). *)
Definition bit_at (c : code) (i : Z) : bool := Z.testbit (nth (Z.to_nat (i / 64)) c 0) (i mod 64).

(** 0, 1, ..., 12799 *)
Definition positions : list Z := map Z.of_nat (seq 0 IRIS_CODE_SIZE).

(** How many positions satisfy P. *)
Definition count (P : Z -> bool) : Z := Z.of_nat (length (filter P positions)).

(** Positions valid in both masks. *)
Definition both_valid (a b : iris) (i : Z) : bool := bit_at (ir_mask a) i && bit_at (ir_mask b) i.
(** Valid positions where the codes differ. *)
Definition differ (a b : iris) (i : Z) : bool :=
  xorb (bit_at (ir_code a) i) (bit_at (ir_code b) i) && both_valid a b i.

Definition wf_iris (a : iris) : Prop := wf_code (ir_code a) /\ wf_code (ir_mask a).

(** At least 70 % of the positions are jointly valid. *)
Definition enough_valid (a b : iris) : Prop := 100 * count (both_valid a b) >= 70 * 12800.
(** The matching rule: fewer differing positions than floor(34 % of the valid ones). *)
Definition close (a b : iris) : Prop := count (differ a b) < 34 * count (both_valid a b) / 100.
