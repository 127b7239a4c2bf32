(** Specification vocabulary for the AND-triple check of the SPDZ-wise engine against a malicious party
    (property C56). *)
From Verif Require Import Base Ring Prog Rng Net Aby3 MacSpec.

(** 128 AND gates in the words a, b, c: at which positions is c not a AND b? *)
Definition word_errors (a b c : Z) : list bool :=
  map (fun k => xorb (Z.testbit c (Z.of_nat k)) (Z.testbit a (Z.of_nat k) && Z.testbit b (Z.of_nat k))) (seq 0 128).
(** The same over columns of words. *)
Fixpoint errors (a b c : list Z) : list bool :=
  match a, b, c with x :: a, y :: b, z :: c => word_errors x y z ++ errors a b c | _, _, _ => [] end.
(** All bits of a list of words. *)
Definition bits_of (l : list Z) : list bool := flat_map (fun w => map (fun k => Z.testbit w (Z.of_nat k)) (seq 0 128)) l.

(** All sequences of picks of a Fisher-Yates shuffle of n elements. *)
Fixpoint all_picks (n : nat) : list (list nat) :=
  match n with O => [[]] | S m => flat_map (fun k => map (cons k) (all_picks m)) (seq 0 n) end.

(** Values of replicated binary sharings given by three lists of summands. *)
Definition xor_all (d : pid -> list Z) : list Z := map2 Z.lxor (map2 Z.lxor (d P0) (d P1)) (d P2).
(** The m-th block of n values. *)
Definition block (n m : nat) (l : list Z) : list Z := firstn n (skipn (m * n) l).

(** Triple generation draws 3 L words from each generator; generator p is shared by p and p+1.  [d p]: what
    generator p outputs.  The first two blocks of L words are p's summands of the random inputs a and b, the
    third masks p's part of the products. *)
Definition draw_shares (L m : nat) (d : pid -> list Z) (p : pid) : list share := map2 Share (block L m (d p)) (block L m (d (prev p))).
Definition and_part (x y : share) : Z := Z.lxor (Z.lxor (Z.land (sa x) (sa y)) (Z.land (sa x) (sb y))) (Z.land (sb x) (sa y)).
(** What p computes and sends if it is honest. *)
Definition product_words (L : nat) (d : pid -> list Z) (p : pid) : list Z :=
  map2 (fun xy z => Z.lxor (and_part (fst xy) (snd xy)) z) (combine (draw_shares L 0 d p) (draw_shares L 1 d p)) (map2 Z.lxor (block L 2 (d p)) (block L 2 (d (prev p)))).
(** The third party's first message to i, as L words: how it differs from the honest one. *)
Definition third_words (i : pid) (L : nat) (d : pid -> list Z) (l : list msg) (off : list Z) : Prop :=
  exists m rest W, l = m :: rest /\ ring_iter_from_bytes 128 m L = Ok W /\ off = map2 Z.lxor W (product_words L d (prev i)).
