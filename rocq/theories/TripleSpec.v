(** Specification vocabulary for the SPDZ-wise engine: authenticated sharings, single-bit AND triples,
    what a pool of triples contains, and when the precomputed triples suffice.  Independent of the
    protocols. *)
From Verif Require Import Base Ring Rng Aby3 ShareSpec Spdz.

(** The parties hold sharings modulo 2^U of v and of its MAC v * r under the key r. *)
Definition auth_shared (U r : Z) (X : pid -> ashare) (v : Z) : Prop :=
  arith_shared U (fun i => av (X i)) v /\ arith_shared U (fun i => am (X i)) ((v * r) mod 2 ^ U).
(** An authenticated sharing of the client's K-bit value x: some value of the wider ring with a correct
    MAC that is congruent to x. *)
Definition spdz_shared (K r : Z) (X : pid -> ashare) (x : Z) : Prop :=
  exists v, auth_shared (verif_width K) r X v /\ x = v mod 2 ^ K.

(** One AND gate as seen by one party: its two share bits of a, of b and of c. *)
Definition bit_triple : Type := (bool * bool) * (bool * bool) * (bool * bool).
Definition share_bit (x : share) (k : nat) : bool * bool :=
  (Z.testbit (sa x) (Z.of_nat k), Z.testbit (sb x) (Z.of_nat k)).
(** The first n bit triples of a word. *)
Definition word_bits (n : nat) (a b c : share) : list bit_triple :=
  map (fun k => (share_bit a k, share_bit b k, share_bit c k)) (seq 0 n).
(** The bit triples in three columns of 128-bit words whose last word holds only [used] of them. *)
Fixpoint column_bits (used : nat) (a b c : list share) : list bit_triple :=
  match a, b, c with
  | [x], [y], [z] => word_bits used x y z
  | x :: a, y :: b, z :: c => word_bits 128 x y z ++ column_bits used a b c
  | _, _, _ => []
  end.
Definition pool_bits (t : triples) : list bit_triple :=
  column_bits (Z.to_nat (t_bits t)) (t_a t) (t_b t) (t_c t).
(** The two components of a share are n-bit values. *)
Definition share_in (n : Z) (x : share) : Prop := inr n (sa x) /\ inr n (sb x).
(** A well-formed pool: three columns of equal length, 128-bit words, nothing above the used bits of
    the last word; an empty pool has its (non-existent) last word full. *)
Definition pool_wf (t : triples) : Prop :=
  length (t_b t) = length (t_a t) /\ length (t_c t) = length (t_a t) /\
  0 < t_bits t <= 128 /\
  (t_a t = [] -> t_bits t = 128) /\
  Forall (share_in 128) (t_a t ++ t_b t ++ t_c t) /\
  (t_a t <> [] -> share_in (t_bits t) (last (t_a t) szero) /\
                  share_in (t_bits t) (last (t_b t) szero) /\ share_in (t_bits t) (last (t_c t) szero)).

(** Where the bits of a push end up in a pool: below the bits already in a partially filled word, the
    rest in a new word.  The same for all three columns and whatever the elements are. *)
Definition place {T} (pool pushed : list T) : list T :=
  let full := (128 * (length pool / 128))%nat in
  let free := (128 - length pool mod 128)%nat in
  firstn full pool ++ firstn free pushed ++ skipn full pool ++ skipn free pushed.

(** The Fisher-Yates shuffle of an arbitrary list: the k-th pick chooses the next element among those
    not yet placed. *)
Fixpoint set_nth {T} (n : nat) (x : T) (l : list T) : list T :=
  match l with [] => [] | y :: t => match n with O => x :: t | S n => y :: set_nth n x t end end.
Definition exchange {T} (i j : nat) (l : list T) : list T :=
  match nth_error l i, nth_error l j with Some x, Some y => set_nth i y (set_nth j x l) | _, _ => l end.
Fixpoint fisher_yates {T} (ks : list nat) (l : list T) : list T :=
  match ks with
  | [] => l
  | k :: ks => match exchange k 0 l with [] => [] | x :: t => x :: fisher_yates ks t end
  end.
(** Admissible picks for a list of n elements. *)
Fixpoint picks_ok (n : nat) (ks : list nat) : Prop :=
  match n, ks with O, [] => True | S m, k :: ks => (k < n)%nat /\ picks_ok m ks | _, _ => False end.
(** The picks drawn from a generator. *)
Fixpoint picks (G : rng) (r : rstate G) (n : nat) : list nat :=
  match n with
  | O => []
  | S m => let '(r', v) := rdraw G r (- Z.of_nat n) in Z.to_nat (v mod Z.of_nat n) :: picks G r' m
  end.

(** ** The triple budget, in 128-bit words (a database of n > 0 entries, chunks of c > 0 entries, K-bit
    ring). *)
Definition words (n : Z) : Z := (n + 127) / 128.
(** Words of AND gates one iris_in_db call evaluates: 2K-3 gates per comparison, each chunk padded to
    whole words, and the or over all n results. *)
Definition gate_words (K n c : Z) : Z := (2 * K - 3) * (n / c * words c + words (n mod c)) + words n.
(** Words of triples the call asks for. *)
Definition asked_words (K n c : Z) : Z :=
  words ((n + c - 1) / c * c * (2 * K - 3) + (n + c - 2) / c * c).
(** At least 2^13 words are generated and at least 2^13 are consumed at a time. *)
Definition batch : Z := 8192.
(** Words available after the precomputation when p were left over. *)
Definition available (K n c p : Z) : Z :=
  let q := asked_words K n c in if p <=? q then p + Z.max (q - p) batch else p.
(** Words left over after the call; [None]: the call runs out of triples. *)
Definition leftover (K n c p : Z) : option Z :=
  let need := Z.max (gate_words K n c) batch in
  if need <=? available K n c p then Some (available K n c p - need) else None.
(** The same over a sequence of calls (database size, chunk size) made on one engine. *)
Fixpoint leftovers (K : Z) (calls : list (Z * Z)) (p : Z) : option Z :=
  match calls with
  | [] => Some p
  | (n, c) :: t => match leftover K n c p with Some p' => leftovers K t p' | None => None end
  end.
