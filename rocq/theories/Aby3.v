(** The semi-honest ABY3 engine: aby3/share.rs, aby3/random/prf.rs, aby3/vecshare.rs,
    aby3/protocol.rs.  All definitions are parametrised by the bit width K of the share type and,
    where they depend on it, by the party identifier i = network.get_id(). *)
From Verif Require Import Base Ring Prog Rng Net BinTrait Iris.

(** share.rs:21-27: party i holds (x_i, x_{i-1}). *)
Record share := Share { sa : Z; sb : Z }.
(** share.rs Zero/Default *)
Definition szero : share := Share 0 0.

(** share.rs:125-208 *)
Definition sh_add (K : Z) (x y : share) : share := Share (radd K (sa x) (sa y)) (radd K (sb x) (sb y)).
Definition sh_sub (K : Z) (x y : share) : share := Share (rsub K (sa x) (sa y)) (rsub K (sb x) (sb y)).
(** share.rs:210-286: multiplication by a ring element *)
Definition sh_mulc (K : Z) (x : share) (c : Z) : share := Share (rmul K (sa x) c) (rmul K (sb x) c).
(** share.rs:288-331: the local part of the multiplication *)
Definition local_mul (K : Z) (x y : share) : Z :=
  radd K (radd K (rmul K (sa x) (sa y)) (rmul K (sa x) (sb y))) (rmul K (sb x) (sa y)).
Definition sh_mul (K : Z) (x y : share) : share := Share (local_mul K x y) 0.
(** share.rs:333-343 *)
Definition sh_neg (K : Z) (x : share) : share := Share (rneg K (sa x)) (rneg K (sb x)).
(** share.rs:351-387 *)
Definition sh_xor (x y : share) : share := Share (rxor (sa x) (sa y)) (rxor (sb x) (sb y)).
(** share.rs:389-433: the local part of the AND *)
Definition local_and (x y : share) : Z :=
  rxor (rxor (rand_ (sa x) (sa y)) (rand_ (sa x) (sb y))) (rand_ (sb x) (sa y)).
Definition sh_and (x y : share) : share := Share (local_and x y) 0.
(** share.rs:435-513: AND with a public ring element *)
Definition sh_andc (x : share) (c : Z) : share := Share (rand_ (sa x) c) (rand_ (sb x) c).
(** share.rs:515-525 *)
Definition sh_not (K : Z) (x : share) : share := Share (rnot K (sa x)) (rnot K (sb x)).
(** share.rs:527-545 *)
Definition sh_shl (K : Z) (x : share) (n : Z) : share := Share (rshl K (sa x) n) (rshl K (sb x) n).
(** share.rs:60-68 *)
Definition sh_to_bits (K : Z) (x : share) : list share := map2 Share (to_bits K (sa x)) (to_bits K (sb x)).
(** share.rs:82-88 *)
Definition sh_get_msb (K : Z) (x : share) : share := Share (get_msb K (sa x)) (get_msb K (sb x)).
(** share.rs:90-122 *)
Definition sh_add_const (i : pid) (K : Z) (x : share) (c : Z) : share :=
  match i with P0 => Share (radd K (sa x) c) (sb x) | P1 => Share (sa x) (radd K (sb x) c) | P2 => x end.
Definition sh_sub_const (i : pid) (K : Z) (x : share) (c : Z) : share :=
  match i with P0 => Share (rsub K (sa x) c) (sb x) | P1 => Share (sa x) (rsub K (sb x) c) | P2 => x end.
Definition sh_xor_const (i : pid) (x : share) (c : Z) : share :=
  match i with P0 => Share (rxor (sa x) c) (sb x) | P1 => Share (sa x) (rxor (sb x) c) | P2 => x end.

(** vecshare.rs:13-33: sum of the elements whose mask bit is set; [get_bit] panics beyond 12800. *)
Fixpoint filter_fold (K : Z) (mask : code) (idx : Z) (l : list share) (acc : share) : res share :=
  match l with
  | [] => Ok acc
  | x :: t => match Iris.get_bit mask idx with
              | Err e => Err e
              | Ok b => filter_fold K mask (idx + 1) t (if b then sh_add K acc x else acc)
              end
  end.
Definition filter_reduce_add_twice (K : Z) (a b : list share) (mask : code) : res (share * share) :=
  if Nat.eqb (length a) 0 || negb (Nat.eqb (length a) (length b)) then Err EInvalidCodeSize
  else rbind (filter_fold K mask 0 a szero) (fun s1 =>
       rbind (filter_fold K mask 0 b szero) (fun s2 => Ok (s1, s2))).

Section Aby3.
  Variable G : rng.
  Local Open Scope M_scope.

  (** random/prf.rs:8-11 *)
  Record prf := Prf { my_prf : rstate G; next_prf : rstate G }.
  (** prf.rs:23-28 *)
  Definition prf_new (my_key next_key : list Z) : prf := Prf (rseed G my_key) (rseed G next_key).
  (** prf.rs:35-42 *)
  Definition gen_rands (K : Z) : M prf (Z * Z) := fun p =>
    let '(m, a) := draw G K (my_prf p) in
    let '(n, b) := draw G K (next_prf p) in
    Ret (Prf m n, (a, b)).
  (** prf.rs:44-49 *)
  Definition gen_rand (K : Z) : M prf share := ab <- gen_rands K ;; retM (Share (fst ab) (snd ab)).
  (** prf.rs:51-57 *)
  Definition gen_zero_share (K : Z) : M prf Z := ab <- gen_rands K ;; retM (rsub K (fst ab) (snd ab)).
  (** prf.rs:59-65 *)
  Definition gen_binary_zero_share (K : Z) : M prf Z := ab <- gen_rands K ;; retM (rxor (fst ab) (snd ab)).

  Variable i : pid.

  (** protocol.rs:57-63 setup_prf_from_seed (setup_prf draws the seed from the OS) *)
  Definition setup_prf_from_seed (seed : list Z) : M prf unit :=
    m <- liftM (send_and_receive i seed) ;;
    their_seed <- resM (bytes_to_seed m) ;;
    putM (prf_new seed their_seed).

  (** protocol.rs:65-88 *)
  Definition a2b_pre (x : share) : share * share * share :=
    match i with
    | P0 => (Share (sa x) 0, szero, Share 0 (sb x))
    | P1 => (Share 0 (sb x), Share (sa x) 0, szero)
    | P2 => (szero, Share 0 (sb x), Share (sa x) 0)
    end.

  (** protocol.rs:90-107: pack single bits into words of W bits *)
  Definition pack_word (W : Z) (bits : list share) : share :=
    fold_left (fun acc nb => Share (ror (sa acc) (rshl W (sa (snd nb)) (Z.of_nat (fst nb))))
                                   (ror (sb acc) (rshl W (sb (snd nb)) (Z.of_nat (fst nb)))))
      (combine (seq 0 (length bits)) bits) szero.
  Definition pack (W : Z) (a : list share) : list share := map (pack_word W) (chunks (Z.to_nat W) a).

  (** reshare one / many additive shares *)
  Definition reshare (K : Z) (a : Z) : M prf share :=
    b <- liftM (send_and_receive_value i K a) ;; retM (Share a b).
  Definition reshare_many (K : Z) (l : list Z) : M prf (list share) :=
    bs <- liftM (send_slice_and_receive_iter i K l) ;; retM (map2 Share l bs).

  (** protocol.rs:144-172 (debug_assert only on the lengths: release code zips) *)
  Definition mul_many (K : Z) (a b : list share) : M prf (list share) :=
    l <- mapM2 (fun x y => r <- gen_zero_share K ;; retM (radd K (local_mul K x y) r)) a b ;;
    reshare_many K l.

  (** protocol.rs:286-304; [id] is the usize argument *)
  Definition input (K : Z) (v : option Z) (id : Z) : M prf share :=
    if 3 <=? id then failM (EId id)
    else
      r <- gen_zero_share K ;;
      a <- (if id =? pid_num i then
              match v with Some x => retM (radd K r x) | None => failM EValue end
            else retM r) ;;
      reshare K a.

  (** protocol.rs:306-328 *)
  Definition input_all (K : Z) (x : Z) : M prf (list share) :=
    l <- mapM (fun id => r <- gen_zero_share K ;;
                         retM (if id =? pid_num i then radd K r x else r)) [0; 1; 2] ;;
    reshare_many K l.

  (** protocol.rs:342-345 *)
  Definition open (K : Z) (x : share) : M prf Z :=
    c <- liftM (send_and_receive_value i K (sb x)) ;; retM (radd K (radd K (sa x) (sb x)) c).
  (** protocol.rs:347-356 *)
  Definition open_many (K : Z) (xs : list share) : M prf (list Z) :=
    cs <- liftM (send_slice_and_receive_iter i K (map sb xs)) ;;
    retM (map2 (fun s c => radd K (radd K c (sa s)) (sb s)) xs cs).
  (** protocol.rs:358-361 *)
  Definition open_bit (x : share) : M prf bool :=
    c <- liftM (send_and_receive_value i 1 (sb x)) ;;
    retM (rxor (rxor (sa x) (sb x)) c =? 1).
  (** protocol.rs:363-372 *)
  Definition open_bit_many (xs : list share) : M prf (list bool) :=
    cs <- liftM (send_slice_and_receive_iter i 1 (map sb xs)) ;;
    retM (map2 (fun s c => rxor (rxor c (sa s)) (sb s) =? 1) xs cs).

  (** protocol.rs:402-411 *)
  Definition mul (K : Z) (a b : share) : M prf share :=
    r <- gen_zero_share K ;;
    reshare K (radd K (local_mul K a b) r).

  (** protocol.rs:417-432 *)
  Definition dot (K : Z) (a b : list share) : M prf share :=
    if negb (Nat.eqb (length a) (length b)) then failM EInvalidSize
    else
      r <- gen_zero_share K ;;
      reshare K (fold_left (fun c xy => radd K c (local_mul K (fst xy) (snd xy))) (combine a b) r).

  (** protocol.rs:434-466 *)
  Definition dot_many (K : Z) (a b : list (list share)) : M prf (list share) :=
    if negb (Nat.eqb (length a) (length b)) then failM EInvalidSize
    else
      l <- mapM2 (fun x y =>
             r <- gen_zero_share K ;;
             if negb (Nat.eqb (length x) (length y)) then failM EInvalidSize
             else retM (fold_left (fun c xy => radd K c (local_mul K (fst xy) (snd xy))) (combine x y) r)) a b ;;
      reshare_many K l.

  (** protocol.rs:468-504 *)
  Definition masked_dot_many (K : Z) (a : list share) (b : list (list share)) (masks : list code) : M prf (list share) :=
    if negb (Nat.eqb (length a) IRIS_CODE_SIZE) then failM EInvalidSize
    else
      l <- mapM2 (fun y mask =>
             r <- gen_zero_share K ;;
             if negb (Nat.eqb (length a) (length y)) then failM EInvalidSize
             else
               bs <- resM (bits mask) ;;
               retM (fold_left (fun (c : Z) (xyb : share * share * bool) => if snd xyb then radd K c (local_mul K (fst (fst xyb)) (snd (fst xyb))) else c)
                       (combine (combine a y) bs) r)) b masks ;;
      reshare_many K l.

  (** protocol.rs:556-565 *)
  Definition and_ (K : Z) (a b : share) : M prf share :=
    r <- gen_binary_zero_share K ;;
    reshare K (rxor (local_and a b) r).
  (** protocol.rs:567-593 *)
  Definition and_many (K : Z) (a b : list share) : M prf (list share) :=
    if negb (Nat.eqb (length a) (length b)) then failM EInvalidSize
    else
      l <- mapM2 (fun x y => r <- gen_binary_zero_share K ;; retM (rxor (local_and x y) r)) a b ;;
      reshare_many K l.

  (** The engine handed to the generic code of traits/binary_trait.rs. *)
  Definition aby3_bin (K : Z) : bineng prf share :=
    BinEng prf share K sh_xor (sh_shl K) (and_ K) (and_many K).

  (** protocol.rs:595-616 *)
  Definition arithmetic_to_binary (K : Z) (x : share) : M prf share :=
    let '(x1, x2, x3) := a2b_pre x in binary_add_3 (aby3_bin K) x1 x2 x3.
  Definition arithmetic_to_binary_many (K : Z) (x : list share) : M prf (list share) :=
    let pre := map a2b_pre x in
    binary_add_3_many (aby3_bin K) (map (fun t => fst (fst t)) pre) (map (fun t => snd (fst t)) pre) (map snd pre).

  (** protocol.rs:506-509 *)
  Definition get_msb_share (K : Z) (x : share) : M prf share :=
    b <- arithmetic_to_binary K x ;; retM (sh_get_msb K b).
End Aby3.

(** ** Bit-sliced MSB extraction and OR reduction: aby3/protocol.rs:27-43, 116-142, 174-253, 511-545
    and, with identical bodies, spdzwise/protocol.rs:605-725; generic in the engine. *)
(** utils.rs:366-384: bit r of input n becomes bit n of output r (shares of T -> shares of u128);
    [K] output words. *)
Definition transpose_word (f : share -> Z) (r : nat) (inputs : list share) : Z :=
  fold_left (fun acc nx => ror acc (rshl 128 (if rand_ (Z.shiftr (f (snd nx)) (Z.of_nat r)) 1 =? 1 then 1 else 0)
                                       (Z.of_nat (fst nx))))
    (combine (seq 0 (length inputs)) inputs) 0.
Definition transpose_shared_input (K : Z) (inputs : list share) : list share :=
  map (fun r => Share (transpose_word sa r inputs) (transpose_word sb r inputs)) (seq 0 (Z.to_nat K)).
(** utils.rs:386-398: result row r lists, for every chunk of 128 inputs, output r of that chunk. *)
Definition transpose_pack_u128 (K : Z) (x : list share) : list (list share) :=
  fold_left (fun res ch => map2 (fun des src => des ++ [src]) res (transpose_shared_input K ch))
    (chunks 128 x) (repeat [] (Z.to_nat K)).
(** utils.rs:400-417, 419-432 *)
Definition transposed_pack_xor (x1 x2 : list (list share)) : list (list share) := map2 (map2 sh_xor) x1 x2.

(** Vec::pop().expect(..) *)
Definition pop {A} (l : list A) : res (list A * A) :=
  match rev l with [] => Err EPanic | a :: t => Ok (rev t, a) end.

Section Sliced.
  Context {S : Type} (e1 e8 e16 e32 e64 e128 : bineng S share).
  Local Open Scope M_scope.

  (** protocol.rs:174-191 *)
  Definition transposed_pack_and (x1 x2 : list (list share)) : M S (list (list share)) :=
    r0 <- resM (index x1 0) ;;
    x3 <- b_and_many e128 (concat x1) (concat x2) ;;
    if Nat.eqb (length r0) 0 then failM EPanic else retM (chunks (length r0) x3).

  (** protocol.rs:228-236: one step of the ripple carry chain *)
  Definition ripple_step (c : list share) (ab : list share * list share) : M S (list share) :=
    tmp_a <- resM (xor_many e128 (fst ab) c) ;;
    tmp_b <- resM (xor_many e128 (snd ab) c) ;;
    tmp_c <- b_and_many e128 tmp_a tmp_b ;;
    resM (xor_many e128 tmp_c c).

  (** protocol.rs:193-253 *)
  Definition msb_adder_many (K : Z) (x1 x2 x3 : list share) : M S (list share) :=
    let len := length x1 in
    if negb (Nat.eqb len (length x2)) || negb (Nat.eqb len (length x3)) then failM EInvalidSize
    else
      let x1 := transpose_pack_u128 K x1 in
      let x2 := transpose_pack_u128 K x2 in
      let x3 := transpose_pack_u128 K x3 in
      let x2x3 := transposed_pack_xor x2 x3 in
      let s := transposed_pack_xor x1 x2x3 in
      let x1x3 := transposed_pack_xor x1 x3 in
      x1x3 <- resM (pop x1x3) ;;
      x2x3 <- resM (pop x2x3) ;;
      x3 <- resM (pop x3) ;;
      c <- transposed_pack_and (fst x1x3) (fst x2x3) ;;
      let a := s in
      let b := transposed_pack_xor c (fst x3) in
      a1 <- resM (index a 1) ;;
      b0 <- resM (index b 0) ;;
      c <- b_and_many e128 a1 b0 ;;
      a <- resM (pop a) ;;
      b <- resM (pop b) ;;
      c <- foldM ripple_step (combine (skipn 2 (fst a)) (skipn 1 (fst b))) c ;;
      r <- resM (xor_many e128 (snd a) (snd b)) ;;
      r <- resM (xor_many e128 r c) ;;
      retM (resize len szero (flat_map (sh_to_bits 128) r)).

  (** utils.rs:351-364 split: low and high half; protocol.rs:27-43 *)
  Definition split_share (H : Z) (x : share) : share * share :=
    (Share (sa x mod 2 ^ H) (sb x mod 2 ^ H), Share (Z.shiftr (sa x) H mod 2 ^ H) (Z.shiftr (sb x) H mod 2 ^ H)).
  (** protocol.rs:116-142 *)
  Definition reduce_or_u8 (x : share) : M S share :=
    let bit (v : Z) (n : nat) := if rand_ (rshr 8 v (Z.of_nat n)) 1 =? 1 then 1 else 0 in
    let decomp := map (fun n => Share (bit (sa x) n) (bit (sb x) n)) (seq 0 8) in
    d4 <- or_many e1 (firstn 4 decomp) (skipn 4 decomp) ;;
    d2 <- or_many e1 (firstn 2 d4) (skipn 2 d4) ;;
    d1 <- or_many e1 (firstn 1 d2) (skipn 1 d2) ;;
    resM (index d1 0).
  Definition reduce_or_u16 (x : share) : M S share :=
    let '(l, h) := split_share 8 x in o <- b_or e8 l h ;; reduce_or_u8 o.
  Definition reduce_or_u32 (x : share) : M S share :=
    let '(l, h) := split_share 16 x in o <- b_or e16 l h ;; reduce_or_u16 o.
  Definition reduce_or_u64 (x : share) : M S share :=
    let '(l, h) := split_share 32 x in o <- b_or e32 l h ;; reduce_or_u32 o.
  Definition reduce_or_u128 (x : share) : M S share :=
    let '(l, h) := split_share 64 x in o <- b_or e64 l h ;; reduce_or_u64 o.

  (** protocol.rs:537-545 *)
  Definition reduce_binary_or (a : list share) (chunk_size : nat) : M S share :=
    r <- or_tree e128 (pack 128 a) chunk_size ;;
    reduce_or_u128 r.
End Sliced.

Section Aby3Top.
  Variable G : rng.
  Variable i : pid.
  (** protocol.rs:511-531 *)
  Definition get_msb_many (K : Z) (a : list share) : M (prf G) (list share) :=
    let pre := map (a2b_pre i) a in
    msb_adder_many (aby3_bin G i 128) K
      (map (fun t => fst (fst t)) pre) (map (fun t => snd (fst t)) pre) (map snd pre).
  Definition aby3_reduce_binary_or (a : list share) (chunk_size : nat) : M (prf G) share :=
    let e := aby3_bin G i in
    reduce_binary_or (e 1) (e 8) (e 16) (e 32) (e 64) (e 128) a chunk_size.
End Aby3Top.

(** protocol.rs:330-340: dealing shares of [x] with generator state [r]; party 0, 1, 2 in order. *)
Definition share_value (G : rng) (K x : Z) (r : rstate G) : rstate G * (share * share * share) :=
  let '(r1, a) := draw G K r in
  let '(r2, b) := draw G K r1 in
  let c := rsub K (rsub K x a) b in
  (r2, (Share a c, Share b a, Share c b)).

(** protocol.rs:256-550: the operations the iris protocol uses ([verify] 547-549 and
    precompute_and_triples, mpc_trait.rs:14-16, do nothing). *)
From Verif Require Import Protocol.
Definition aby3_engine (G : rng) (K : Z) (i : pid) : mpc (prf G) share share :=
  {| m_K := K;
     m_precompute := fun _ => retM tt;
     m_masked_dot_many := masked_dot_many G i K;
     m_filter_reduce_add_twice := filter_reduce_add_twice K;
     m_add := sh_add K;
     m_sub := sh_sub K;
     m_mul_const := sh_mulc K;
     m_sub_const := fun _ => sh_sub_const i K;
     m_get_msb_many := get_msb_many G i K;
     m_reduce_binary_or := aby3_reduce_binary_or G i;
     m_verify := retM tt;
     m_open_bit := open_bit G i |}.
