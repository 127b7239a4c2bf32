(** The SPDZ-wise engine: spdzwise/protocol.rs, spdzwise/share.rs, spdzwise/vecshare.rs,
    spdzwise/triples.rs. *)
From Verif Require Import Base Ring Prog Rng Net BinTrait Iris Protocol Plain Aby3 Jmp Aby3Mal Client.

(** share.rs:10-15; a vecshare.rs:10-14 VecShare (two vectors of equal length) is a list of these *)
Record ashare := AShare { av : share; am : share }.
(** share.rs:50-60, 38-48 *)
Definition azero : ashare := AShare szero szero.
Definition ash_add (U : Z) (x y : ashare) : ashare := AShare (sh_add U (av x) (av y)) (sh_add U (am x) (am y)).
(** protocol.rs:1003-1021 *)
Definition ash_sub (U : Z) (x y : ashare) : ashare := AShare (sh_sub U (av x) (av y)) (sh_sub U (am x) (am y)).
(** protocol.rs:1064-1081; the constant is cast up first *)
Definition ash_mulc (U : Z) (x : ashare) (c : Z) : ashare :=
  AShare (sh_mulc U (av x) (to_verif c)) (sh_mulc U (am x) (to_verif c)).

(** vecshare.rs:48-80 *)
Definition ash_filter_reduce_add_twice (U : Z) (a b : list ashare) (mask : code) : res (ashare * ashare) :=
  if Nat.eqb (length a) 0 || negb (Nat.eqb (length a) (length b)) then Err EInvalidCodeSize
  else rbind (bits mask) (fun bs =>
    Ok (fold_left (fun acc x => (ash_add U (fst acc) (fst (fst x)), ash_add U (snd acc) (snd (fst x))))
          (filter (fun x => snd x) (combine (combine a b) bs)) (azero, azero))).

(** ** triples.rs *)
(** 7-12 *)
Record triples := Triples { t_a : list share; t_b : list share; t_c : list share; t_bits : Z }.
(** 14-23 *)
Definition triples0 : triples := Triples [] [] [] 128.
(** 26-36 (the lengths always agree) *)
Definition triples_new (a b c : list share) : triples := Triples a b c 128.
(** 38-42 *)
Definition t_len (t : triples) : nat := length (t_a t).
(** 44-57 *)
Definition t_get_all (t : triples) : triples * (list share * list share * list share) :=
  (triples0, (t_a t, t_b t, t_c t)).
(** 59-81 *)
Definition t_get (t : triples) (amount : nat) : res (triples * (list share * list share * list share)) :=
  if Nat.ltb (t_len t) amount then Err ENotEnoughTriples
  else Ok (Triples (skipn amount (t_a t)) (skipn amount (t_b t)) (skipn amount (t_c t)) 128,
           (firstn amount (t_a t), firstn amount (t_b t), firstn amount (t_c t))).
(** 83-88 *)
Definition t_extend (t o : triples) : res triples :=
  if t_bits o =? 128 then Ok (Triples (t_a t ++ t_a o) (t_b t ++ t_b o) (t_c t ++ t_c o) (t_bits t)) else Err EPanic.
(** buffer.last_mut().expect(..): change the last element *)
Fixpoint upd_last (f : share -> share) (l : list share) : list share :=
  match l with [] => [] | [x] => [f x] | x :: t => x :: upd_last f t end.
(** 90-95; upgrade_to_128 is the identity on canonical values *)
Definition push_t (x : share) (buf : list share) : list share := buf ++ [x].
(** 97-107 *)
Definition add_all_t (K : Z) (x : share) (buf : list share) : list share :=
  upd_last (fun w => Share (ror (rshl 128 (sa w) K) (sa x)) (ror (rshl 128 (sb w) K) (sb x))) buf.
(** 109-130 *)
Definition split_and_add_t (open : Z) (x : share) (buf : list share) : list share :=
  let mask := 2 ^ open - 1 in
  upd_last (fun w => Share (ror (rshl 128 (sa w) open) (rand_ (sa x) mask)) (ror (rshl 128 (sb w) open) (rand_ (sb x) mask))) buf
    ++ [Share (rshr 128 (sa x) open) (rshr 128 (sb x) open)].
(** 132-158 *)
Definition add_t (K : Z) (t : triples) (x y z : share) : triples :=
  let open := 128 - t_bits t in
  if open =? 0 then Triples (push_t x (t_a t)) (push_t y (t_b t)) (push_t z (t_c t)) K
  else if K <=? open then Triples (add_all_t K x (t_a t)) (add_all_t K y (t_b t)) (add_all_t K z (t_c t)) (t_bits t + K)
  else Triples (split_and_add_t open x (t_a t)) (split_and_add_t open y (t_b t)) (split_and_add_t open z (t_c t)) (K - open).
(** 160-172 *)
Definition add_many_t (K : Z) (t : triples) (x y z : list share) : triples :=
  fold_left (fun t xyz => add_t K t (fst (fst xyz)) (snd (fst xyz)) (snd xyz)) (combine (combine x y) z) t.

(** ** protocol.rs:274-321: the shuffle *)
Fixpoint upd_nth (n : nat) (f : Z -> Z) (l : list Z) : list Z :=
  match l with
  | [] => []
  | x :: t => match n with O => f x :: t | S n' => x :: upd_nth n' f t end
  end.
(** 275-284 and 286-290: the two components are treated alike and independently.  Positions are below
    128 * length (permute), so the slice accesses are in range. *)
Definition swap_words (l : list Z) (i j : nat) : list Z :=
  let i_ := (i / 128)%nat in let i_mod := Z.of_nat (i mod 128) in
  let j_ := (j / 128)%nat in let j_mod := Z.of_nat (j mod 128) in
  let a_i := rand_ (rshr 128 (nth i_ l 0) i_mod) 1 in
  let a_j := rand_ (rshr 128 (nth j_ l 0) j_mod) 1 in
  let x := rxor a_i a_j in
  upd_nth j_ (fun w => rxor w (rshl 128 x j_mod)) (upd_nth i_ (fun w => rxor w (rshl 128 x i_mod)) l).
Definition swap_bit (l : list share) (i j : nat) : list share :=
  map2 Share (swap_words (map sa l) i j) (swap_words (map sb l) i j).
(** rng.gen_range(lo..hi) for usize: some value in the range, a deterministic function of the
    generator's state and the size of the range.  (Negative "widths" are used for nothing else.) *)
Definition gen_range (G : rng) (r : rstate G) (lo hi : nat) : rstate G * nat :=
  let '(r', v) := rdraw G r (- Z.of_nat (hi - lo)) in (r', (lo + Z.to_nat (v mod Z.of_nat (hi - lo)))%nat).
(** 313-318 *)
Definition shuffle (G : rng) (r : rstate G) (a b c : list share) : list share * list share * list share :=
  let bitlen := (length a * 128)%nat in
  snd (fold_left (fun (s : rstate G * (list share * list share * list share)) j =>
         let '(r, (a, b, c)) := s in
         let '(r', i) := gen_range G r j bitlen in
         (r', (swap_bit a i j, swap_bit b i j, swap_bit c i j)))
       (seq 0 bitlen) (r, (a, b, c))).

Section Spdz.
  Variable G : rng.
  Variable H : hasher.
  Variable i : pid.
  Local Open Scope M_scope.

  (** protocol.rs:27-35: aby3 (its prf), send_queue_prev and rcv_queue_next are the [jst] *)
  Record sst := SSt { s_j : jst G; s_mac : share; s_vq : list ashare; s_prec : triples; s_tb : triples }.
  Definition on_j {A} (p : M (jst G) A) : M sst A :=
    zoom s_j (fun s j => SSt j (s_mac s) (s_vq s) (s_prec s) (s_tb s)) p.
  Definition on_aby {A} (p : M (prf G) A) : M sst A := on_j (on_prf G p).
  (** self.verifyqueue.push / extend *)
  Definition vq_push (l : list ashare) : M sst unit :=
    s <- getM ;; putM (SSt (s_j s) (s_mac s) (s_vq s ++ l) (s_prec s) (s_tb s)).

  (** protocol.rs:130-161; hash_based_zero_verify 91-128 is [zero_verify] on one share *)
  Definition verify_macs (U : Z) : M sst unit :=
    s <- getM ;;
    if Nat.eqb (length (s_vq s)) 0 then retM tt
    else
      rands <- on_aby (mapM (fun _ => gen_rand G U) (s_vq s)) ;;
      s <- getM ;;
      putM (SSt (s_j s) (s_mac s) [] (s_prec s) (s_tb s)) ;;;
      res <- on_aby (dot_many G i U [map av (s_vq s); map am (s_vq s)] [rands; rands]) ;;
      res0 <- resM (index res 0) ;;
      m <- on_aby (mul G i U res0 (s_mac s)) ;;
      res1 <- resM (index res 1) ;;
      on_j (zero_verify G H i U [sh_sub U m res1]).

  (** protocol.rs:293-321 *)
  Definition permute (a b c : list share) : M sst (list share * list share * list share) :=
    if negb (Nat.eqb (length a) (length b)) || negb (Nat.eqb (length a) (length c)) then failM EInvalidSize
    else
      seed <- on_j (coin G i) ;;
      retM (shuffle G (rseed G seed) a b c).

  (** protocol.rs:537-553 *)
  Definition open_bin_many (K : Z) (xs : list share) : M sst (list Z) :=
    cs <- on_j (liftM (send_slice_and_receive_iter i K (map sb xs))) ;;
    retM (map2 (fun s c => rxor (rxor c (sa s)) (sb s)) xs cs).
  (** protocol.rs:555-586: the jmp check comes before the values are used *)
  Definition jmp_open_bin_many (K : Z) (xs : list share) : M sst (list Z) :=
    v <- on_j (reconstruct_binary_many G i K xs) ;;
    on_j (jmp_verify G H i) ;;;
    retM v.

  (** protocol.rs:413-417, 431-435, 447-451: what a party hashes for a binary share of zero *)
  Definition bin_zero_bytes (w : share) : list Z :=
    let w_neg := rxor (sa w) (sb w) in
    match i with
    | P0 => hash_bytes 128 (sa w) ++ hash_bytes 128 w_neg ++ hash_bytes 128 (sb w)
    | P1 => hash_bytes 128 (sb w) ++ hash_bytes 128 (sa w) ++ hash_bytes 128 w_neg
    | P2 => hash_bytes 128 w_neg ++ hash_bytes 128 (sb w) ++ hash_bytes 128 (sa w)
    end.
  (** protocol.rs:458-480 *)
  Definition bin_zero_verify (ws : list share) : M (jst G) unit :=
    s <- getM ;;
    putM (j_hashed G [flat_map bin_zero_bytes ws] s) ;;;
    hs <- liftM (broadcast i (hfun H (flat_map bin_zero_bytes ws))) ;;
    h0 <- resM (index hs 0) ;; h1 <- resM (index hs 1) ;; h2 <- resM (index hs 2) ;;
    if negb (bytes_eqb h0 h1) || negb (bytes_eqb h0 h2) then failM EVerify else retM tt.
  (** protocol.rs:409-410, 427-428, 445 *)
  Definition and_triple_check (a b c z : share) (p q : Z) : share :=
    sh_xor_const i (sh_xor (sh_xor (sh_xor z c) (sh_andc a q)) (sh_andc b p)) (rand_ p q).
  (** protocol.rs:380-480 *)
  Definition verify_triples (a b c x y z : list share) : M sst unit :=
    let n := length a in
    pq <- jmp_open_bin_many 128 (map2 (fun a x => sh_xor x a) a x ++ map2 (fun b y => sh_xor y b) b y) ;;
    let ws := map2 (fun cab zpq => and_triple_check (fst (snd cab)) (snd (snd cab)) (fst cab) (fst zpq) (fst (snd zpq)) (snd (snd zpq)))
                (combine c (combine a b)) (combine z (combine (firstn n pq) (skipn n pq))) in
    on_j (bin_zero_verify ws).

  (** protocol.rs:335: 2^20 AND gates in 128-bit registers *)
  Definition min_batch : nat := Z.to_nat (2 ^ 13).
  (** protocol.rs:323-378 *)
  Definition generate_triples (num : nat) : M sst triples :=
    let n := Nat.max num min_batch in
    a <- on_aby (mapM (fun _ => gen_rand G 128) (repeat tt (2 * n + 1))) ;;
    b <- on_aby (mapM (fun _ => gen_rand G 128) (repeat tt (2 * n + 1))) ;;
    c <- on_aby (and_many G i 128 a b) ;;
    abc <- permute (skipn n a) (skipn n b) (skipn n c) ;;
    let '(xs, ys, zs) := abc in
    x <- resM (pop xs) ;; y <- resM (pop ys) ;; z <- resM (pop zs) ;;
    opened <- open_bin_many 128 [snd x; snd y; snd z] ;;
    o0 <- resM (index opened 0) ;; o1 <- resM (index opened 1) ;; o2 <- resM (index opened 2) ;;
    if negb (rand_ o0 o1 =? o2) then failM EVerify
    else
      verify_triples (firstn n a) (firstn n b) (firstn n c) (fst x) (fst y) (fst z) ;;;
      retM (triples_new (firstn n a) (firstn n b) (firstn n c)).

  (** protocol.rs:482-509 *)
  Definition verify_triple_queue : M sst unit :=
    s <- getM ;;
    let len := t_len (s_tb s) in
    if Nat.eqb len 0 then retM tt
    else
      let '(tb, (a, b, c)) := t_get_all (s_tb s) in
      let len_ := Nat.max len min_batch in
      putM (SSt (s_j s) (s_mac s) (s_vq s) (s_prec s) tb) ;;;
      r <- resM (t_get (s_prec s) len_) ;;
      let '(prec, (x, y, z)) := r in
      putM (SSt (s_j s) (s_mac s) (s_vq s) prec tb) ;;;
      xyz <- permute x y z ;;
      let '(x, y, z) := xyz in
      verify_triples a b c (firstn len x) (firstn len y) (firstn len z).

  (** protocol.rs:752-761 *)
  Definition precompute_and_triples (amount : Z) : M sst unit :=
    s <- getM ;;
    let ands := t_len (s_prec s) in
    let amount := Z.to_nat ((amount + 127) / 128) in
    if Nat.leb ands amount then
      t <- generate_triples (amount - ands) ;;
      s <- getM ;;
      prec <- resM (t_extend (s_prec s) t) ;;
      putM (SSt (s_j s) (s_mac s) (s_vq s) prec (s_tb s))
    else retM tt.

  (** protocol.rs:740-750: preprocess is the ABY3 key set-up (the seed is drawn from the OS) *)
  Definition spdz_preprocess (seed : list Z) : M sst unit := on_aby (setup_prf_from_seed G i seed).

  (** protocol.rs:763-770 *)
  Definition set_mac_key (key : ashare) : M sst unit :=
    s <- getM ;; putM (SSt (s_j s) (am key) (s_vq s) (s_prec s) (s_tb s)).
  Definition set_new_mac_key (U : Z) : M sst unit :=
    k <- on_aby (gen_rand G U) ;;
    s <- getM ;; putM (SSt (s_j s) k (s_vq s) (s_prec s) (s_tb s)).

  (** protocol.rs:795-820 *)
  Definition spdz_input (K : Z) (v : option Z) (id : Z) : M sst ashare :=
    let U := verif_width K in
    value <- on_aby (input G i U (option_map to_verif v) id) ;;
    s <- getM ;;
    mac <- on_aby (mul G i U value (s_mac s)) ;;
    let share := AShare value mac in
    vq_push [share] ;;;
    retM share.

  (** protocol.rs:869-881 *)
  Definition spdz_open (K : Z) (x : ashare) : M sst Z :=
    let U := verif_width K in
    vq_push [x] ;;;
    verify_macs U ;;;
    v <- on_aby (open G i U (av x)) ;;
    retM (from_verif K v).
  (** protocol.rs:883-900 *)
  Definition spdz_open_many (K : Z) (xs : list ashare) : M sst (list Z) :=
    let U := verif_width K in
    vq_push xs ;;;
    verify_macs U ;;;
    v <- on_aby (open_many G i U (map av xs)) ;;
    retM (map (from_verif K) v).
  (** protocol.rs:902-910, 912-936: as aby3_mal/protocol.rs:1105-1139 *)
  Definition spdz_open_bit (x : share) : M sst bool := on_j (mal_open_bit G H i x).
  Definition spdz_open_bit_many (xs : list share) : M sst (list bool) := on_j (mal_open_bit_many G H i xs).

  (** protocol.rs:957-979, 1023-1045 *)
  Definition ash_add_const (U : Z) (s : sst) (x : ashare) (c : Z) : ashare :=
    AShare (sh_add_const i U (av x) (to_verif c)) (sh_add U (am x) (sh_mulc U (s_mac s) (to_verif c))).
  Definition ash_sub_const (U : Z) (s : sst) (x : ashare) (c : Z) : ashare :=
    AShare (sh_sub_const i U (av x) (to_verif c)) (sh_sub U (am x) (sh_mulc U (s_mac s) (to_verif c))).

  (** protocol.rs:1047-1062 *)
  Definition spdz_mul (K : Z) (x y : ashare) : M sst ashare :=
    let U := verif_width K in
    r <- on_aby (mul_many G i U [av x; am x] [av y; av y]) ;;
    r0 <- resM (index r 0) ;; r1 <- resM (index r 1) ;;
    vq_push [AShare r0 r1] ;;;
    retM (AShare r0 r1).
  (** protocol.rs:1083-1110 *)
  Definition spdz_dot (K : Z) (a b : list ashare) : M sst ashare :=
    let U := verif_width K in
    if negb (Nat.eqb (length a) (length b)) then failM EInvalidSize
    else
      r <- on_aby (dot_many G i U [map av a; map am a] [map av b; map av b]) ;;
      r0 <- resM (index r 0) ;; r1 <- resM (index r 1) ;;
      vq_push [AShare r0 r1] ;;;
      retM (AShare r0 r1).

  (** protocol.rs:1143-1166, 1190-1212: reshare values and MACs *)
  Definition reshare_pairs (U : Z) (l : list (Z * Z)) : M (prf G) (list ashare) :=
    bs <- liftM (send_slices_and_receive_iters i U (map fst l) (map snd l)) ;;
    retM (map2 (fun a b => AShare (Share (fst a) (fst b)) (Share (snd a) (snd b))) l (combine (fst bs) (snd bs))).
  Definition reshare_auth (U : Z) (l : list (Z * Z)) : M sst (list ashare) :=
    r <- on_aby (reshare_pairs U l) ;;
    vq_push r ;;;
    retM r.
  (** protocol.rs:1112-1166 *)
  Definition spdz_dot_many (K : Z) (a b : list (list ashare)) : M sst (list ashare) :=
    let U := verif_width K in
    if negb (Nat.eqb (length a) (length b)) then failM EInvalidSize
    else
      l <- on_aby (mapM2 (fun x y =>
             if negb (Nat.eqb (length x) (length y)) then failM EInvalidSize
             else
               r <- gen_zero_share G U ;;
               r2 <- gen_zero_share G U ;;
               retM (fold_left (fun c xy => radd U c (local_mul U (av (fst xy)) (av (snd xy)))) (combine x y) r,
                     fold_left (fun c xy => radd U c (local_mul U (am (fst xy)) (av (snd xy)))) (combine x y) r2)) a b) ;;
      reshare_auth U l.
  (** protocol.rs:1168-1213 (no check of the database entries' lengths: zip) *)
  Definition spdz_masked_dot_many (K : Z) (a : list ashare) (b : list (list ashare)) (masks : list code) : M sst (list ashare) :=
    let U := verif_width K in
    if negb (Nat.eqb (length a) IRIS_CODE_SIZE) then failM EInvalidSize
    else
      l <- on_aby (mapM2 (fun y mask =>
             r <- gen_zero_share G U ;;
             r2 <- gen_zero_share G U ;;
             bs <- resM (bits mask) ;;
             retM (fold_left (fun (c : Z) (xyb : ashare * ashare * bool) =>
                      if snd xyb then radd U c (local_mul U (av (fst (fst xyb))) (av (snd (fst xyb)))) else c) (combine (combine a y) bs) r,
                   fold_left (fun (c : Z) (xyb : ashare * ashare * bool) =>
                      if snd xyb then radd U c (local_mul U (am (fst (fst xyb))) (av (snd (fst xyb)))) else c) (combine (combine a y) bs) r2)) b masks) ;;
      reshare_auth U l.

  (** protocol.rs:1280-1298 *)
  Definition tb_add (K : Z) (x y z : list share) : M sst unit :=
    s <- getM ;; putM (SSt (s_j s) (s_mac s) (s_vq s) (s_prec s) (add_many_t K (s_tb s) x y z)).
  Definition spdz_and (K : Z) (a b : share) : M sst share :=
    c <- on_aby (and_ G i K a b) ;; tb_add K [a] [b] [c] ;;; retM c.
  Definition spdz_and_many (K : Z) (a b : list share) : M sst (list share) :=
    c <- on_aby (and_many G i K a b) ;; tb_add K a b c ;;; retM c.
  Definition spdz_bin (K : Z) : bineng sst share := BinEng sst share K sh_xor (sh_shl K) (spdz_and K) (spdz_and_many K).

  (** protocol.rs:1300-1320 *)
  Definition spdz_a2b (K : Z) (x : share) : M sst share :=
    let '(x1, x2, x3) := a2b_pre i x in binary_add_3 (spdz_bin K) x1 x2 x3.
  (** protocol.rs:1215-1223; from_verificationtype is [sh_trunc] *)
  Definition spdz_get_msb (K : Z) (x : ashare) : M sst share :=
    let U := verif_width K in
    vq_push [x] ;;;
    verify_macs U ;;;
    b <- spdz_a2b K (sh_trunc K (av x)) ;;
    retM (sh_get_msb K b).
  (** protocol.rs:1225-1255; msb_adder_many 657-725 has the body of aby3/protocol.rs:193-253 *)
  Definition spdz_get_msb_many (K : Z) (xs : list ashare) : M sst (list share) :=
    let U := verif_width K in
    vq_push xs ;;;
    verify_macs U ;;;
    let pre := map (a2b_pre i) (map (fun x => sh_trunc K (av x)) xs) in
    msb_adder_many (spdz_bin 128) K (map (fun t => fst (fst t)) pre) (map (fun t => snd (fst t)) pre) (map snd pre).
  (** protocol.rs:1257-1265 with 38-53, 588-655 *)
  Definition spdz_reduce_binary_or (a : list share) (chunk_size : nat) : M sst share :=
    let e := spdz_bin in
    reduce_binary_or (e 1) (e 8) (e 16) (e 32) (e 64) (e 128) a chunk_size.
  (** protocol.rs:1267-1270 *)
  Definition spdz_verify (K : Z) : M sst unit := verify_macs (verif_width K) ;;; verify_triple_queue.

  (** protocol.rs:728-1271 *)
  Definition spdz_engine (K : Z) : mpc sst ashare share :=
    let U := verif_width K in
    {| m_K := K;
       m_precompute := precompute_and_triples;
       m_masked_dot_many := spdz_masked_dot_many K;
       m_filter_reduce_add_twice := ash_filter_reduce_add_twice U;
       m_add := ash_add U;
       m_sub := ash_sub U;
       m_mul_const := ash_mulc U;
       m_sub_const := ash_sub_const U;
       m_get_msb_many := spdz_get_msb_many K;
       m_reduce_binary_or := spdz_reduce_binary_or;
       m_verify := spdz_verify K;
       m_open_bit := spdz_open_bit |}.
  Definition spdz_api (K : Z) : api sst ashare share :=
    {| a_mpc := spdz_engine K;
       a_input := spdz_input K;
       a_open := spdz_open K;
       a_open_many := spdz_open_many K;
       a_open_bit_many := spdz_open_bit_many;
       a_add_const := ash_add_const (verif_width K);
       a_mul := spdz_mul K;
       a_dot := spdz_dot K;
       a_dot_many := spdz_dot_many K;
       a_get_msb := spdz_get_msb K;
       a_binary_or := b_or (spdz_bin 1) |}.
End Spdz.

(** protocol.rs:834-867: dealing *)
Definition spdz_share_value (G : rng) (K x key : Z) (r : rstate G) : rstate G * (ashare * ashare * ashare) :=
  let U := verif_width K in
  let inp := to_verif x in
  let rz := rmul U key inp in
  let '(r1, (v0, v1, v2)) := share_value G U inp r in
  let '(r2, (m0, m1, m2)) := share_value G U rz r1 in
  (r2, (AShare v0 m0, AShare v1 m1, AShare v2 m2)).

(** protocol.rs:62-77 new; the generators are whatever Aby3::new makes *)
Definition spdz_new (G : rng) (f : prf G) : sst G := SSt G (JSt G f [] [] []) szero [] triples0 triples0.
