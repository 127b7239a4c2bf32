(** The maliciously secure ABY3 engine: aby3_mal/protocol.rs. *)
From Verif Require Import Base Ring Prog Rng Net BinTrait Iris Protocol Plain Aby3 Jmp Client.

(** aby3/share.rs:34-58: from_verificationtype / to_verificationtype, per component *)
Definition sh_trunc (K : Z) (x : share) : share := Share (from_verif K (sa x)) (from_verif K (sb x)).
Definition sh_ext (x : share) : share := Share (to_verif (sa x)) (to_verif (sb x)).

(** The share every party checks to be zero after the sacrifice: protocol.rs:258-263 (single triple),
    386-399 (many), 489-497 and 619-634 (inner products).  [v] is the opened r*a - a'. *)
Definition triple_check (U r v : Z) (b c0 c1 : share) : share :=
  sh_add U (sh_sub U (sh_mulc U b v) (sh_mulc U c0 r)) c1.
Definition dot_check (U r : Z) (v : list Z) (b : list share) (c0 c1 : share) : share :=
  fold_left (fun w vb => sh_add U w (sh_mulc U (snd vb) (fst vb))) (combine v b)
    (sh_add U (sh_mulc U (sh_neg U c0) r) c1).

Section Mal.
  Variable G : rng.
  Variable H : hasher.
  Variable i : pid.
  Local Open Scope M_scope.
  Notation ST := (jst G).

  (** R::from_seed(seed).gen::<UShare<T>>() *)
  Definition challenge (U : Z) (seed : list Z) : Z := snd (draw G U (rseed G seed)).

  (** protocol.rs:147-176 (debug_assert on lengths; release code zips) *)
  Definition aby_mul_many (U : Z) (a b : list share) : M ST (list share) :=
    l <- on_prf G (mapM2 (fun x y => r <- gen_zero_share G U ;; retM (radd U (local_mul U x y) r)) a b) ;;
    bs <- liftM (send_slice_and_receive_vec i U l) ;;
    retM (map2 Share l bs).
  (** protocol.rs:178-213 *)
  Definition aby_dot_many (U : Z) (a b : list (list share)) : M ST (list share) :=
    if negb (Nat.eqb (length a) (length b)) then failM EInvalidSize
    else
      l <- on_prf G (mapM2 (fun x y =>
             r <- gen_zero_share G U ;;
             if negb (Nat.eqb (length x) (length y)) then failM EInvalidSize
             else retM (fold_left (fun c xy => radd U c (local_mul U (fst xy) (snd xy))) (combine x y) r)) a b) ;;
      bs <- liftM (send_slice_and_receive_vec i U l) ;;
      retM (map2 Share l bs).

  (** protocol.rs:234-291: the sacrifice; [cs] are the shares of the two products *)
  Definition mul_triple_check (K : Z) (a a_ b : share) (cs : list share) : M ST (share * share * share) :=
    let U := verif_width K in
      seed <- coin G i ;;
      let r := challenge U seed in
      v <- reconstruct G i U (sh_sub U (sh_mulc U a r) a_) ;;
      jmp_verify G H i ;;;
      c0 <- resM (index cs 0) ;;
      c1 <- resM (index cs 1) ;;
      zero_verify G H i U [triple_check U r v b c0 c1] ;;;
      retM (sh_trunc K a, sh_trunc K b, sh_trunc K c0).
  (** protocol.rs:215-292 *)
  Definition get_mul_triple (K : Z) : M ST (share * share * share) :=
    let U := verif_width K in
    if negb (40 <=? U - K) then failM EPanic
    else
      a <- on_prf G (gen_rand G U) ;;
      a_ <- on_prf G (gen_rand G U) ;;
      b <- on_prf G (gen_rand G U) ;;
      cs <- aby_mul_many U [a; a_] [b; b] ;;
      mul_triple_check K a a_ b cs.

  (** protocol.rs:294-432 *)
  Definition gen_rand_many (U : Z) (n : nat) : M ST (list share) :=
    on_prf G (mapM (fun _ => gen_rand G U) (repeat tt n)).
  (** protocol.rs:348-431 *)
  Definition mul_triple_check_many (K : Z) (len : nat) (a0 a1 b0 cs : list share) : M ST (list share * list share * list share) :=
    let U := verif_width K in
      seed <- coin G i ;;
      let r := challenge U seed in
      v <- reconstruct_many G i U (map2 (fun x y => sh_sub U (sh_mulc U x r) y) a0 a1) ;;
      jmp_verify G H i ;;;
      let ws := map2 (fun bv cc => triple_check U r (snd bv) (fst bv) (fst cc) (snd cc))
                  (combine b0 v) (combine (firstn len cs) (skipn len cs)) in
      zero_verify G H i U ws ;;;
      retM (map (sh_trunc K) a0, map (sh_trunc K) b0, map (sh_trunc K) (firstn len cs)).
  Definition get_mul_triple_many (K : Z) (len : nat) : M ST (list share * list share * list share) :=
    let U := verif_width K in
    if negb (40 <=? U - K) then failM EPanic
    else
      a0 <- gen_rand_many U len ;;
      b0 <- gen_rand_many U len ;;
      a1 <- gen_rand_many U len ;;
      cs <- aby_mul_many U (a0 ++ a1) (b0 ++ b0) ;;
      mul_triple_check_many K len a0 a1 b0 cs.

  (** protocol.rs:463-533 *)
  Definition dot_sacrifice_check (K : Z) (a a_ b cs : list share) : M ST share :=
    let U := verif_width K in
      seed <- coin G i ;;
      let r := challenge U seed in
      v <- reconstruct_many G i U (map2 (fun x y => sh_sub U (sh_mulc U x r) y) a a_) ;;
      jmp_verify G H i ;;;
      c0 <- resM (index cs 0) ;;
      c1 <- resM (index cs 1) ;;
      zero_verify G H i U [dot_check U r v b c0 c1] ;;;
      retM (sh_trunc K c0).
  (** protocol.rs:434-534 *)
  Definition dot_sacrifice (K : Z) (a b : list share) : M ST share :=
    let U := verif_width K in
    if negb (40 <=? U - K) then failM EPanic
    else
      let a := map sh_ext a in
      let b := map sh_ext b in
      a_ <- gen_rand_many U (length a) ;;
      cs <- aby_dot_many U [a; a_] [b; b] ;;
      dot_sacrifice_check K a a_ b cs.

  (** protocol.rs:536-681; the iterator over the opened values is threaded through the rows:
      row w consumes the next [length b] of them *)
  Fixpoint sacrifice_rows (U r : Z) (bs : list (list share)) (cc : list (share * share)) (v : list Z) : list share :=
    match bs, cc with
    | b :: bs, (c0, c1) :: cc =>
        dot_check U r (firstn (length b) v) b c0 c1 :: sacrifice_rows U r bs cc (skipn (length b) v)
    | _, _ => []
    end.
  (** protocol.rs:577-680 *)
  Definition dot_sacrifice_check_many (K : Z) (len : nat) (a a_ b : list (list share)) (cs : list share) : M ST (list share) :=
    let U := verif_width K in
      seed <- coin G i ;;
      let r := challenge U seed in
      v <- reconstruct_many G i U (concat (map2 (map2 (fun x y => sh_sub U (sh_mulc U x r) y)) a a_)) ;;
      jmp_verify G H i ;;;
      zero_verify G H i U (sacrifice_rows U r b (combine (firstn len cs) (skipn len cs)) v) ;;;
      retM (map (sh_trunc K) (firstn len cs)).
  Definition dot_sacrifice_many (K : Z) (a b : list (list share)) : M ST (list share) :=
    let U := verif_width K in
    if negb (40 <=? U - K) then failM EPanic
    else
      let len := length a in
      let a := map (map sh_ext) a in
      let b := map (map sh_ext) b in
      a_ <- mapM (fun b => gen_rand_many U (length b)) b ;;
      cs <- aby_dot_many U (a ++ a_) (b ++ b) ;;
      dot_sacrifice_check_many K len a a_ b cs.

  (** protocol.rs:683-709, 741-821: seeds and commitment randomness are drawn from the OS, here
      arguments; InvalidMessageSize and InvalidCommitment are EOther *)
  Definition setup_prf_mal (seed1 seed2 rand1 rand2 : list Z) : M ST unit :=
    let comm1 := commit_with_rand H 8 seed1 rand1 in
    let comm2 := commit_with_rand H 8 seed2 rand2 in
    m <- liftM (Send (next i) (c_comm comm1) (Send (prev i) (c_comm comm2)
          (Recv (next i) (fun m1 => Recv (prev i) (fun m2 => Ret (m1, m2)))))) ;;
    if negb (Nat.eqb (length (fst m)) 64) || negb (Nat.eqb (length (snd m)) 64) then failM EOther
    else
      let o1 := c_open comm1 in
      let o2 := c_open comm2 in
      n <- liftM (Send (next i) (ring_slice_to_bytes 8 (o_values o1) ++ o_rand o1)
            (Send (prev i) (ring_slice_to_bytes 8 (o_values o2) ++ o_rand o2)
            (Recv (next i) (fun m1 => Recv (prev i) (fun m2 => Ret (m1, m2)))))) ;;
      if negb (Nat.eqb (length (fst n)) (length seed1 + 32)) || negb (Nat.eqb (length (snd n)) (length seed1 + 32)) then failM EOther
      else
        let open1 := firstn (length seed1) (fst n) in
        let open2 := firstn (length seed1) (snd n) in
        if negb (o_verify H 8 (Opening open1 (skipn (length seed1) (fst n))) (fst m)) then failM EOther
        else if negb (o_verify H 8 (Opening open2 (skipn (length seed1) (snd n))) (snd m)) then failM EOther
        else
          s <- getM ;;
          putM (JSt G (prf_new G (map2 (fun a b => rxor b a) seed1 open1) (map2 (fun a b => rxor b a) seed2 open2))
                  (j_snd G s) (j_rcv G s) (j_log G s)).

  (** protocol.rs:936-961 *)
  Definition reconstruct_id (K : Z) (x : share) (id : Z) : M ST (option Z) :=
    if 3 <=? id then failM (EId id)
    else if pid_num i =? id then
      c <- jmp_receive G i K ;; retM (Some (radd K (radd K (sa x) (sb x)) c))
    else if pid_num i =? (id + 2) mod 3 then
      jmp_send G i K (sb x) ;;; retM None
    else
      jmp_buffer G K (sa x) ;;; retM None.

  (** protocol.rs:1000-1041 *)
  Definition mal_input (K : Z) (v : option Z) (id : Z) : M ST share :=
    if 3 <=? id then failM (EId id)
    else
      x <- on_prf G (gen_rand G K) ;;
      opened <- reconstruct_id K x id ;;
      if id =? pid_num i then
        match v with
        | None => failM EValue
        | Some inp =>
            match opened with
            | None => failM EPanic
            | Some o =>
                let value := rsub K inp o in
                liftM (send_value (next i) K value) ;;;
                liftM (send_value (prev i) K value) ;;;
                retM (Share (radd K (sa x) value) (sb x))
            end
        end
      else if pid_num i =? (id + 1) mod 3 then
        value <- liftM (receive_value (prev i) K) ;;
        liftM (send_value (next i) K value) ;;;
        value_ <- liftM (receive_value (next i) K) ;;
        if negb (value =? value_) then failM EVerify
        else retM (Share (sa x) (radd K (sb x) value))
      else
        value <- liftM (receive_value (next i) K) ;;
        liftM (send_value (prev i) K value) ;;;
        value_ <- liftM (receive_value (prev i) K) ;;
        if negb (value =? value_) then failM EVerify else retM x.

  (** protocol.rs:1043-1056 (test only) *)
  Definition mal_input_all (K : Z) (x : Z) : M ST (list share) :=
    mapM (fun id => mal_input K (if id =? pid_num i then Some x else None) id) [0; 1; 2].

  (** protocol.rs:1069-1077 *)
  Definition mal_open (K : Z) (x : share) : M ST Z :=
    jmp_verify G H i ;;;
    c <- jmp_send_receive G i K (sb x) (sa x) ;;
    jmp_verify G H i ;;;
    retM (radd K (radd K (sa x) (sb x)) c).
  (** protocol.rs:1079-1103 *)
  Definition mal_open_many (K : Z) (xs : list share) : M ST (list Z) :=
    jmp_verify G H i ;;;
    cs <- jmp_send_receive_many G i K (map sb xs) (map sa xs) ;;
    jmp_verify G H i ;;;
    retM (map2 (fun s c => radd K (radd K c (sa s)) (sb s)) xs cs).
  (** protocol.rs:1105-1113 *)
  Definition mal_open_bit (x : share) : M ST bool :=
    jmp_verify G H i ;;;
    c <- jmp_send_receive G i 1 (sb x) (sa x) ;;
    jmp_verify G H i ;;;
    retM (rxor (rxor (sa x) (sb x)) c =? 1).
  (** protocol.rs:1115-1139 *)
  Definition mal_open_bit_many (xs : list share) : M ST (list bool) :=
    jmp_verify G H i ;;;
    cs <- jmp_send_receive_many G i 1 (map sb xs) (map sa xs) ;;
    jmp_verify G H i ;;;
    retM (map2 (fun s c => rxor (rxor c (sa s)) (sb s) =? 1) xs cs).

  (** protocol.rs:1169-1187 *)
  Definition mal_mul (K : Z) (a b : share) : M ST share :=
    t <- get_mul_triple K ;;
    let '(x, y, z) := t in
    uv <- reconstruct_many G i K [sh_sub K a x; sh_sub K b y] ;;
    u <- resM (index uv 0) ;;
    v <- resM (index uv 1) ;;
    let c := sh_add K (sh_add K z (sh_mulc K b u)) (sh_mulc K a v) in
    retM (sh_sub_const i K c (rmul K u v)).
  (** protocol.rs:1193-1200 *)
  Definition mal_dot (K : Z) (a b : list share) : M ST share :=
    if negb (Nat.eqb (length a) (length b)) then failM EInvalidSize else dot_sacrifice K a b.
  (** protocol.rs:1202-1213 *)
  Definition mal_dot_many (K : Z) (a b : list (list share)) : M ST (list share) :=
    if negb (Nat.eqb (length a) (length b)) then failM EInvalidSize else dot_sacrifice_many K a b.

  (** protocol.rs:1250-1272 (pack_exact 846-857 is Aby3.pack_word) *)
  Definition mal_and (K : Z) (a b : share) : M ST share :=
    t <- get_mul_triple_many 1 (Z.to_nat K) ;;
    let '(x, y, z) := t in
    let x := pack_word K x in let y := pack_word K y in let z := pack_word K z in
    uv <- reconstruct_binary_many G i K [sh_xor a x; sh_xor b y] ;;
    u <- resM (index uv 0) ;;
    v <- resM (index uv 1) ;;
    retM (sh_xor_const i (sh_xor (sh_xor z (sh_andc b u)) (sh_andc a v)) (rand_ u v)).
  (** protocol.rs:1274-1324 (pack 859-870 is Aby3.pack) *)
  Definition mal_and_many (K : Z) (a b : list share) : M ST (list share) :=
    let len := length a in
    if negb (Nat.eqb len (length b)) then failM EInvalidSize
    else
      t <- get_mul_triple_many 1 (Z.to_nat K * len) ;;
      let '(x, y, z) := t in
      let x := pack K x in let y := pack K y in let z := pack K z in
      uv <- reconstruct_binary_many G i K (map2 sh_xor a x ++ map2 sh_xor b y) ;;
      retM (map2 (fun z abuv => let '(ab, uv) := abuv in
                    sh_xor_const i (sh_xor (sh_xor z (sh_andc (snd ab) (fst uv))) (sh_andc (fst ab) (snd uv)))
                      (rand_ (fst uv) (snd uv)))
              z (combine (combine a b) (combine (firstn len uv) (skipn len uv)))).
  Definition mal_bin (K : Z) : bineng ST share := BinEng ST share K sh_xor (sh_shl K) (mal_and K) (mal_and_many K).

  (** protocol.rs:1326-1349 *)
  Definition mal_a2b (K : Z) (x : share) : M ST share :=
    let '(x1, x2, x3) := a2b_pre i x in binary_add_3 (mal_bin K) x1 x2 x3.
  Definition mal_a2b_many (K : Z) (x : list share) : M ST (list share) :=
    let pre := map (a2b_pre i) x in
    binary_add_3_many (mal_bin K) (map (fun t => fst (fst t)) pre) (map (fun t => snd (fst t)) pre) (map snd pre).
  (** protocol.rs:1215-1224 *)
  Definition mal_get_msb (K : Z) (x : share) : M ST share := b <- mal_a2b K x ;; retM (sh_get_msb K b).
  Definition mal_get_msb_many (K : Z) (x : list share) : M ST (list share) :=
    b <- mal_a2b_many K x ;; retM (map (sh_get_msb K) b).
  (** protocol.rs:1230-1237 *)
  Definition mal_reduce_binary_or (a : list share) (chunk_size : nat) : M ST share :=
    or_tree (mal_bin 1) a (chunk_size * 128).

  (** protocol.rs:963-1243; masked_dot_many is the default of traits/mpc_trait.rs:51-80 *)
  Definition mal_engine (K : Z) : mpc ST share share :=
    {| m_K := K;
       m_precompute := fun _ => retM tt;
       m_masked_dot_many := default_masked_dot_many szero (mal_dot_many K);
       m_filter_reduce_add_twice := filter_reduce_add_twice K;
       m_add := sh_add K;
       m_sub := sh_sub K;
       m_mul_const := sh_mulc K;
       m_sub_const := fun _ => sh_sub_const i K;
       m_get_msb_many := mal_get_msb_many K;
       m_reduce_binary_or := mal_reduce_binary_or;
       m_verify := retM tt;
       m_open_bit := mal_open_bit |}.
  Definition mal_api (K : Z) : api ST share share :=
    {| a_mpc := mal_engine K;
       a_input := mal_input K;
       a_open := mal_open K;
       a_open_many := mal_open_many K;
       a_open_bit_many := mal_open_bit_many;
       a_add_const := fun _ => sh_add_const i K;
       a_mul := mal_mul K;
       a_dot := mal_dot K;
       a_dot_many := mal_dot_many K;
       a_get_msb := mal_get_msb K;
       a_binary_or := b_or (mal_bin 1) |}.
End Mal.
