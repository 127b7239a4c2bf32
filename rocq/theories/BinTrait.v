(** traits/binary_trait.rs: code shared by all engines on top of xor / and, and
    aby3/utils.rs:304-349 or_tree. *)
From Verif Require Import Base Ring Prog.
Local Open Scope M_scope.

(** What an engine supplies for shares of one bit width:
    [bw] is T::Share::K; [b_xor] is BitXor, [b_shl] is Shl<u32> on shares;
    [b_and], [b_and_many] the interactive gates. *)
Record bineng (S Sh : Type) := BinEng {
  bw : Z;
  b_xor : Sh -> Sh -> Sh;
  b_shl : Sh -> Z -> Sh;
  b_and : Sh -> Sh -> M S Sh;
  b_and_many : list Sh -> list Sh -> M S (list Sh)
}.
Arguments bw {S Sh}. Arguments b_xor {S Sh}. Arguments b_shl {S Sh}.
Arguments b_and {S Sh}. Arguments b_and_many {S Sh}.

(** aby3/utils.rs:34-42 ceil_log2: number of halvings until x-1 is 0 (fuel 64 = usize bits). *)
Fixpoint count_shifts (fuel : nat) (x : Z) : nat :=
  match fuel with
  | O => O
  | S f => if x >? 0 then S (count_shifts f (Z.shiftr x 1)) else O
  end.
Definition ceil_log2 (x : Z) : nat := count_shifts 64 (x - 1).

Section BinTrait.
  Context {S Sh : Type} (e : bineng S Sh).

  (** VecShareTrait::xor_many (aby3/vecshare.rs:39-46, swift3/vecshare.rs, spdzwise/vecshare.rs) *)
  Definition xor_many (a b : list Sh) : res (list Sh) :=
    if Nat.eqb (length a) (length b) then Ok (map2 (b_xor e) a b) else Err EInvalidSize.
  (** VecShareTrait::shl_assign_many *)
  Definition shl_many (a : list Sh) (n : Z) : list Sh := map (fun x => b_shl e x n) a.

  (** binary_trait.rs:48-52 *)
  Definition b_or (a b : Sh) : M S Sh :=
    let x := b_xor e a b in
    y <- b_and e a b ;;
    retM (b_xor e x y).

  (** binary_trait.rs:54-64 *)
  Definition or_many (a b : list Sh) : M S (list Sh) :=
    if Nat.eqb (length a) (length b) then
      y <- b_and_many e a b ;;
      x <- resM (xor_many a b) ;;
      resM (xor_many y x)
    else failM EInvalidSize.

  (** binary_trait.rs:66-97; the loop body, i = 0 .. logk-1 *)
  Definition ks_round (pg : Sh * Sh) (i : nat) : M S (Sh * Sh) :=
    let '(p, g) := pg in
    let p_ := b_shl e p (2 ^ Z.of_nat i) in
    let g_ := b_shl e g (2 ^ Z.of_nat i) in
    r <- b_and_many e [p; p] [g_; p_] ;;
    p' <- resM (index r 1) ;;
    r0 <- resM (index r 0) ;;
    retM (p', b_xor e g r0).
  Definition binary_add_3 (x1 x2 x3 : Sh) : M S Sh :=
    let logk := ceil_log2 (bw e) in
    let x2x3 := b_xor e x2 x3 in
    let s := b_xor e x1 x2x3 in
    let x1x3 := b_xor e x1 x3 in
    c0 <- b_and e x1x3 x2x3 ;;
    let c := b_shl e (b_xor e c0 x3) 1 in
    let p := b_xor e s c in
    g <- b_and e s c ;;
    pg <- foldM ks_round (seq 0 logk) (p, g) ;;
    retM (b_xor e p (b_shl e (snd pg) 1)).

  (** binary_trait.rs:99-147 *)
  Definition ks_round_many (len : nat) (pg : list Sh * list Sh) (i : nat) : M S (list Sh * list Sh) :=
    let '(p, g) := pg in
    let p_ := shl_many p (2 ^ Z.of_nat i) in
    let g_ := shl_many g (2 ^ Z.of_nat i) in
    r <- b_and_many e (p ++ p) (g_ ++ p_) ;;
    g' <- resM (expect (xor_many g (firstn len r))) ;;
    retM (skipn len r, g').
  Definition binary_add_3_many (x1 x2 x3 : list Sh) : M S (list Sh) :=
    let len := length x1 in
    if negb (Nat.eqb len (length x2)) || negb (Nat.eqb len (length x3)) then failM EInvalidSize
    else
      let logk := ceil_log2 (bw e) in
      x2x3 <- resM (expect (xor_many x2 x3)) ;;
      s <- resM (expect (xor_many x1 x2x3)) ;;
      x1x3 <- resM (expect (xor_many x1 x3)) ;;
      c0 <- b_and_many e x1x3 x2x3 ;;
      c1 <- resM (expect (xor_many c0 x3)) ;;
      let c := shl_many c1 1 in
      p <- resM (expect (xor_many s c)) ;;
      g <- b_and_many e s c ;;
      pg <- foldM (ks_round_many len) (seq 0 logk) (p, g) ;;
      resM (xor_many p (shl_many (snd pg) 1)).

  (** utils.rs:304-349.  [num] always is [inputs.len()]; the recursion is the [while num > 1] loop,
      the fuel argument is never exhausted when started with [inputs.len()] (each pass halves it,
      rounding up); chunk_size = 0 divides by zero in VecShareTrait::chunks. *)
  Fixpoint or_tree_loop (fuel : nat) (chunk : nat) (num : nat) (inputs : list Sh) : M S (list Sh) :=
    match fuel with
    | O => retM inputs
    | Datatypes.S f =>
        if Nat.ltb 1 num then
          let m := Nat.modulo num 2 in
          let n := Nat.div2 num in
          let a_vec := firstn n inputs in
          let tmp := skipn n inputs in
          let b_vec := firstn n tmp in
          let leftover := skipn n tmp in
          if Nat.eqb chunk 0 then failM EPanic
          else
            rs <- mapM2 or_many (chunks chunk a_vec) (chunks chunk b_vec) ;;
            or_tree_loop f chunk (n + m) (concat rs ++ leftover)
        else retM inputs
    end.
  Definition or_tree (inputs : list Sh) (chunk : nat) : M S Sh :=
    r <- or_tree_loop (length inputs) chunk (length inputs) inputs ;;
    resM (index r 0).
End BinTrait.
