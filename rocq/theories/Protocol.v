(** iris-mpc/src/iris/protocol.rs over any engine (traits/mpc_trait.rs). *)
From Verif Require Import Base Ring Prog BinTrait Iris.
From Coq Require Import Floats.SpecFloat.
Local Open Scope M_scope.

(** traits/mpc_trait.rs:10-92, the operations the iris protocol uses, at one party; S is the
    engine's own state, A/B its arithmetic and bit shares.  A vector share is a list of shares.
    [m_K] is T::Share::K; [m_sub_const] reads the engine (SPDZ-wise needs its MAC key). *)
Record mpc (S A B : Type) := Mpc {
  m_K : Z;
  m_precompute : Z -> M S unit;
  m_masked_dot_many : list A -> list (list A) -> list code -> M S (list A);
  m_filter_reduce_add_twice : list A -> list A -> code -> res (A * A);
  m_add : A -> A -> A;
  m_sub : A -> A -> A;
  m_mul_const : A -> Z -> A;
  m_sub_const : S -> A -> Z -> A;
  m_get_msb_many : list A -> M S (list B);
  m_reduce_binary_or : list B -> nat -> M S B;
  m_verify : M S unit;
  m_open_bit : B -> M S bool
}.
Arguments m_K {S A B}. Arguments m_precompute {S A B}. Arguments m_masked_dot_many {S A B}.
Arguments m_filter_reduce_add_twice {S A B}. Arguments m_add {S A B}. Arguments m_sub {S A B}.
Arguments m_mul_const {S A B}. Arguments m_sub_const {S A B}. Arguments m_get_msb_many {S A B}.
Arguments m_reduce_binary_or {S A B}. Arguments m_verify {S A B}. Arguments m_open_bit {S A B}.

(** protocol.rs:38-53 (the two comparisons of the constant ratio included) *)
Definition f64_leb (a b : spec_float) : bool := SFleb a b.
Definition iris_new (K : Z) : res unit :=
  if f64_leb (f64_of_Z 1) RATIO_034 || f64_leb RATIO_034 (f64_of_Z 0)
     || (K <=? Z.of_nat (ceil_log2 IRIS_CODE_SIZE_Z))
  then Err EConfig else Ok tt.

(** T::try_from(usize) for an unsigned (signed = false) or signed type of K bits. *)
Definition try_from (signed : bool) (K n : Z) : res Z :=
  if n <? 2 ^ (if signed then K - 1 else K) then Ok n else Err EConversion.

Section Protocol.
  Context {S A B : Type} (e : mpc S A B) (signed : bool).

  (** protocol.rs:102-114 *)
  Definition combine_masks (mask_a mask_b : code) : res code :=
    let combined := code_and mask_a mask_b in
    if count_ones combined <? MASK_THRESHOLD then Err EMaskHW else Ok combined.

  (** protocol.rs:116-134 *)
  Definition masked_hamming_distance_post (a b : list A) (mask : code) (dot : A) : res A :=
    if Nat.eqb (length a) 0 || negb (Nat.eqb (length a) (length b)) then Err EInvalidCodeSize
    else rbind (m_filter_reduce_add_twice e a b mask) (fun sums =>
         rbind (expect (try_from signed (m_K e) 2)) (fun two =>
         Ok (m_sub e (m_add e (fst sums) (snd sums)) (m_mul_const e dot two)))).

  (** protocol.rs:149-164 *)
  Definition masked_hamming_distance_many (a : list A) (b : list (list A)) (masks : list code) : M S (list A) :=
    dots <- m_masked_dot_many e a b masks ;;
    resM (mapM_res (fun bdm => masked_hamming_distance_post a (fst (fst bdm)) (snd bdm) (snd (fst bdm)))
            (combine (combine b dots) masks)).

  (** protocol.rs:166-174 *)
  Definition get_cmp_diff (s : S) (hwd : A) (mask_ones : Z) : res A :=
    rbind (expect (try_from signed (m_K e) (match_threshold mask_ones))) (fun t => Ok (m_sub_const e s hwd t)).

  (** protocol.rs:189-206 *)
  Definition compare_threshold_many (hwds : list A) (mask_lens : list Z) : M S (list B) :=
    if negb (Nat.eqb (length hwds) (length mask_lens)) then failM EInvalidSize
    else
      s <- getM ;;
      diffs <- resM (mapM_res (fun hl => get_cmp_diff s (fst hl) (snd hl)) (combine hwds mask_lens)) ;;
      m_get_msb_many e diffs.

  (** protocol.rs:222-242 *)
  Definition compare_iris_many (a : list A) (b : list (list A)) (mask_a : code) (mask_b : list code) : M S (list B) :=
    let amount := length b in
    if negb (Nat.eqb amount (length mask_b)) || Nat.eqb amount 0 then failM EInvalidSize
    else
      masks <- resM (mapM_res (combine_masks mask_a) mask_b) ;;
      let mask_lens := map count_ones masks in
      hwds <- masked_hamming_distance_many a b masks ;;
      compare_threshold_many hwds mask_lens.

  (** protocol.rs:244-252 (usize arithmetic, overflow not modelled) *)
  Definition msb_and_gates (amount chunk_size : Z) : Z :=
    let amount := (amount + chunk_size - 1) / chunk_size in
    amount * chunk_size * (m_K e * 2 - 3).
  (** protocol.rs:268-269 *)
  Definition num_and_triples (amount chunk_size : Z) : Z :=
    msb_and_gates amount chunk_size + ((amount + chunk_size - 2) / chunk_size) * chunk_size.

  (** protocol.rs:254-284; chunk_size = 0 divides by zero in msb_and_gates *)
  Definition iris_in_db (iris : list A) (db : list (list A)) (mask_iris : code) (mask_db : list code)
             (chunk_size : nat) : M S bool :=
    let amount := length db in
    if negb (Nat.eqb amount (length mask_db)) || Nat.eqb amount 0 then failM EInvalidSize
    else if Nat.eqb chunk_size 0 then failM EPanic
    else
      m_precompute e (num_and_triples (Z.of_nat amount) (Z.of_nat chunk_size)) ;;;
      bool_shares <- foldM (fun acc dm =>
          r <- compare_iris_many iris (fst dm) mask_iris (snd dm) ;;
          retM (acc ++ r))
        (combine (chunks chunk_size db) (chunks chunk_size mask_db)) [] ;;
      res <- m_reduce_binary_or e bool_shares chunk_size ;;
      unwrapM (m_verify e) ;;;
      m_open_bit e res.
End Protocol.
