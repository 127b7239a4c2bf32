(** Contract between the iris protocol and an MPC engine: what each operation of
    traits/mpc_trait.rs must do on shares, in an honest three-party run. *)
From Verif Require Import Base Ring RingProofs Prog Sched Rel Iris IrisSpec Protocol.

(** The bits of a code as ring elements: what the client shares. *)
Definition code_vals (c : code) : list Z := map (fun p => Z.b2z (bit_at c p)) positions.
Definition mask_bits (m : code) : list bool := map (bit_at m) positions.
(** Sum of the entries whose mask bit is set. *)
Definition msum (xs : list Z) (m : list bool) : Z :=
  fold_right Z.add 0 (map2 (fun x (b : bool) => if b then x else 0) xs m).
(** Inner products: the sum of products of corresponding entries. *)
Definition dotp (xs ys : list Z) : Z := fold_right Z.add 0 (map2 Z.mul xs ys).
(** Masked inner products: only positions whose mask bit is set contribute. *)
Definition mdotp (xs ys : list Z) (m : list bool) : Z := msum (map2 Z.mul xs ys) m.

(** [AR X x]: the three parties' arithmetic shares X represent x; [BR] likewise for bits;
    [Inv g s]: joint invariant of the parties' private states, with ghost state g; the g_ functions
    say how the ghost state evolves, [ver_ok g] when the final verification must succeed. *)
Record mpc_ok {Gh S A B : Type} (E : pid -> mpc S A B) (K : Z)
  (AR : (pid -> A) -> Z -> Prop) (BR : (pid -> B) -> bool -> Prop) (Inv : Gh -> (pid -> S) -> Prop)
  (g_pre : Z -> Gh -> Gh) (g_dot g_msb : nat -> Gh -> Gh) (g_or : nat -> nat -> Gh -> Gh)
  (ver_ok : Gh -> Prop) (g_ver : Gh -> Gh) : Prop := {
  mo_width : forall i, m_K (E i) = K;
  mo_pre : forall g s n, Inv g s -> wpM (fun i => m_precompute (E i) n) s (fun s' _ => Inv (g_pre n g) s');
  mo_dot : forall g s X xs Y yss masks, Inv g s -> RL AR X xs -> RL (RL AR) Y yss ->
    length xs = IRIS_CODE_SIZE -> Forall (fun ys => length ys = IRIS_CODE_SIZE) yss -> Forall wf_code masks ->
    (0 < length yss)%nat -> length yss = length masks ->
    wpM (fun i => m_masked_dot_many (E i) (X i) (Y i) masks) s
      (fun s' W => Inv (g_dot (length yss) g) s' /\
                   RL AR W (map2 (fun ys m => mdotp xs ys (mask_bits m) mod 2 ^ K) yss masks));
  mo_filter : forall X xs Y ys m, RL AR X xs -> RL AR Y ys ->
    length xs = IRIS_CODE_SIZE -> length ys = IRIS_CODE_SIZE -> Forall (inr 1) xs -> Forall (inr 1) ys -> wf_code m ->
    exists U V, (forall i, m_filter_reduce_add_twice (E i) (X i) (Y i) m = Ok (U i, V i)) /\
      AR U (msum xs (mask_bits m) mod 2 ^ K) /\ AR V (msum ys (mask_bits m) mod 2 ^ K);
  mo_add : forall X x Y y, AR X x -> AR Y y -> AR (fun i => m_add (E i) (X i) (Y i)) ((x + y) mod 2 ^ K);
  mo_sub : forall X x Y y, AR X x -> AR Y y -> AR (fun i => m_sub (E i) (X i) (Y i)) ((x - y) mod 2 ^ K);
  mo_mulc : forall X x c, AR X x -> inr K c -> AR (fun i => m_mul_const (E i) (X i) c) ((x * c) mod 2 ^ K);
  mo_subc : forall g s X x c, Inv g s -> AR X x -> inr K c ->
    AR (fun i => m_sub_const (E i) (s i) (X i) c) ((x - c) mod 2 ^ K);
  mo_msb : forall g s X xs, Inv g s -> (0 < length xs)%nat -> RL AR X xs ->
    wpM (fun i => m_get_msb_many (E i) (X i)) s
      (fun s' W => Inv (g_msb (length xs) g) s' /\ RL BR W (map (fun x => Z.testbit x (K - 1)) xs));
  mo_or : forall g s X bs chunk, Inv g s -> (0 < chunk)%nat -> (0 < length bs)%nat -> RL BR X bs ->
    wpM (fun i => m_reduce_binary_or (E i) (X i) chunk) s
      (fun s' W => Inv (g_or (length bs) chunk g) s' /\ BR W (existsb (fun b => b) bs));
  mo_ver : forall g s, Inv g s -> ver_ok g -> wpM (fun i => m_verify (E i)) s (fun s' _ => Inv (g_ver g) s');
  mo_open : forall g s X b, Inv g s -> BR X b ->
    wpM (fun i => m_open_bit (E i) (X i)) s (fun s' R => Inv g s' /\ forall i, R i = b)
}.
