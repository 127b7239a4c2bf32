(** Programs over the public engine interface (traits/mpc_trait.rs:10-92): an arbitrary sequence of
    calls made identically by the three parties, and what it must compute. *)
From Verif Require Import Base Ring Prog Sched Rel Protocol MpcSpec.

(** The remaining operations of MpcTrait, at one party. *)
Record api (S A B : Type) := Api {
  a_mpc : mpc S A B;
  a_input : option Z -> Z -> M S A;
  a_open : A -> M S Z;
  a_open_many : list A -> M S (list Z);
  a_open_bit_many : list B -> M S (list bool);
  a_add_const : S -> A -> Z -> A;
  a_mul : A -> A -> M S A;
  a_dot : list A -> list A -> M S A;
  a_dot_many : list (list A) -> list (list A) -> M S (list A);
  a_get_msb : A -> M S B;
  a_binary_or : B -> B -> M S B
}.
Arguments a_mpc {S A B}. Arguments a_input {S A B}. Arguments a_open {S A B}. Arguments a_open_many {S A B}.
Arguments a_open_bit_many {S A B}. Arguments a_add_const {S A B}. Arguments a_mul {S A B}. Arguments a_dot {S A B}.
Arguments a_dot_many {S A B}. Arguments a_get_msb {S A B}. Arguments a_binary_or {S A B}.

(** One call; numbers name registers (the n-th value produced so far). *)
Inductive cmd : Type :=
| CInput (p : pid) (x : Z)                       (* party p shares its input x *)
| CAdd (m n : nat) | CSub (m n : nat)
| CAddConst (m : nat) (c : Z) | CSubConst (m : nat) (c : Z) | CMulConst (m : nat) (c : Z)
| CMul (m n : nat)
| CDot (ms ns : list nat)
| CDotMany (ms ns : list (list nat))
| CMsb (m : nat) | CMsbMany (ms : list nat)
| COr (m n : nat) | CReduceOr (ms : list nat) (chunk : nat)
| COpen (m : nat) | COpenMany (ms : list nat)
| COpenBit (m : nat) | COpenBitMany (ms : list nat).

(** What a party (or the plain evaluator) remembers: arithmetic values, bits, opened values. *)
Record mem (A B : Type) := Mem { areg : list A; breg : list B; aout : list Z; bout : list bool }.
Arguments Mem {A B}. Arguments areg {A B}. Arguments breg {A B}. Arguments aout {A B}. Arguments bout {A B}.
Definition mem0 {A B} : mem A B := Mem [] [] [] [].
Definition pushA {A B} (m : mem A B) (l : list A) : mem A B := Mem (areg m ++ l) (breg m) (aout m) (bout m).
Definition pushB {A B} (m : mem A B) (l : list B) : mem A B := Mem (areg m) (breg m ++ l) (aout m) (bout m).
Definition outA {A B} (m : mem A B) (l : list Z) : mem A B := Mem (areg m) (breg m) (aout m ++ l) (bout m).
Definition outB {A B} (m : mem A B) (l : list bool) : mem A B := Mem (areg m) (breg m) (aout m) (bout m ++ l).

(** ** Specification: plain evaluation, with numbers modulo 2^K and booleans.
    [None]: the call is not admissible (missing register, lengths differ, empty vector, value out of
    range, chunk size 0). *)
Fixpoint all_some {A} (l : list (option A)) : option (list A) :=
  match l with
  | [] => Some []
  | Some a :: t => match all_some t with Some r => Some (a :: r) | None => None end
  | None :: _ => None
  end.
Definition gets {A} (l : list A) (ns : list nat) : option (list A) := all_some (map (nth_error l) ns).
Definition getss {A} (l : list A) (nss : list (list nat)) : option (list (list A)) := all_some (map (gets l) nss).
Definition obind {A B} (o : option A) (f : A -> option B) : option B := match o with Some a => f a | None => None end.
Definition guard {A} (b : bool) (o : option A) : option A := if b then o else None.
Definition in_range (K x : Z) : bool := (0 <=? x) && (x <? 2 ^ K).
Definition same_lens {A B} (xs : list (list A)) (ys : list (list B)) : bool :=
  Nat.eqb (length xs) (length ys) && forallb (fun xy => Nat.eqb (length (fst xy)) (length (snd xy)) && Nat.ltb 0 (length (fst xy))) (combine xs ys).

Definition eval_cmd (K : Z) (c : cmd) (m : mem Z bool) : option (mem Z bool) :=
  let md x := x mod 2 ^ K in
  let rd n := nth_error (areg m) n in
  let rdb n := nth_error (breg m) n in
  match c with
  | CInput p x => guard (in_range K x) (Some (pushA m [x]))
  | CAdd a b => obind (rd a) (fun x => obind (rd b) (fun y => Some (pushA m [md (x + y)])))
  | CSub a b => obind (rd a) (fun x => obind (rd b) (fun y => Some (pushA m [md (x - y)])))
  | CAddConst a c => guard (in_range K c) (obind (rd a) (fun x => Some (pushA m [md (x + c)])))
  | CSubConst a c => guard (in_range K c) (obind (rd a) (fun x => Some (pushA m [md (x - c)])))
  | CMulConst a c => guard (in_range K c) (obind (rd a) (fun x => Some (pushA m [md (x * c)])))
  | CMul a b => obind (rd a) (fun x => obind (rd b) (fun y => Some (pushA m [md (x * y)])))
  | CDot a b => guard (Nat.eqb (length a) (length b) && Nat.ltb 0 (length a))
                  (obind (gets (areg m) a) (fun xs => obind (gets (areg m) b) (fun ys =>
                   Some (pushA m [md (dotp xs ys)]))))
  | CDotMany a b => guard (same_lens a b && Nat.ltb 0 (length a))
                      (obind (getss (areg m) a) (fun xs => obind (getss (areg m) b) (fun ys =>
                       Some (pushA m (map2 (fun x y => md (dotp x y)) xs ys)))))
  | CMsb a => obind (rd a) (fun x => Some (pushB m [Z.testbit x (K - 1)]))
  | CMsbMany a => guard (Nat.ltb 0 (length a)) (obind (gets (areg m) a) (fun xs =>
                    Some (pushB m (map (fun x => Z.testbit x (K - 1)) xs))))
  | COr a b => obind (rdb a) (fun x => obind (rdb b) (fun y => Some (pushB m [x || y])))
  | CReduceOr a ch => guard (Nat.ltb 0 (length a) && Nat.ltb 0 ch) (obind (gets (breg m) a) (fun xs =>
                    Some (pushB m [existsb (fun b => b) xs])))
  | COpen a => obind (rd a) (fun x => Some (outA m [x]))
  | COpenMany a => obind (gets (areg m) a) (fun xs => Some (outA m xs))
  | COpenBit a => obind (rdb a) (fun x => Some (outB m [x]))
  | COpenBitMany a => obind (gets (breg m) a) (fun xs => Some (outB m xs))
  end.
Fixpoint eval (K : Z) (cs : list cmd) (m : mem Z bool) : option (mem Z bool) :=
  match cs with
  | [] => Some m
  | c :: t => obind (eval_cmd K c m) (eval K t)
  end.

(** ** Execution by party [me] *)
Section Exec.
  Context {S A B : Type} (e : api S A B) (me : pid).
  Local Open Scope M_scope.
  Definition need {T} (o : option T) : M S T := match o with Some a => retM a | None => failM EPanic end.
  Definition exec_cmd (c : cmd) (m : mem A B) : M S (mem A B) :=
    let rd n := need (nth_error (areg m) n) in
    let rdb n := need (nth_error (breg m) n) in
    match c with
    | CInput p x => r <- a_input e (if pid_eqb me p then Some x else None) (pid_num p) ;; retM (pushA m [r])
    | CAdd a b => x <- rd a ;; y <- rd b ;; retM (pushA m [m_add (a_mpc e) x y])
    | CSub a b => x <- rd a ;; y <- rd b ;; retM (pushA m [m_sub (a_mpc e) x y])
    | CAddConst a c => x <- rd a ;; s <- getM ;; retM (pushA m [a_add_const e s x c])
    | CSubConst a c => x <- rd a ;; s <- getM ;; retM (pushA m [m_sub_const (a_mpc e) s x c])
    | CMulConst a c => x <- rd a ;; retM (pushA m [m_mul_const (a_mpc e) x c])
    | CMul a b => x <- rd a ;; y <- rd b ;; r <- a_mul e x y ;; retM (pushA m [r])
    | CDot a b => xs <- need (gets (areg m) a) ;; ys <- need (gets (areg m) b) ;; r <- a_dot e xs ys ;; retM (pushA m [r])
    | CDotMany a b => xs <- need (getss (areg m) a) ;; ys <- need (getss (areg m) b) ;; r <- a_dot_many e xs ys ;; retM (pushA m r)
    | CMsb a => x <- rd a ;; r <- a_get_msb e x ;; retM (pushB m [r])
    | CMsbMany a => xs <- need (gets (areg m) a) ;; r <- m_get_msb_many (a_mpc e) xs ;; retM (pushB m r)
    | COr a b => x <- rdb a ;; y <- rdb b ;; r <- a_binary_or e x y ;; retM (pushB m [r])
    | CReduceOr a ch => xs <- need (gets (breg m) a) ;; r <- m_reduce_binary_or (a_mpc e) xs ch ;; retM (pushB m [r])
    | COpen a => x <- rd a ;; r <- a_open e x ;; retM (outA m [r])
    | COpenMany a => xs <- need (gets (areg m) a) ;; r <- a_open_many e xs ;; retM (outA m r)
    | COpenBit a => x <- rdb a ;; r <- m_open_bit (a_mpc e) x ;; retM (outB m [r])
    | COpenBitMany a => xs <- need (gets (breg m) a) ;; r <- a_open_bit_many e xs ;; retM (outB m r)
    end.
  Fixpoint exec (cs : list cmd) (m : mem A B) : M S (mem A B) :=
    match cs with
    | [] => retM m
    | c :: t => m' <- exec_cmd c m ;; exec t m'
    end.
End Exec.

(** The parties' memories jointly represent the plain memory; opened values are equal everywhere. *)
Definition mem_shared {A B} (AR : (pid -> A) -> Z -> Prop) (BR : (pid -> B) -> bool -> Prop)
  (m : pid -> mem A B) (p : mem Z bool) : Prop :=
  RL AR (fun i => areg (m i)) (areg p) /\ RL BR (fun i => breg (m i)) (breg p) /\
  (forall i, aout (m i) = aout p) /\ (forall i, bout (m i) = bout p).

(** Contract of the additional operations. *)
Record api_ok {S A B : Type} (E : pid -> api S A B) (K : Z)
  (AR : (pid -> A) -> Z -> Prop) (BR : (pid -> B) -> bool -> Prop) (J : (pid -> S) -> Prop) : Prop := {
  ao_range : forall X x, AR X x -> inr K x;
  ao_extA : forall X X' x, (forall i, X i = X' i) -> AR X x -> AR X' x;
  ao_extB : forall X X' x, (forall i, X i = X' i) -> BR X x -> BR X' x;
  ao_input : forall s p x v, J s -> inr K x -> v p = Some x ->
    wpM (fun i => a_input (E i) (v i) (pid_num p)) s (fun s' W => J s' /\ AR W x);
  ao_open : forall s X x, J s -> AR X x -> wpM (fun i => a_open (E i) (X i)) s (fun s' v => J s' /\ forall i, v i = x);
  ao_open_many : forall s X xs, J s -> RL AR X xs ->
    wpM (fun i => a_open_many (E i) (X i)) s (fun s' v => J s' /\ forall i, v i = xs);
  ao_open_bit : forall s X x, J s -> BR X x -> wpM (fun i => m_open_bit (a_mpc (E i)) (X i)) s (fun s' v => J s' /\ forall i, v i = x);
  ao_open_bit_many : forall s X xs, J s -> RL BR X xs ->
    wpM (fun i => a_open_bit_many (E i) (X i)) s (fun s' v => J s' /\ forall i, v i = xs);
  ao_add : forall X x Y y, AR X x -> AR Y y -> AR (fun i => m_add (a_mpc (E i)) (X i) (Y i)) ((x + y) mod 2 ^ K);
  ao_sub : forall X x Y y, AR X x -> AR Y y -> AR (fun i => m_sub (a_mpc (E i)) (X i) (Y i)) ((x - y) mod 2 ^ K);
  ao_mulc : forall X x c, AR X x -> inr K c -> AR (fun i => m_mul_const (a_mpc (E i)) (X i) c) ((x * c) mod 2 ^ K);
  ao_addc : forall s X x c, J s -> AR X x -> inr K c -> AR (fun i => a_add_const (E i) (s i) (X i) c) ((x + c) mod 2 ^ K);
  ao_subc : forall s X x c, J s -> AR X x -> inr K c -> AR (fun i => m_sub_const (a_mpc (E i)) (s i) (X i) c) ((x - c) mod 2 ^ K);
  ao_mul : forall s X x Y y, J s -> AR X x -> AR Y y ->
    wpM (fun i => a_mul (E i) (X i) (Y i)) s (fun s' W => J s' /\ AR W ((x * y) mod 2 ^ K));
  ao_dot : forall s X xs Y ys, J s -> RL AR X xs -> RL AR Y ys -> length xs = length ys -> (0 < length xs)%nat ->
    wpM (fun i => a_dot (E i) (X i) (Y i)) s (fun s' W => J s' /\ AR W (dotp xs ys mod 2 ^ K));
  ao_dot_many : forall s X xs Y ys, J s -> RL (RL AR) X xs -> RL (RL AR) Y ys ->
    Forall2 (fun x y => length x = length y /\ (0 < length x)%nat) xs ys -> (0 < length xs)%nat ->
    wpM (fun i => a_dot_many (E i) (X i) (Y i)) s (fun s' W => J s' /\ RL AR W (map2 (fun x y => dotp x y mod 2 ^ K) xs ys));
  ao_msb : forall s X x, J s -> AR X x ->
    wpM (fun i => a_get_msb (E i) (X i)) s (fun s' W => J s' /\ BR W (Z.testbit x (K - 1)));
  ao_msb_many : forall s X xs, J s -> (0 < length xs)%nat -> RL AR X xs ->
    wpM (fun i => m_get_msb_many (a_mpc (E i)) (X i)) s (fun s' W => J s' /\ RL BR W (map (fun x => Z.testbit x (K - 1)) xs));
  ao_or : forall s X x Y y, J s -> BR X x -> BR Y y ->
    wpM (fun i => a_binary_or (E i) (X i) (Y i)) s (fun s' W => J s' /\ BR W (x || y));
  ao_reduce_or : forall s X bs chunk, J s -> (0 < chunk)%nat -> (0 < length bs)%nat -> RL BR X bs ->
    wpM (fun i => m_reduce_binary_or (a_mpc (E i)) (X i) chunk) s (fun s' W => J s' /\ BR W (existsb (fun b => b) bs))
}.
