(** Shared vocabulary: results, errors, party identifiers. *)
From Coq Require Export List ZArith Lia Bool Arith.
Export ListNotations.
Open Scope Z_scope.

(** iris-mpc/src/error.rs:1-74.  One constructor per [Error] variant the modelled code can
    return; [EPanic] stands for a Rust panic (failed [assert!], [unwrap], [expect], [todo!],
    [unreachable!], index out of bounds).  Payload strings are dropped. *)
Inductive err : Type :=
| EConversion | EMaskHW | EInvalidSize | EInvalidCodeSize | EJmpVerify | EVerify | EDZKPVerify
| ENotEnoughTriples | EConfig | ENoInverse | ESerialization | EIO | EId (id : Z) | ENumParty
| EValue | EOther
| EPanic.

(** Rust [Result<A, Error>] (plus panics). *)
Inductive res (A : Type) : Type := Ok (a : A) | Err (e : err).
Arguments Ok {A} a. Arguments Err {A} e.

Definition rbind {A B} (r : res A) (f : A -> res B) : res B :=
  match r with Ok a => f a | Err e => Err e end.

(** iris-mpc/src/aby3/id.rs:1-66: the three parties; [next]/[prev] are id+1, id-1 mod 3. *)
Inductive pid : Type := P0 | P1 | P2.
Definition next (i : pid) : pid := match i with P0 => P1 | P1 => P2 | P2 => P0 end.
Definition prev (i : pid) : pid := match i with P0 => P2 | P1 => P0 | P2 => P1 end.
Definition pid_eqb (i j : pid) : bool :=
  match i, j with P0, P0 => true | P1, P1 => true | P2, P2 => true | _, _ => false end.
(** [usize] identifiers as they appear in the API. *)
Definition pid_num (i : pid) : Z := match i with P0 => 0 | P1 => 1 | P2 => 2 end.

Lemma pid_eqb_spec i j : reflect (i = j) (pid_eqb i j).
Proof. destruct i, j; simpl; constructor; congruence. Qed.
Lemma pid_eqb_refl i : pid_eqb i i = true.
Proof. destruct i; reflexivity. Qed.
Lemma next_prev i : next (prev i) = i. Proof. destruct i; reflexivity. Qed.
Lemma prev_next i : prev (next i) = i. Proof. destruct i; reflexivity. Qed.

(** Rust [slice::chunks(n)] for n > 0 (n = 0 panics in Rust; callers model that case). *)
Fixpoint chunks_fuel {A} (fuel : nat) (n : nat) (l : list A) : list (list A) :=
  match fuel with
  | O => []
  | S f => match l with
           | [] => []
           | _ => firstn n l :: chunks_fuel f n (skipn n l)
           end
  end.
Definition chunks {A} (n : nat) (l : list A) : list (list A) := chunks_fuel (length l) n l.

(** [iter().zip()] followed by a map. *)
Fixpoint map2 {A B C} (f : A -> B -> C) (l : list A) (l' : list B) : list C :=
  match l, l' with
  | a :: t, b :: t' => f a b :: map2 f t t'
  | _, _ => []
  end.

(** [Vec::resize(n, d)]. *)
Definition resize {A} (n : nat) (d : A) (l : list A) : list A :=
  firstn n l ++ repeat d (n - length l).

Fixpoint mapM_res {A B} (f : A -> res B) (l : list A) : res (list B) :=
  match l with
  | [] => Ok []
  | a :: t => match f a with
              | Err e => Err e
              | Ok b => match mapM_res f t with Err e => Err e | Ok bs => Ok (b :: bs) end
              end
  end.
