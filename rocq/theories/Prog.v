(** Party programs and the three-party network. *)
From Verif Require Import Base.

(** A message is a byte string (bytes::Bytes). *)
Definition msg := list Z.

(** What one party's [async fn] does: send bytes to a party, wait for bytes from a party,
    return a value, or stop with an [Err]/panic.
    iris-mpc/src/traits/network_trait.rs:1-22 (send, receive and their next/prev variants). *)
Inductive prog (A : Type) : Type :=
| Ret (a : A)
| Fail (e : err)
| Send (to : pid) (m : msg) (k : prog A)
| Recv (from : pid) (k : msg -> prog A).
Arguments Ret {A} a. Arguments Fail {A} e. Arguments Send {A} to m k. Arguments Recv {A} from k.

(** [.await?] sequencing. *)
Fixpoint bind {A B} (p : prog A) (f : A -> prog B) : prog B :=
  match p with
  | Ret a => f a
  | Fail e => Fail e
  | Send to m k => Send to m (bind k f)
  | Recv from k => Recv from (fun m => bind (k m) f)
  end.

Definition of_res {A} (r : res A) : prog A := match r with Ok a => Ret a | Err e => Fail e end.

Declare Scope prog_scope.
Delimit Scope prog_scope with prog.
Notation "x <- e ;; f" := (bind e (fun x => f))
  (at level 61, e at next level, right associativity) : prog_scope.
Notation "' pat <- e ;; f" := (bind e (fun x => match x with pat => f end))
  (at level 61, pat pattern, e at next level, right associativity) : prog_scope.

(** ** Three parties and nine FIFO queues *)
Record tri (A : Type) := Tri { t0 : A; t1 : A; t2 : A }.
Arguments Tri {A}. Arguments t0 {A}. Arguments t1 {A}. Arguments t2 {A}.
Definition get {A} (t : tri A) (i : pid) : A :=
  match i with P0 => t0 t | P1 => t1 t | P2 => t2 t end.
Definition set {A} (t : tri A) (i : pid) (x : A) : tri A :=
  match i with
  | P0 => Tri x (t1 t) (t2 t) | P1 => Tri (t0 t) x (t2 t) | P2 => Tri (t0 t) (t1 t) x
  end.
Definition tabulate {A} (f : pid -> A) : tri A := Tri (f P0) (f P1) (f P2).

(** Queue from i to j is [get (get qs i) j]; oldest message first.
    traits/test_network.rs:1-239 (tokio unbounded mpsc per ordered pair) and
    aby3/network.rs:1-171 (one managed channel per peer).  Queues are unbounded. *)
Definition queues := tri (tri (list msg)).
Definition qget (q : queues) (i j : pid) : list msg := get (get q i) j.
Definition qset (q : queues) (i j : pid) (l : list msg) : queues := set q i (set (get q i) j l).
Definition noq : queues := tabulate (fun _ => tabulate (fun _ => [])).

Record cfg (A : Type) := Cfg { progs : tri (prog A); qs : queues }.
Arguments Cfg {A}. Arguments progs {A}. Arguments qs {A}.

(** One atomic action of party i. *)
Inductive step {A} (i : pid) : cfg A -> cfg A -> Prop :=
| step_send c to m k :
    get (progs c) i = Send to m k ->
    step i c (Cfg (set (progs c) i k) (qset (qs c) i to (qget (qs c) i to ++ [m])))
| step_recv c from k m rest :
    get (progs c) i = Recv from k ->
    qget (qs c) from i = m :: rest ->
    step i c (Cfg (set (progs c) i (k m)) (qset (qs c) from i rest)).

(** A schedule is a list of the parties that move. *)
Inductive steps {A} : list pid -> cfg A -> cfg A -> Prop :=
| steps_nil c : steps [] c c
| steps_cons i s c c' c'' : step i c c' -> steps s c' c'' -> steps (i :: s) c c''.

Definition start {A} (P : pid -> prog A) : cfg A := Cfg (tabulate P) noq.
(** All three parties returned, every message sent was consumed. *)
Definition finished {A} (R : pid -> A) : cfg A := Cfg (tabulate (fun i => Ret (R i))) noq.
Definition stuck {A} (c : cfg A) : Prop := forall i c', ~ step i c c'.

(** Some schedule makes the three programs terminate with results R. *)
Definition evals {A} (P : pid -> prog A) (R : pid -> A) : Prop :=
  exists s, steps s (start P) (finished R).

(** Every schedule does: whatever has happened so far, the run can be completed to R,
    and no schedule runs forever or stops anywhere else. *)
Definition always_evals {A} (P : pid -> prog A) (R : pid -> A) : Prop :=
  exists n : nat, forall s c, steps s (start P) c ->
    (length s <= n)%nat /\
    (exists s', steps s' c (finished R) /\ (length s + length s' = n)%nat) /\
    (stuck c -> c = finished R).

(** ** State-passing programs ([&mut self]) *)
Definition M (S A : Type) := S -> prog (S * A).
Definition retM {S A} (a : A) : M S A := fun s => Ret (s, a).
Definition failM {S A} (e : err) : M S A := fun _ => Fail e.
Definition bindM {S A B} (p : M S A) (f : A -> M S B) : M S B :=
  fun s => bind (p s) (fun sa => f (snd sa) (fst sa)).
Definition liftM {S A} (p : prog A) : M S A := fun s => bind p (fun a => Ret (s, a)).
Definition resM {S A} (r : res A) : M S A := liftM (of_res r).
Definition getM {S} : M S S := fun s => Ret (s, s).
Definition putM {S} (s : S) : M S unit := fun _ => Ret (s, tt).

Declare Scope M_scope.
Delimit Scope M_scope with M.
Notation "x <- e ;; f" := (bindM e (fun x => f))
  (at level 61, e at next level, right associativity) : M_scope.
Notation "' pat <- e ;; f" := (bindM e (fun x => match x with pat => f end))
  (at level 61, pat pattern, e at next level, right associativity) : M_scope.
Notation "e ;;; f" := (bindM e (fun _ => f)) (at level 61, right associativity) : M_scope.

(** [for] loops that collect or accumulate. *)
Fixpoint mapM {S A B} (f : A -> M S B) (l : list A) : M S (list B) :=
  match l with
  | [] => retM []
  | a :: t => bindM (f a) (fun b => bindM (mapM f t) (fun bs => retM (b :: bs)))
  end.
(** [for (a, b) in a.iter().zip(b.iter())] collecting results *)
Fixpoint mapM2 {S A A' B} (f : A -> A' -> M S B) (l : list A) (l' : list A') : M S (list B) :=
  match l, l' with
  | a :: t, a' :: t' => bindM (f a a') (fun b => bindM (mapM2 f t t') (fun bs => retM (b :: bs)))
  | _, _ => retM []
  end.
Fixpoint foldM {S A C} (f : C -> A -> M S C) (l : list A) (c : C) : M S C :=
  match l with
  | [] => retM c
  | a :: t => bindM (f c a) (fun c' => foldM f t c')
  end.


(** [.unwrap()] on the Result of an awaited call: whatever the call sends or receives happens, an
    error turns into a panic. *)
Fixpoint unwrap {A} (p : prog A) : prog A :=
  match p with
  | Ret a => Ret a
  | Fail _ => Fail EPanic
  | Send to m k => Send to m (unwrap k)
  | Recv from k => Recv from (fun m => unwrap (k m))
  end.
Definition unwrapM {S A} (p : M S A) : M S A := fun s => unwrap (p s).

(** [.expect(..)]/[.unwrap()] on a Result. *)
Definition expect {A} (r : res A) : res A := match r with Ok a => Ok a | Err _ => Err EPanic end.
(** [vec[n]] *)
Definition index {A} (l : list A) (n : nat) : res A :=
  match nth_error l n with Some a => Ok a | None => Err EPanic end.

(** aby3/utils.rs:53-60 send_and_receive: send to the next party, then wait for the previous. *)
Definition send_and_receive (i : pid) (m : msg) : prog msg :=
  Send (next i) m (Recv (prev i) Ret).
