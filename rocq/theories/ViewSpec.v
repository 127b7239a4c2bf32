(** What one party sees of a joint execution, and what it means that it sees nothing it should not.
    Specification file: independent of the protocols. *)
From Verif Require Import Base Ring Prog Rng Aby3.

(** The program p, which in addition records every message it receives, in order. *)
Fixpoint spied {A} (p : prog A) : prog (list msg * A) :=
  match p with
  | Ret a => Ret ([], a)
  | Fail e => Fail e
  | Send to m k => Send to m (spied k)
  | Recv from k => Recv from (fun m => bind (spied (k m)) (fun r => Ret (m :: fst r, snd r)))
  end.

(** In the honest run of the three programs, party i receives the messages [v], in this order,
    whatever the schedule, and obtains the result [r]. *)
Definition sees {S A} (i : pid) (P : pid -> M S A) (s : pid -> S) (v : list msg) (r : A) : Prop :=
  exists R, always_evals (fun j => spied (P j (s j))) R /\ fst (R i) = v /\ snd (snd (R i)) = r.

(** Perfect randomness: a generator that reads a tape of bits, K bits (least significant first) for a
    K-bit value. *)
Fixpoint bits_value (l : list bool) : Z :=
  match l with [] => 0 | b :: t => Z.b2z b + 2 * bits_value t end.
Definition tape : rng :=
  {| rstate := list bool; rseed := fun _ => [];
     rdraw := fun t K => (skipn (Z.to_nat K) t, bits_value (firstn (Z.to_nat K) t)) |}.

(** Every generator is shared by two parties.  Party i knows its own ([mine]) and the one of the party
    before it ([theirs]); the third one ([hidden]) belongs to the party after it and is shared with
    the party before it. *)
Definition deal (i : pid) (mine theirs hidden : list bool) : pid -> prf tape := fun j =>
  if pid_eqb j i then Prf tape mine theirs
  else if pid_eqb j (next i) then Prf tape hidden mine
  else Prf tape theirs hidden.

(** Two joint executions look the same to party i: they use the same number n of hidden random bits,
    and for whatever party i's generators produce, every choice of the n hidden bits in the first
    execution corresponds to exactly one choice in the second with which party i receives exactly the
    same messages (and obtains the same result), and conversely.  So for uniformly random hidden bits
    the messages are identically distributed.  (The tapes may go on after the n bits.) *)
Definition same_to {A} (i : pid) (P P' : pid -> M (prf tape) A) : Prop :=
  exists n : nat, forall mine theirs : list bool,
    let matched (P P' : pid -> M (prf tape) A) :=
      forall w, length w = n -> exists v r,
        (forall h, sees i P (deal i mine theirs (w ++ h)) v r) /\
        exists! w', length w' = n /\ forall h, sees i P' (deal i mine theirs (w' ++ h)) v r in
    matched P P' /\ matched P' P.
