(** Specification vocabulary for the batched MAC check against a malicious party (property C26). *)
From Verif Require Import Base Ring Prog Conc Rng Aby3 Duo MpcSpec.

(** n consecutive draws of K-bit values from a generator, and the state afterwards. *)
Fixpoint rnd (G : rng) (K : Z) (n : nat) (r : rstate G) : list Z :=
  match n with O => [] | S n' => snd (draw G K r) :: rnd G K n' (fst (draw G K r)) end.
Fixpoint after (G : rng) (K : Z) (n : nat) (r : rstate G) : rstate G :=
  match n with O => r | S n' => after G K n' (fst (draw G K r)) end.

(** An execution of i and i+1 against a third party sending arbitrary bytes, given by what each party
    did ([tr]) and by what is still under way; i and i+1 have finished; [l] is what i received from the
    third party, in order.  [Conc.project]: every execution under a schedule is of this form. *)
Definition duo_trace {S A} (i : pid) (p q : M S A) (s t s' t' : S) (x y : A) (l : list msg) : Prop :=
  exists (P : pid -> prog (S * A)) (tr : pid -> list act) (c : cfg (S * A)),
    P i = p s /\ P (next i) = q t /\ sends_bytes (P (prev i)) /\
    (forall a, lrun (P a) (tr a) (get (progs c) a)) /\
    (forall a b, rcvd_from a (tr b) ++ qget (qs c) a b = sent_to b (tr a)) /\
    get (progs c) i = Ret (s', x) /\ get (progs c) (next i) = Ret (t', y) /\
    l = rcvd_from (prev i) (tr i).

(** A family indexed by the parties: x for i, y for i+1, z for the third. *)
Definition by_pid {A} (i : pid) (x y z : A) (p : pid) : A := if pid_eqb p i then x else if pid_eqb p (next i) then y else z.

(** Sums over replicated shares: the part of x * y, of an inner product, that one party computes. *)
Definition part (x y : share) : Z := sa x * sa y + sa x * sb y + sb x * sa y.
Definition parts (x y : list share) : Z := fold_right Z.add 0 (map2 part x y).
Definition sum3 (d : pid -> list Z) : list Z := map2 Z.add (d P0) (map2 Z.add (d P1) (d P2)).

(** The check draws one secret coefficient per queued item and three zero sharings from three generators;
    generator p is shared by p and p+1.  [d p]: what generator p outputs, n + 3 values. *)
Section Check.
  Variables (U : Z) (n : nat) (d : pid -> list Z).
  (** p's shares of the coefficients, and the coefficients *)
  Definition coef_share (p : pid) : list share := map2 Share (firstn n (d p)) (firstn n (d (prev p))).
  Definition coef : list Z := sum3 (fun p => firstn n (d p)).
  (** p's summand of the m-th zero sharing *)
  Definition zero_part (m : nat) (p : pid) : Z := nth (n + m) (d p) 0 - nth (n + m) (d (prev p)) 0.
  (** What p computes and sends: sums of values and of MACs (V p, M p: its shares of the queue), then the
      product with the key, given its share R of the first sum *)
  Definition sum_word (m : nat) (X : list share) (p : pid) : Z := (parts X (coef_share p) + zero_part m p) mod 2 ^ U.
  Definition product_word (R key : share) (p : pid) : Z := (part R key + zero_part 2 p) mod 2 ^ U.
End Check.

(** The coefficients with the one at position pos replaced by c. *)
Definition with_coef (pos : nat) (c : Z) (rho : list Z) : list Z := firstn pos rho ++ c :: skipn (S pos) rho.

(** Key r, coefficients rho; the value at each position is off by ds, its MAC r * x is off by es; the third
    party's own messages are off by e0, e1 (the two sums) and e2 (the product).  The check passes when: *)
Definition mac_relation (U r : Z) (rho ds es : list Z) (e0 e1 e2 : Z) : Prop :=
  (dotp rho (map2 (fun d e => d * r - e) ds es) + e0 * r + e2 - e1) mod 2 ^ U = 0.
