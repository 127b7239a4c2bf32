(** Specification vocabulary: executions in which party [prev i] runs an arbitrary program. *)
From Verif Require Import Base Ring Prog Conc Duo Rng Net Aby3 Jmp Swift3 Poly Dzkp Swift3Verify.
Local Open Scope list_scope.

(** c is reached from the start, and tr lists for every party what it has sent and received on the way there. *)
Definition execution {A} (P : pid -> prog A) (c : cfg A) (tr : pid -> list act) : Prop :=
  (exists sched, steps sched (start P) c) /\ (forall i, lrun (P i) (tr i) (get (progs c) i)) /\
  (forall i j, rcvd_from i (tr j) ++ qget (qs c) i j = sent_to j (tr i)).
(** Parties i and next i run the programs p and q, the party before i an arbitrary program that sends bytes;
    the first two have finished. *)
Definition both_finish {A} (i : pid) (p q : prog A) (P : pid -> prog A) (c : cfg A) (tr : pid -> list act) : Prop :=
  P i = p /\ P (next i) = q /\ sends_bytes (P (prev i)) /\ execution P c tr /\
  (exists x, get (progs c) i = Ret x) /\ exists y, get (progs c) (next i) = Ret y.
(** The same for a stretch of such an execution, by what the parties did in it: tr i and tr (next i) are finished runs
    of p and q; all that i and next i received from somebody in it was sent to them in it, and arrived in order. *)
Definition both_end {A} (i : pid) (p q : prog A) (tr : pid -> list act) : Prop :=
  (exists x, lrun p (tr i) (Ret x)) /\ (exists y, lrun q (tr (next i)) (Ret y)) /\
  (forall a b, b <> prev i -> a <> b -> exists rest, rcvd_from a (tr b) ++ rest = sent_to b (tr a)) /\
  (forall k, Forall bytes (sent_to k (tr (prev i)))).

(** The elements all parties derive from their common generator, for the proof of party j. *)
Definition common_elements {A} (G : rng) (draw_el : rstate G -> rstate G * A) (l : nat) (p : rstate G) (j : pid) : list A :=
  snd (draw_three G draw_el l (rseed G (snd (draw_bytes G 32 p)))) j.
(** The elements derived from a coin: the weights and the point for the proof of party j. *)
Definition coin_weights {A} (G : rng) (draw_el : rstate G -> rstate G * A) (m : nat) (coin : list Z) (j : pid) : list A :=
  snd (draw_three G draw_el m (rseed G coin)) j.
Definition coin_point {A} (G : rng) (draw_el : rstate G -> rstate G * A) (again : A -> bool) (fuel m : nat) (coin : list Z) (j : pid) : A :=
  snd (draw_points G draw_el again fuel (fst (draw_three G draw_el m (rseed G coin)))) j.
(** In verify a party sends to each of the others: its proof, a commitment, the opening of it (a coin share of 32
    bytes and randomness).  The coin share that j opened to k: *)
Definition opened (tr : pid -> list act) (j k : pid) : list Z := firstn 32 (nth 2 (sent_to k (tr j)) []).
(** The exclusive or of the coin shares of i and next i, as shown to the cheater; and with an opening o of the cheater. *)
Definition honest_coin (i : pid) (tr : pid -> list act) : list Z := map2 Z.lxor (opened tr i (prev i)) (opened tr (next i) (prev i)).
Definition coin_of (h o : list Z) : list Z := map2 Z.lxor h (firstn 32 o).
(** An opening fits a commitment. *)
Definition fits (H : hasher) (o c : list Z) : Prop := o_verify H 8 (Opening (firstn 32 o) (skipn 32 o)) c = true.
(** What the cheater sent first: to i a proof m1, a commitment c1 and its opening o1; to next i the same with index 2. *)
Definition cheater_sent (i : pid) (tr : pid -> list act) (m1 c1 o1 m2 c2 o2 : list Z) : Prop :=
  (exists r1, sent_to i (tr (prev i)) = m1 :: c1 :: o1 :: r1) /\ (exists r2, sent_to (next i) (tr (prev i)) = m2 :: c2 :: o2 :: r2).
