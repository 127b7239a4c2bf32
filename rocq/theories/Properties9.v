(** C41: an input provider cannot hand different values to the two other parties (malicious ABY3). *)
From Verif Require Import Base Ring Prog Rng Net Conc Duo Aby3 Jmp Aby3Mal InputProofs PropLemmas5 Properties4.

(** i and its successor are honest, the third party, whose input it is, is arbitrary.  If both honest
    parties finish, the first messages it sent to the two carry the same value d, and the honest shares
    are consistent and fix the shared value to be r + d, r the joint randomness. *)
Theorem C41_equivocation : forall G i K v w (s t s' t' : jst G) x y (P : pid -> prog (jst G * share)) sched c, In K widths -> sends_bytes (P (prev i)) ->
  next_prf G (j_prf G t) = my_prf G (j_prf G s) ->
  P i = mal_input G i K v (pid_num (prev i)) s -> P (next i) = mal_input G (next i) K w (pid_num (prev i)) t ->
  steps sched (start P) c -> get (progs c) i = Ret (s', x) -> get (progs c) (next i) = Ret (t', y) ->
  exists tr m1 r1 m2 r2 d, lrun (P (prev i)) tr (get (progs c) (prev i)) /\
    sent_to i tr = m1 :: r1 /\ sent_to (next i) tr = m2 :: r2 /\ from_bytes K m1 = Ok d /\ from_bytes K m2 = Ok d /\
    sb y = sa x /\
    (sa x + sb x + sa y) mod 2 ^ K =
      (snd (draw G K (my_prf G (j_prf G s))) + snd (draw G K (next_prf G (j_prf G s))) + snd (draw G K (my_prf G (j_prf G t))) + d) mod 2 ^ K.
Proof. exact input_duo. Qed.
Print Assumptions C41_equivocation.
(** One honest receiver on its own: it has compared the provider's message with the other receiver's,
    and sent the value it got to the other receiver. *)
Theorem C41_checked : forall G i K v (s s' : jst G) x tr,
  (lrun (mal_input G i K v (pid_num (prev i)) s) tr (Ret (s', x)) ->
   exists m m' d, rcvd_from (prev i) tr = [m] /\ rcvd_from (next i) tr = [m'] /\ sent_to (next i) tr = [to_bytes K d] /\
     from_bytes K m = Ok d /\ from_bytes K m' = Ok d) /\
  (lrun (mal_input G i K v (pid_num (next i)) s) tr (Ret (s', x)) ->
   exists m m' d, rcvd_from (next i) tr = [m] /\ rcvd_from (prev i) tr = [m'] /\ sent_to (prev i) tr = [to_bytes K d] /\
     from_bytes K m = Ok d /\ from_bytes K m' = Ok d).
Proof.
  intros G i K v s s' x tr. split; intros L.
  - apply input_first in L. destruct L as (m & m' & d & ? & ? & ? & ? & ? & ? & ?). exists m, m', d. auto.
  - apply input_second in L. destruct L as (m & m' & d & ? & ? & ? & ? & ? & ? & ?). exists m, m', d. auto.
Qed.
Print Assumptions C41_checked.
(** A provider that is not the protocol's program, consistent: both finish; two-faced: neither does. *)
Definition provider (m1 m2 : msg) : prog (jst one_rng * share) := Send P0 m1 (Send P1 m2 (Fail EOther)).
Example C41_example : sends_bytes (provider [1; 7] [1; 7]) /\
  (exists s' t' x y, duo_run P0 (mal_input one_rng P0 16 None 2) (mal_input one_rng P1 16 None 2) fresh fresh s' t' x y) /\
  (match run_fn [P2; P2; P0; P0; P1; P1; P1; P0; P1] (start (fun j => if pid_eqb j P0 then mal_input one_rng P0 16 None 2 fresh
       else if pid_eqb j P1 then mal_input one_rng P1 16 None 2 fresh else provider [1; 7] [1; 8])) with
   | Some c => match get (progs c) P0, get (progs c) P1 with Fail EVerify, Fail EVerify => True | _, _ => False end | None => False end).
Proof.
  assert (B : sends_bytes (provider [1; 7] [1; 7])) by (repeat (apply sends_bytes_send; [repeat constructor; unfold inr; cbn; lia|]); apply sends_bytes_fail).
  split; [exact B|]. split; [|exact I].
  apply (duo_example P0) with (z := provider [1; 7] [1; 7]) (sched := [P2; P2; P0; P0; P1; P1; P1; P0; P1]); [exact B|reflexivity].
Qed.
