(** Specification vocabulary for property C57: arithmetic programs on the maliciously secure ABY3 engine
    executed by two honest parties, i and i+1, against a third party that sends arbitrary bytes. *)
From Verif Require Import Base Ring Prog Conc Rng MpcSpec Client Aby3 Jmp Aby3Mal Duo DuoProofs.

(** The programs: local arithmetic, multiplications, inner products, openings (traits/mpc_trait.rs:10-92
    without inputs and without the binary operations). *)
Definition arithmetic (c : cmd) : bool :=
  match c with
  | CAdd _ _ | CSub _ _ | CAddConst _ _ | CSubConst _ _ | CMulConst _ _ | CMul _ _ | CDot _ _ | CDotMany _ _ | COpen _ | COpenMany _ => true
  | _ => false
  end.

(** The value i's share x and (i+1)'s share y stand for. *)
Definition joint (K : Z) (x y : share) : Z := (sa x + sb x + sa y) mod 2 ^ K.

(** What a party holds when it starts a sacrifice: rows of first factors a, of random a', of second
    factors b; the alleged products a.b of all rows, then a'.b of all rows. *)
Record sac := Sac { sac_a : list (list share); sac_a' : list (list share); sac_b : list (list share); sac_c : list share }.

Section Sac.
  Variables (G : rng) (i : pid).
  Local Open Scope M_scope.
  (** The steps of a call up to the point where its sacrifice starts: protocol.rs:215-233 for mul,
      434-462 for dot, 536-576 for dot_many. *)
  Definition sacrifice_of (K : Z) (c : cmd) (m : mem share share) : M (jst G) sac :=
    let U := verif_width K in
    match c with
    | CMul _ _ =>
        a <- on_prf G (gen_rand G U) ;; a_ <- on_prf G (gen_rand G U) ;; b <- on_prf G (gen_rand G U) ;;
        cs <- aby_mul_many G i U [a; a_] [b; b] ;; retM (Sac [[a]] [[a_]] [[b]] cs)
    | CDot ms ns =>
        xs <- need (gets (areg m) ms) ;; ys <- need (gets (areg m) ns) ;;
        a_ <- gen_rand_many G U (length (map sh_ext xs)) ;;
        cs <- aby_dot_many G i U [map sh_ext xs; a_] [map sh_ext ys; map sh_ext ys] ;; retM (Sac [map sh_ext xs] [a_] [map sh_ext ys] cs)
    | CDotMany ms ns =>
        xs <- need (getss (areg m) ms) ;; ys <- need (getss (areg m) ns) ;;
        a_ <- mapM (fun b => gen_rand_many G U (length b)) (map (map sh_ext) ys) ;;
        cs <- aby_dot_many G i U (map (map sh_ext) xs ++ a_) (map (map sh_ext) ys ++ map (map sh_ext) ys) ;;
        retM (Sac (map (map sh_ext) xs) a_ (map (map sh_ext) ys) cs)
    | _ => failM EOther
    end.
End Sac.

(** By how much the alleged product (i: ci, i+1: cj) of two rows is off. *)
Definition row_error (U : Z) (ai aj bi bj : list share) (ci cj : share) : Z :=
  joint U ci cj - dotp (map2 (joint U) ai aj) (map2 (joint U) bi bj).
Definition error0 (U : Z) (x y : sac) (n : nat) : Z :=
  row_error U (nth n (sac_a x) []) (nth n (sac_a y) []) (nth n (sac_b x) []) (nth n (sac_b y) []) (nth n (sac_c x) szero) (nth n (sac_c y) szero).
Definition error1 (U : Z) (x y : sac) (n : nat) : Z :=
  let len := length (sac_b x) in
  row_error U (nth n (sac_a' x) []) (nth n (sac_a' y) []) (nth n (sac_b x) []) (nth n (sac_b y) []) (nth (len + n) (sac_c x) szero) (nth (len + n) (sac_c y) szero).
(** A product that is wrong modulo 2^K, and a challenge r that misses it. *)
Definition lucky (K r : Z) (x y : sac) (n : nat) : Prop :=
  let U := verif_width K in
  (n < length (sac_b x))%nat /\ error0 U x y n mod 2 ^ K <> 0 /\ (error1 U x y n - r * error0 U x y n) mod 2 ^ U = 0.

(** During the run of program cs by i (from memory mi, state s, actions ti) and i+1 (mj, t, tj), at some
    call, the sacrifice starts with a wrong product and the challenge misses it. *)
Definition lucky_run (G : rng) (H : hasher) (i : pid) (K : Z) (cs : list cmd) (mi mj : mem share share) (s t : jst G) (ti tj : list act) : Prop :=
  exists cs1 c cs2 ti1 ti2 ti3 tj1 tj2 tj3 s1 m1 s2 x t1 m1' t2 y n,
    cs = cs1 ++ c :: cs2 /\ ti = ti1 ++ ti2 ++ ti3 /\ tj = tj1 ++ tj2 ++ tj3 /\
    lrun (exec (mal_api G H i K) i cs1 mi s) ti1 (Ret (s1, m1)) /\ lrun (sacrifice_of G i K c m1 s1) ti2 (Ret (s2, x)) /\
    lrun (exec (mal_api G H (next i) K) (next i) cs1 mj t) tj1 (Ret (t1, m1')) /\ lrun (sacrifice_of G (next i) K c m1' t1) tj2 (Ret (t2, y)) /\
    lucky K (challenge G (verif_width K) (duo_seed G s2 t2)) x y n.

(** An execution of i (program p from state s) and i+1 (q from t) with an arbitrary third party sending bytes, as
    in MacSpec.duo_trace, in which i and i+1 finish; ti and tj are the messages i and i+1 send and receive. *)
Definition duo_acts {S A} (i : pid) (p q : M S A) (s t s' t' : S) (x y : A) (ti tj : list act) : Prop :=
  exists (P : pid -> prog (S * A)) (tr : pid -> list act) (c : cfg (S * A)),
    P i = p s /\ P (next i) = q t /\ sends_bytes (P (prev i)) /\
    (forall a, lrun (P a) (tr a) (get (progs c) a)) /\
    (forall a b, rcvd_from a (tr b) ++ qget (qs c) a b = sent_to b (tr a)) /\
    get (progs c) i = Ret (s', x) /\ get (progs c) (next i) = Ret (t', y) /\
    ti = tr i /\ tj = tr (next i).
