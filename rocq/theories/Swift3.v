(** The Swift3 engine: swift3/share.rs, swift3/random/prf.rs, swift3/vecshare.rs, swift3/protocol.rs
    (all of it except the distributed zero-knowledge proofs, which are in Dzkp.v and Swift3Verify.v). *)
From Verif Require Import Base Ring Prog Rng Net BinTrait Iris Aby3 Jmp Protocol Plain Client.

(** share.rs:11-24: party 0 holds (a1, a3, b), party 1 (a2, a1, b), party 2 (a3, a2, b) with
    b = x + a1 + a2 + a3 *)
Record share3 := Share3 { ta : Z; tb : Z; tc : Z }.
(** share.rs:443-456, Default *)
Definition tzero : share3 := Share3 0 0 0.
(** the part of a share that is an ABY3 share, protocol.rs:179-193 (mul_pre) *)
Definition t_ab (x : share3) : share := Share (ta x) (tb x).
(** share.rs:57-64 *)
Definition t_get_msb (K : Z) (x : share3) : share3 := Share3 (get_msb K (ta x)) (get_msb K (tb x)) (get_msb K (tc x)).
(** share.rs:66-86: at every party, only c changes *)
Definition t_add_const (K : Z) (x : share3) (c : Z) : share3 := Share3 (ta x) (tb x) (radd K (tc x) c).
Definition t_sub_const (K : Z) (x : share3) (c : Z) : share3 := Share3 (ta x) (tb x) (rsub K (tc x) c).
(** share.rs:88-180 *)
Definition t_add (K : Z) (x y : share3) : share3 := Share3 (radd K (ta x) (ta y)) (radd K (tb x) (tb y)) (radd K (tc x) (tc y)).
Definition t_sub (K : Z) (x y : share3) : share3 := Share3 (rsub K (ta x) (ta y)) (rsub K (tb x) (tb y)) (rsub K (tc x) (tc y)).
(** share.rs:182-270 *)
Definition t_mulc (K : Z) (x : share3) (c : Z) : share3 := Share3 (rmul K (ta x) c) (rmul K (tb x) c) (rmul K (tc x) c).
(** share.rs:272-330 *)
Definition t_xor (x y : share3) : share3 := Share3 (rxor (ta x) (ta y)) (rxor (tb x) (tb y)) (rxor (tc x) (tc y)).
(** share.rs:405-416 *)
Definition t_not (K : Z) (x : share3) : share3 := Share3 (rnot K (ta x)) (rnot K (tb x)) (rnot K (tc x)).
(** share.rs:418-441 *)
Definition t_shl (K : Z) (x : share3) (n : Z) : share3 := Share3 (rshl K (ta x) n) (rshl K (tb x) n) (rshl K (tc x) n).

(** dzkp/and_proof.rs:12-19, dzkp/mul_proof.rs:15-23: one multiplication gate as registered for the
    proofs; A is bool for AND gates, a ring element for multiplications. *)
Record pinput (A : Type) := PIn { p_a0 : A; p_a1 : A; p_b0 : A; p_b1 : A; p_r : A; p_s : A }.
Arguments PIn {A}. Arguments p_a0 {A}. Arguments p_a1 {A}. Arguments p_b0 {A}. Arguments p_b1 {A}.
Arguments p_r {A}. Arguments p_s {A}.
(** dot_proof.rs:15-23 *)
Record dinput := DIn { d_a0 : list Z; d_a1 : list Z; d_b0 : list Z; d_b1 : list Z; d_r : Z; d_s : Z }.
(** The three parallel vectors (proof, verify_prev, verify_next) of and_proof.rs:64-71, mul_proof.rs:71-79
    and dot_proof.rs:97-107 always have the same length; they are one list of triples here. *)
Record entry (A : Type) := Entry { e_proof : A; e_prev : A; e_next : A }.
Arguments Entry {A}. Arguments e_proof {A}. Arguments e_prev {A}. Arguments e_next {A}.

(** and_proof.rs:75-141: one entry per bit, least significant first *)
Definition and_entry (a0 a1 b0 b1 r0 r1 s0 s1 : bool) : entry (pinput bool) :=
  Entry (PIn a0 a1 b0 b1 (xorb r0 r1) s0) (PIn a1 false b1 false r1 s1) (PIn false a0 false b0 r0 false).
Definition register_and (K : Z) (a b : share) (r : Z * Z) (s : share) : list (entry (pinput bool)) :=
  map (fun n => let bt x := Z.testbit x (Z.of_nat n) in
       and_entry (bt (sa a)) (bt (sb a)) (bt (sa b)) (bt (sb b)) (bt (fst r)) (bt (snd r)) (bt (sa s)) (bt (sb s)))
    (seq 0 (Z.to_nat K)).
(** mul_proof.rs:86-117 *)
Definition register_mul (K : Z) (a b : share) (r : Z * Z) (s : share) : entry (pinput Z) :=
  Entry (PIn (sa a) (sb a) (sa b) (sb b) (rsub K (fst r) (snd r)) (sa s))
        (PIn (sb a) 0 (sb b) 0 (snd r) (sb s))
        (PIn 0 (sa a) 0 (sa b) (rneg K (fst r)) 0).
(** dot_proof.rs:97-107: dot_size, max_dot, entries *)
Record dotreg := DotReg { dr_size : nat; dr_max : nat; dr_entries : list (entry dinput) }.
(** dot_proof.rs:113-176 *)
Definition register_dot (K : Z) (d : dotreg) (a b : list share) (r : Z * Z) (s : share) : dotreg :=
  let len := length a in
  let a0 := map sa a in let a1 := map sb a in let b0 := map sa b in let b1 := map sb b in
  let pad (l : list Z) := if Nat.ltb len (dr_size d) then resize (dr_size d) 0 l else l in
  let grow := Nat.ltb (dr_size d) len in
  let size := if grow then len else dr_size d in
  let z := repeat 0 size in
  DotReg size (if grow then length (dr_entries d) else dr_max d)
    (dr_entries d ++
       [Entry (DIn (pad a0) (pad a1) (pad b0) (pad b1) (rsub K (fst r) (snd r)) (sa s))
              (DIn (pad a1) z (pad b1) z (snd r) (sb s))
              (DIn z (pad a0) z (pad b0) (rneg K (fst r)) 0)]).

Section Swift3.
  Variable G : rng.
  Variable H : hasher.
  Local Open Scope M_scope.

  (** protocol.rs:28-39; random/prf.rs:7-11: prf_1 and prf_2 play the roles of ABY3's my_prf and
      next_prf, prf_p is common to the three parties.  [w_log] is a ghost: the strings hashed by
      jmp_verify. *)
  Record sst := SSt { w_prf : prf G; w_p : rstate G;
    w_sn : list Z; w_sp : list Z; w_rn : list Z; w_rp : list Z; w_log : list (list Z);
    w_and : list (entry (pinput bool)); w_mul : list (entry (pinput Z)); w_dot : dotreg }.
  Definition w_set_prf (s : sst) (p : prf G) : sst := SSt p (w_p s) (w_sn s) (w_sp s) (w_rn s) (w_rp s) (w_log s) (w_and s) (w_mul s) (w_dot s).
  Definition w_set_p (s : sst) (p : rstate G) : sst := SSt (w_prf s) p (w_sn s) (w_sp s) (w_rn s) (w_rp s) (w_log s) (w_and s) (w_mul s) (w_dot s).
  Definition w_set_q (s : sst) (sn sp rn rp : list Z) : sst := SSt (w_prf s) (w_p s) sn sp rn rp (w_log s) (w_and s) (w_mul s) (w_dot s).
  Definition w_set_log (s : sst) (l : list (list Z)) : sst := SSt (w_prf s) (w_p s) (w_sn s) (w_sp s) (w_rn s) (w_rp s) l (w_and s) (w_mul s) (w_dot s).
  Definition w_set_and (s : sst) (l : list (entry (pinput bool))) : sst := SSt (w_prf s) (w_p s) (w_sn s) (w_sp s) (w_rn s) (w_rp s) (w_log s) l (w_mul s) (w_dot s).
  Definition w_set_mul (s : sst) (l : list (entry (pinput Z))) : sst := SSt (w_prf s) (w_p s) (w_sn s) (w_sp s) (w_rn s) (w_rp s) (w_log s) (w_and s) l (w_dot s).
  Definition w_set_dot (s : sst) (d : dotreg) : sst := SSt (w_prf s) (w_p s) (w_sn s) (w_sp s) (w_rn s) (w_rp s) (w_log s) (w_and s) (w_mul s) d.

  (** prf.rs:23-29 and protocol.rs:66-86 *)
  Definition sst_new (k1 k2 kp : list Z) : sst :=
    SSt (Prf G (rseed G k1) (rseed G k2)) (rseed G kp) [] [] [] [] [] [] [] (DotReg 0 0 []).

  (** prf.rs:36-55 *)
  Definition gen_1 (K : Z) : M sst Z := fun s =>
    let '(r, a) := draw G K (my_prf G (w_prf s)) in Ret (w_set_prf s (Prf G r (next_prf G (w_prf s))), a).
  Definition gen_2 (K : Z) : M sst Z := fun s =>
    let '(r, a) := draw G K (next_prf G (w_prf s)) in Ret (w_set_prf s (Prf G (my_prf G (w_prf s)) r), a).
  Definition gen_p (K : Z) : M sst Z := fun s =>
    let '(r, a) := draw G K (w_p s) in Ret (w_set_p s r, a).
  (** prf.rs:57-66 gen_for_zero_share; also gen_1 followed by gen_2 in the _post functions *)
  Definition gen_12 (K : Z) : M sst (Z * Z) := a <- gen_1 K ;; b <- gen_2 K ;; retM (a, b).

  Variable i : pid.

  (** protocol.rs:88-111 *)
  Definition a2b_pre3 (K : Z) (x : share3) : share3 * share3 * share3 :=
    match i with
    | P0 => (Share3 (rsub K (tc x) (ta x)) 0 0, tzero, Share3 0 (rneg K (tb x)) 0)
    | P1 => (Share3 0 (rsub K (tc x) (tb x)) 0, Share3 (rneg K (ta x)) 0 0, tzero)
    | P2 => (tzero, Share3 0 (rneg K (tb x)) 0, Share3 (rneg K (ta x)) 0 0)
    end.

  (** protocol.rs:138-149 *)
  Definition w_send (K v : Z) (to : pid) : M sst unit := liftM (send_value to K v).
  Definition w_send_many (K : Z) (vs : list Z) (to : pid) : M sst unit := liftM (send_vec to K vs).
  (** protocol.rs:151-177 *)
  Definition w_queue_many (K : Z) (vs : list Z) (to : pid) : M sst unit :=
    s <- getM ;;
    let app q := fold_left (fun out v => add_to_bytes K v out) vs q in
    if pid_eqb to (next i) then putM (w_set_q s (app (w_sn s)) (w_sp s) (w_rn s) (w_rp s))
    else if pid_eqb to (prev i) then putM (w_set_q s (w_sn s) (app (w_sp s)) (w_rn s) (w_rp s))
    else failM (EId (pid_num to)).
  Definition w_queue (K v : Z) (to : pid) : M sst unit := w_queue_many K [v] to.
  (** protocol.rs:1090-1130 *)
  Definition w_received (K : Z) (vs : list Z) (from : pid) : M sst unit :=
    s <- getM ;;
    let app q := fold_left (fun out v => add_to_bytes K v out) vs q in
    if pid_eqb from (next i) then putM (w_set_q s (w_sn s) (w_sp s) (w_rn s) (app (w_rp s)))
    else if pid_eqb from (prev i) then putM (w_set_q s (w_sn s) (w_sp s) (app (w_rn s)) (w_rp s))
    else failM (EId (pid_num from)).
  Definition w_receive (K : Z) (from : pid) : M sst Z :=
    v <- liftM (receive_value from K) ;; w_received K [v] from ;;; retM v.
  Definition w_receive_many (K : Z) (from : pid) (n : nat) : M sst (list Z) :=
    vs <- liftM (receive_vec from K n) ;; w_received K vs from ;;; retM vs.

  (** protocol.rs:1132-1166 *)
  Definition w_verify : M sst unit :=
    s <- getM ;;
    let send_next := hfun H (w_sn s) in
    let send_prev := hfun H (w_sp s) in
    let hash_next := hfun H (w_rn s) in
    let hash_prev := hfun H (w_rp s) in
    putM (w_set_log (w_set_q s [] [] [] []) (w_log s ++ [w_sn s; w_sp s; w_rn s; w_rp s])) ;;;
    rcv <- liftM (Send (next i) send_next (Send (prev i) send_prev
                    (Recv (prev i) (fun rp => Recv (next i) (fun rn => Ret (rp, rn)))))) ;;
    if negb (bytes_eqb (fst rcv) hash_prev) || negb (bytes_eqb (snd rcv) hash_next)
    then failM EJmpVerify else retM tt.

  (** protocol.rs:1168-1212 (jshare) and 1297-1341 (jshare_binary); they differ in how beta is computed
      from alpha_1, alpha_p and the input.  The code never uses other triples of parties than (1, 2, 0). *)
  Definition jshare_gen (beta : Z -> Z -> Z -> Z) (K : Z) (v : option Z) (s1 s2 rcv : pid) : M sst share3 :=
    let '(s1, s2) := if pid_eqb s2 (next s1) then (s1, s2) else (s2, s1) in
    if (pid_eqb s1 i || pid_eqb s2 i) && match v with None => true | Some _ => false end then failM EValue
    else
      ap <- gen_p K ;;
      match v with
      | Some x =>
          if pid_eqb i s1 then
            a1 <- gen_1 K ;; w_send K (beta a1 ap x) rcv ;;; retM (Share3 a1 ap (beta a1 ap x))
          else if pid_eqb i s2 then
            a1 <- gen_2 K ;; w_queue K (beta a1 ap x) rcv ;;; retM (Share3 ap a1 (beta a1 ap x))
          else if pid_eqb i rcv then b <- w_receive K s1 ;; retM (Share3 ap ap b)
          else failM EPanic
      | None => if pid_eqb i rcv then b <- w_receive K s1 ;; retM (Share3 ap ap b) else failM EPanic
      end.
  Definition beta_a (K a1 ap x : Z) : Z := radd K (radd K (radd K a1 ap) ap) x.
  Definition beta_b (a1 ap x : Z) : Z := rxor a1 x.
  Definition jshare (K : Z) := jshare_gen (beta_a K) K.
  Definition jshare_binary (K : Z) := jshare_gen beta_b K.
  (** protocol.rs:1214-1295, 1343-1424 *)
  Definition jshare_many_gen (beta : Z -> Z -> Z -> Z) (K : Z) (v : option (list Z)) (s1 s2 rcv : pid) (len : nat) : M sst (list share3) :=
    let '(s1, s2) := if pid_eqb s2 (next s1) then (s1, s2) else (s2, s1) in
    if (pid_eqb s1 i || pid_eqb s2 i) && match v with None => true | Some _ => false end then failM EValue
    else
      if pid_eqb i s1 then
        match v with
        | None => failM EPanic
        | Some xs =>
            if negb (Nat.eqb (length xs) len) then failM EInvalidSize
            else
              l <- mapM (fun x => ap <- gen_p K ;; a1 <- gen_1 K ;; retM (Share3 a1 ap (beta a1 ap x))) xs ;;
              w_send_many K (map tc l) rcv ;;;
              retM l
        end
      else if pid_eqb i s2 then
        match v with
        | None => failM EPanic
        | Some xs =>
            if negb (Nat.eqb (length xs) len) then failM EInvalidSize
            else
              l <- mapM (fun x => ap <- gen_p K ;; a1 <- gen_2 K ;; retM (Share3 ap a1 (beta a1 ap x))) xs ;;
              w_queue_many K (map tc l) rcv ;;;
              retM l
        end
      else if pid_eqb i rcv then
        bs <- w_receive_many K s1 len ;;
        mapM (fun b => ap <- gen_p K ;; retM (Share3 ap ap b)) bs
      else failM EPanic.
  Definition jshare_many (K : Z) := jshare_many_gen (beta_a K) K.
  Definition jshare_binary_many (K : Z) := jshare_many_gen beta_b K.

  (** The [match id] of mul_post (213-242), and_post (268-293) and dot_post (453-480), whose only
      differences are + / ^: [op] combines summands, [js] is jshare / jshare_binary.  First the summands
      are exchanged (party 0 receives nothing), then the sum is shared. *)
  Definition post_exchange (K ya yb : Z) : M sst Z :=
    match i with
    | P0 => w_send K ya P2 ;;; w_send K yb P1 ;;; retM 0
    | P1 => w_queue K yb P2 ;;; w_receive K P0
    | P2 => w_queue K ya P1 ;;; w_receive K P0
    end.
  Definition post_value (op : Z -> Z -> Z) (ya yb zc y : Z) : option Z :=
    match i with
    | P0 => None
    | P1 => Some (op (op (op yb ya) y) zc)
    | P2 => Some (op (op (op y yb) ya) zc)
    end.
  Definition post_gen (op : Z -> Z -> Z) (js : option Z -> pid -> pid -> pid -> M sst share3) (K ya yb zc : Z) : M sst share3 :=
    y <- post_exchange K ya yb ;;
    js (post_value op ya yb zc y) P1 P2 P0.
  (** and_post_many 314-416, dot_post_many 506-626: the same on vectors; a row is (ya, yb, zc) *)
  Definition post_exchange_many (K : Z) (rows : list (Z * Z * Z)) (len : nat) : M sst (list Z) :=
    let ya := map (fun r => fst (fst r)) rows in
    let yb := map (fun r => snd (fst r)) rows in
    match i with
    | P0 => w_send_many K ya P2 ;;; w_send_many K yb P1 ;;; retM []
    | P1 => w_queue_many K yb P2 ;;; w_receive_many K P0 len
    | P2 => w_queue_many K ya P1 ;;; w_receive_many K P0 len
    end.
  Definition post_value_many (op : Z -> Z -> Z) (rows : list (Z * Z * Z)) (y : list Z) : option (list Z) :=
    match i with
    | P0 => None
    | P1 => Some (map2 op (map (fun r => op (op (fst (fst r)) (snd r)) (snd (fst r))) rows) y)
    | P2 => Some (map2 op (map (fun r => op (op (snd (fst r)) (snd r)) (fst (fst r))) rows) y)
    end.
  Definition post_many_gen (op : Z -> Z -> Z) (js : option (list Z) -> pid -> pid -> pid -> nat -> M sst (list share3))
             (K : Z) (rows : list (Z * Z * Z)) (len : nat) : M sst (list share3) :=
    y <- post_exchange_many K rows len ;;
    js (post_value_many op rows y) P1 P2 P0 len.

  (** protocol.rs:194-246 *)
  Definition mul_post (K : Z) (a b : share3) (de : share) : M sst share3 :=
    r <- gen_12 K ;;
    let ya := rsub K (radd K (rsub K (rmul K (rneg K (ta a)) (tc b)) (rmul K (ta b) (tc a))) (sa de)) (fst r) in
    let yb := rsub K (radd K (rsub K (rmul K (rneg K (tb a)) (tc b)) (rmul K (tb b) (tc a))) (sb de)) (snd r) in
    sh <- post_gen (radd K) (jshare K) K ya yb (rmul K (tc a) (tc b)) ;;
    retM (t_sub K sh (Share3 (fst r) (snd r) 0)).
  (** protocol.rs:248-302 *)
  Definition and_row (a b : share3) (de : share) (r : Z * Z) : Z * Z * Z :=
    (rxor (rxor (rxor (rand_ (ta a) (tc b)) (rand_ (ta b) (tc a))) (sa de)) (fst r),
     rxor (rxor (rxor (rand_ (tb a) (tc b)) (rand_ (tb b) (tc a))) (sb de)) (snd r),
     rand_ (tc a) (tc b)).
  Definition and_post (K : Z) (a b : share3) (de : share) : M sst share3 :=
    r <- gen_12 K ;;
    let '(ya, yb, zc) := and_row a b de r in
    sh <- post_gen rxor (jshare_binary K) K ya yb zc ;;
    retM (t_xor sh (Share3 (fst r) (snd r) 0)).
  (** protocol.rs:304-419 (r1, r2 drawn per element; zips) *)
  Definition and_post_many (K : Z) (a b : list share3) (de : list share) : M sst (list share3) :=
    l <- mapM2 (fun d ab => r <- gen_12 K ;; retM (and_row (fst ab) (snd ab) d r, r)) de (combine a b) ;;
    shs <- post_many_gen rxor (jshare_binary_many K) K (map fst l) (length a) ;;
    retM (map2 (fun sh r => t_xor sh (Share3 (fst r) (snd r) 0)) shs (map snd l)).
  (** protocol.rs:421-450, 483-538 *)
  Definition dot_row (K : Z) (ab : list (share3 * share3)) (de : share) (r : Z * Z) : Z * Z * Z :=
    fold_left (fun (acc : Z * Z * Z) xy =>
        let '(ya, yb, zc) := acc in
        let a := fst xy in let b := snd xy in
        (rsub K ya (radd K (rmul K (ta a) (tc b)) (rmul K (ta b) (tc a))),
         rsub K yb (radd K (rmul K (tb a) (tc b)) (rmul K (tb b) (tc a))),
         radd K zc (rmul K (tc a) (tc b))))
      ab (rsub K (sa de) (fst r), rsub K (sb de) (snd r), 0).
  (** protocol.rs:421-481 *)
  Definition dot_post (K : Z) (a b : list share3) (de : share) : M sst share3 :=
    r <- gen_12 K ;;
    let '(ya, yb, zc) := dot_row K (combine a b) de r in
    sh <- post_gen (radd K) (jshare K) K ya yb zc ;;
    retM (t_sub K sh (Share3 (fst r) (snd r) 0)).
  (** protocol.rs:483-629 *)
  Definition dot_post_many (K : Z) (a b : list (list share3)) (de : list share) : M sst (list share3) :=
    l <- mapM2 (fun d ab => r <- gen_12 K ;; retM (dot_row K (combine (fst ab) (snd ab)) d r, r)) de (combine a b) ;;
    shs <- post_many_gen (radd K) (jshare_many K) K (map fst l) (length a) ;;
    retM (map2 (fun sh r => t_sub K sh (Share3 (fst r) (snd r) 0)) shs (map snd l)).

  Definition push_and (l : list (entry (pinput bool))) : M sst unit := s <- getM ;; putM (w_set_and s (w_and s ++ l)).
  Definition push_mul (e : entry (pinput Z)) : M sst unit := s <- getM ;; putM (w_set_mul s (w_mul s ++ [e])).
  Definition push_dot (K : Z) (a b : list share) (r : Z * Z) (c : share) : M sst unit :=
    s <- getM ;; putM (w_set_dot s (register_dot K (w_dot s) a b r c)).

  (** protocol.rs:875-894 *)
  Definition aby_mul (K : Z) (a b : share) : M sst share :=
    r <- gen_12 K ;;
    let ca := radd K (local_mul K a b) (rsub K (fst r) (snd r)) in
    cb <- liftM (send_and_receive_value i K ca) ;;
    push_mul (register_mul K a b r (Share ca cb)) ;;;
    retM (Share ca cb).
  (** protocol.rs:896-920 *)
  Definition aby_and (K : Z) (a b : share) : M sst share :=
    r <- gen_12 K ;;
    let ca := rxor (local_and a b) (rxor (fst r) (snd r)) in
    cb <- liftM (send_and_receive_value i K ca) ;;
    push_and (register_and K a b r (Share ca cb)) ;;;
    retM (Share ca cb).
  (** protocol.rs:922-969; an element of l is (a, b, r, c.a) *)
  Definition aby_and_many (K : Z) (a b : list share) : M sst (list share) :=
    l <- mapM2 (fun x y => r <- gen_12 K ;; retM (x, y, r, rxor (local_and x y) (rxor (fst r) (snd r)))) a b ;;
    bs <- liftM (send_slice_and_receive_vec i K (map snd l)) ;;
    push_and (concat (map2 (fun t cb => let '(x, y, r, ca) := t in register_and K x y r (Share ca cb)) l bs)) ;;;
    retM (map2 (fun t cb => Share (snd t) cb) l bs).
  (** protocol.rs:971-1011 *)
  Definition dot_sum (K : Z) (x y : list share) (r : Z * Z) : Z :=
    fold_left (fun c xy => radd K c (local_mul K (fst xy) (snd xy))) (combine x y) (rsub K (fst r) (snd r)).
  Definition aby_dot (K : Z) (a b : list share) : M sst share :=
    r <- gen_12 K ;;
    let ca := dot_sum K a b r in
    cb <- liftM (send_and_receive_value i K ca) ;;
    push_dot K (map fst (combine a b)) (map snd (combine a b)) r (Share ca cb) ;;;
    retM (Share ca cb).
  (** protocol.rs:1013-1088 *)
  Definition aby_dot_many (K : Z) (a b : list (list share)) : M sst (list share) :=
    l <- mapM2 (fun x y => r <- gen_12 K ;;
           retM (map fst (combine x y), map snd (combine x y), r, dot_sum K x y r)) a b ;;
    bs <- liftM (send_slice_and_receive_vec i K (map snd l)) ;;
    mapM2 (fun t cb => let '(x, y, r, ca) := t in push_dot K x y r (Share ca cb)) l bs ;;;
    retM (map2 (fun t cb => Share (snd t) cb) l bs).

  (** protocol.rs:2212-2216 *)
  Definition w_mulg (K : Z) (a b : share3) : M sst share3 :=
    de <- aby_mul K (t_ab a) (t_ab b) ;; mul_post K a b de.
  (** protocol.rs:2222-2239 *)
  Definition w_dotg (K : Z) (a b : list share3) : M sst share3 :=
    if negb (Nat.eqb (length a) (length b)) then failM EInvalidSize
    else
      de <- aby_dot K (map t_ab a) (map t_ab b) ;; dot_post K a b de.
  (** protocol.rs:2241-2270: rows of different lengths are zipped *)
  Definition w_dot_many (K : Z) (a b : list (list share3)) : M sst (list share3) :=
    if negb (Nat.eqb (length a) (length b)) then failM EInvalidSize
    else
      de <- aby_dot_many K (map2 (fun x y => map fst (combine (map t_ab x) (map t_ab y))) a b)
                           (map2 (fun x y => map snd (combine (map t_ab x) (map t_ab y))) a b) ;;
      dot_post_many K a b de.
  (** protocol.rs:2319-2323 *)
  Definition w_andg (K : Z) (a b : share3) : M sst share3 :=
    de <- aby_and K (t_ab a) (t_ab b) ;; and_post K a b de.
  (** protocol.rs:2325-2346 *)
  Definition w_and_many (K : Z) (a b : list share3) : M sst (list share3) :=
    if negb (Nat.eqb (length a) (length b)) then failM EInvalidSize
    else
      de <- aby_and_many K (map t_ab a) (map t_ab b) ;; and_post_many K a b de.

  Definition swift3_bin (K : Z) : bineng sst share3 :=
    BinEng sst share3 K t_xor (t_shl K) (w_andg K) (w_and_many K).

  (** protocol.rs:2348-2370 *)
  Definition w_a2b (K : Z) (x : share3) : M sst share3 :=
    let '(x1, x2, x3) := a2b_pre3 K x in binary_add_3 (swift3_bin K) x1 x2 x3.
  Definition w_a2b_many (K : Z) (x : list share3) : M sst (list share3) :=
    let pre := map (a2b_pre3 K) x in
    binary_add_3_many (swift3_bin K) (map (fun t => fst (fst t)) pre) (map (fun t => snd (fst t)) pre) (map snd pre).
  (** protocol.rs:2272-2281 *)
  Definition w_get_msb (K : Z) (x : share3) : M sst share3 := b <- w_a2b K x ;; retM (t_get_msb K b).
  Definition w_get_msb_many (K : Z) (x : list share3) : M sst (list share3) :=
    bs <- w_a2b_many K x ;; retM (map (t_get_msb K) bs).

  (** protocol.rs:1602-1628 *)
  Definition pack_word3 (W : Z) (bits : list share3) : share3 :=
    fold_left (fun acc nb => let n := Z.of_nat (fst nb) in
        Share3 (ror (ta acc) (rshl W (ta (snd nb)) n)) (ror (tb acc) (rshl W (tb (snd nb)) n)) (ror (tc acc) (rshl W (tc (snd nb)) n)))
      (combine (seq 0 (length bits)) bits) tzero.
  Definition pack3 (W : Z) (a : list share3) : list share3 := map (pack_word3 W) (chunks (Z.to_nat W) a).
  (** utils.rs:351-364; protocol.rs:42-59 *)
  Definition split_share3 (Hw : Z) (x : share3) : share3 * share3 :=
    (Share3 (ta x mod 2 ^ Hw) (tb x mod 2 ^ Hw) (tc x mod 2 ^ Hw),
     Share3 (Z.shiftr (ta x) Hw mod 2 ^ Hw) (Z.shiftr (tb x) Hw mod 2 ^ Hw) (Z.shiftr (tc x) Hw mod 2 ^ Hw)).
  (** protocol.rs:1630-1658 *)
  Definition reduce3_u8 (x : share3) : M sst share3 :=
    let bit (v : Z) (n : nat) := if rand_ (rshr 8 v (Z.of_nat n)) 1 =? 1 then 1 else 0 in
    let decomp := map (fun n => Share3 (bit (ta x) n) (bit (tb x) n) (bit (tc x) n)) (seq 0 8) in
    d4 <- or_many (swift3_bin 1) (firstn 4 decomp) (skipn 4 decomp) ;;
    d2 <- or_many (swift3_bin 1) (firstn 2 d4) (skipn 2 d4) ;;
    d1 <- or_many (swift3_bin 1) (firstn 1 d2) (skipn 1 d2) ;;
    resM (index d1 0).
  (** protocol.rs:42-59, 1624-1629 *)
  Definition reduce3_u16 (x : share3) : M sst share3 :=
    let '(l, h) := split_share3 8 x in o <- b_or (swift3_bin 8) l h ;; reduce3_u8 o.
  Definition reduce3_u32 (x : share3) : M sst share3 :=
    let '(l, h) := split_share3 16 x in o <- b_or (swift3_bin 16) l h ;; reduce3_u16 o.
  Definition reduce3_u64 (x : share3) : M sst share3 :=
    let '(l, h) := split_share3 32 x in o <- b_or (swift3_bin 32) l h ;; reduce3_u32 o.
  Definition reduce3_u128 (x : share3) : M sst share3 :=
    let '(l, h) := split_share3 64 x in o <- b_or (swift3_bin 64) l h ;; reduce3_u64 o.
  (** protocol.rs:2287-2295 *)
  Definition w_reduce_or (a : list share3) (chunk_size : nat) : M sst share3 :=
    r <- or_tree (swift3_bin 128) (pack3 128 a) chunk_size ;;
    reduce3_u128 r.

  (** protocol.rs:1940-2027.  [x + a1 + a2 + a3] is commutative, the order of the draws matters. *)
  Definition w_input (K : Z) (v : option Z) (id : Z) : M sst share3 :=
    if (id =? pid_num i) && match v with None => true | Some _ => false end then failM EValue
    else
    let x := match v with Some x => x | None => 0 end in
    let sum a b c := radd K x (radd K (radd K a b) c) in
    if id =? 0 then
      match i with
      | P0 => a1 <- gen_1 K ;; a2 <- gen_p K ;; a3 <- gen_2 K ;;
              let beta := sum a2 a1 a3 in
              w_send K beta P1 ;;; w_send K beta P2 ;;; retM (Share3 a1 a3 beta)
      | P1 => a1 <- gen_2 K ;; a2 <- gen_p K ;;
              beta <- liftM (receive_value P0 K) ;; w_queue K beta P2 ;;; retM (Share3 a2 a1 beta)
      | P2 => a2 <- gen_p K ;; a3 <- gen_1 K ;;
              beta <- w_receive K P0 ;; retM (Share3 a3 a2 beta)
      end
    else if id =? 1 then
      match i with
      | P1 => a1 <- gen_2 K ;; a2 <- gen_1 K ;; a3 <- gen_p K ;;
              let beta := sum a3 a1 a2 in
              w_send K beta P2 ;;; w_send K beta P0 ;;; retM (Share3 a2 a1 beta)
      | P2 => a2 <- gen_2 K ;; a3 <- gen_p K ;;
              beta <- liftM (receive_value P1 K) ;; w_queue K beta P0 ;;; retM (Share3 a3 a2 beta)
      | P0 => a1 <- gen_1 K ;; a3 <- gen_p K ;;
              beta <- w_receive K P1 ;; retM (Share3 a1 a3 beta)
      end
    else if id =? 2 then
      match i with
      | P2 => a1 <- gen_p K ;; a2 <- gen_2 K ;; a3 <- gen_1 K ;;
              let beta := sum a1 a2 a3 in
              w_send K beta P1 ;;; w_send K beta P0 ;;; retM (Share3 a3 a2 beta)
      | P1 => a1 <- gen_p K ;; a2 <- gen_1 K ;;
              beta <- liftM (receive_value P2 K) ;; w_queue K beta P0 ;;; retM (Share3 a2 a1 beta)
      | P0 => a1 <- gen_p K ;; a3 <- gen_2 K ;;
              beta <- w_receive K P2 ;; retM (Share3 a1 a3 beta)
      end
    else failM EPanic.

  (** protocol.rs:2056-2081 and 2126-2151: what the three parties exchange *)
  Definition open_exchange (K : Z) (x : share3) : M sst Z :=
    match i with
    | P0 => w_send K (ta x) P2 ;;; w_send K (tb x) P1 ;;; w_receive K P1
    | P1 => w_send K (ta x) P0 ;;; w_queue K (tb x) P2 ;;; w_receive K P0
    | P2 => w_queue K (tb x) P0 ;;; w_queue K (ta x) P1 ;;; w_receive K P0
    end.
  Definition w_open (K : Z) (x : share3) : M sst Z :=
    w_verify ;;; r <- open_exchange K x ;; w_verify ;;;
    retM (rsub K (rsub K (rsub K (tc x) (ta x)) (tb x)) r).
  Definition w_open_bit (x : share3) : M sst bool :=
    w_verify ;;; r <- open_exchange 1 x ;; w_verify ;;;
    retM (rxor (rxor (rxor (tc x) (ta x)) (tb x)) r =? 1).
  (** protocol.rs:2083-2124, 2153-2194 *)
  Definition open_exchange_many (K : Z) (xs : list share3) : M sst (list Z) :=
    let a := map ta xs in let b := map tb xs in
    match i with
    | P0 => w_send_many K a P2 ;;; w_send_many K b P1 ;;; w_receive_many K P1 (length xs)
    | P1 => w_send_many K a P0 ;;; w_queue_many K b P2 ;;; w_receive_many K P0 (length xs)
    | P2 => w_queue_many K b P0 ;;; w_queue_many K a P1 ;;; w_receive_many K P0 (length xs)
    end.
  Definition w_open_many (K : Z) (xs : list share3) : M sst (list Z) :=
    w_verify ;;; rs <- open_exchange_many K xs ;; w_verify ;;;
    retM (map2 (fun x r => rsub K (rsub K (rsub K (tc x) (ta x)) (tb x)) r) xs rs).
  Definition w_open_bit_many (xs : list share3) : M sst (list bool) :=
    w_verify ;;; rs <- open_exchange_many 1 xs ;; w_verify ;;;
    retM (map2 (fun x r => rxor (rxor (rxor (tc x) (ta x)) (tb x)) r =? 1) xs rs).
End Swift3.

(** protocol.rs:2042-2054: dealing shares of [x] with generator state [r]; party 0, 1, 2 in order. *)
Definition share3_value (G : rng) (K x : Z) (r : rstate G) : rstate G * (share3 * share3 * share3) :=
  let '(r1, a1) := draw G K r in
  let '(r2, a2) := draw G K r1 in
  let '(r3, a3) := draw G K r2 in
  let b := radd K (radd K (radd K x a1) a2) a3 in
  (r3, (Share3 a1 a3 b, Share3 a2 a1 b, Share3 a3 a2 b)).
