(** Polynomials as used by the zero-knowledge proofs: dzkp/polynomial.rs, dzkp/irreducible_polys.rs and
    aby3/utils.rs:44-51.  Coefficients are listed from degree 0 up, as in the code. *)
From Verif Require Import Base Ring Gf2.
Local Open Scope list_scope.

(** polynomial.rs:11-31 PolyTrait: the operations of a coefficient type.  [o0] is both Default and Zero,
    which agree for the three coefficient types of the code. *)
Record rops (A : Type) := ROps { o0 : A; o1 : A; oadd : A -> A -> A; osub : A -> A -> A; omul : A -> A -> A; oneg : A -> A; oz : A -> bool }.
Arguments ROps {A}. Arguments o0 {A}. Arguments o1 {A}. Arguments oadd {A}. Arguments osub {A}. Arguments omul {A}. Arguments oneg {A}. Arguments oz {A}.

Section Poly.
  Context {A : Type} (O : rops A).
  (** polynomial.rs:241-347 (Add, AddAssign): missing coefficients count as default *)
  Fixpoint p_add (p q : list A) : list A :=
    match p, q with
    | [], _ => map (oadd O (o0 O)) q
    | _, [] => p
    | a :: p, b :: q => oadd O a b :: p_add p q
    end.
  (** polynomial.rs:349-452 (Sub, SubAssign) *)
  Fixpoint p_sub (p q : list A) : list A :=
    match p, q with
    | [], _ => map (osub O (o0 O)) q
    | _, [] => p
    | a :: p, b :: q => osub O a b :: p_sub p q
    end.
  (** polynomial.rs:454-563: multiplication by a coefficient *)
  Definition p_scale (p : list A) (y : A) : list A := map (fun a => omul O a y) p.
  (** polynomial.rs:588-598 *)
  Definition p_neg (p : list A) : list A := map (oneg O) p.
  (** polynomial.rs:600-608 *)
  Definition p_iszero (p : list A) : bool := forallb (oz O) p.
  (** polynomial.rs:610-614 *)
  Definition p_one : list A := [o1 O].
  (** polynomial.rs:454-493: the coefficients of the product, summed by rows of the first factor *)
  Fixpoint p_conv (p q : list A) : list A :=
    match p with
    | [] => []
    | a :: p => p_add (map (fun b => omul O a b) q) (o0 O :: p_conv p q)
    end.
  Definition p_mul (p q : list A) : list A := if p_iszero p || p_iszero q then [] else p_conv p q.
  (** polynomial.rs:60-67 *)
  Fixpoint p_degree (p : list A) : nat :=
    match p with [] => 0%nat | _ :: p => if p_iszero p then 0%nat else S (p_degree p) end.
  (** polynomial.rs:52-54 *)
  Definition p_shrink (p : list A) : list A := resize (S (p_degree p)) (o0 O) p.
  (** polynomial.rs:73-79 *)
  Definition p_eval (p : list A) (x : A) : A := fold_left (fun res c => oadd O (omul O res x) c) (rev p) (o0 O).
  (** polynomial.rs:81-88 *)
  Definition interpolate (ys : list A) (lag : list (list A)) : res (list A) :=
    if negb (Nat.eqb (length ys) (length lag)) then Err EPanic
    else Ok (fold_left (fun res py => p_add res (p_scale (fst py) (snd py))) (combine lag ys) []).
  (** The ring of polynomials: PolyTrait for Poly<T>, polynomial.rs:30 *)
  Definition pops : rops (list A) := ROps [] p_one p_add p_sub p_mul p_neg p_iszero.

  (** polynomial.rs:190-206 (with [red] the reduction of the coefficients) and 225-240 (GF2p64, no
      reduction); [inv] is the inversion of a difference of two points *)
  Variable inv : A -> res A.
  Definition lagrange_poly (xs : list A) (j : nat) : res (list A) :=
    fold_left (fun acc i =>
        rbind acc (fun poly =>
          if Nat.eqb i j then Ok poly
          else
            let xi := nth i xs (o0 O) in
            rbind (inv (osub O (nth j xs (o0 O)) xi)) (fun v =>
              Ok (p_mul (p_scale [oneg O xi; o1 O] v) poly))))
      (seq 0 (length xs)) (Ok p_one).
  Definition lagrange_polys (red : A -> res A) (xs : list A) : res (list (list A)) :=
    mapM_res (fun j => rbind (lagrange_poly xs j) (mapM_res red)) (seq 0 (length xs)).
End Poly.

(** GF2p64 as coefficients: dzkp/gf2p64.rs:100-220 *)
Definition gf_ops : rops N := ROps 0%N 1%N gf_add gf_add gf_mul (fun a => a) (fun a => N.eqb a 0).

(** ** Coefficients in Z/2^K *)
Section Zk.
  Variable K : Z.
  (** types/ring_element.rs *)
  Definition zk_ops : rops Z := ROps 0 1 (radd K) (rsub K) (rmul K) (rneg K) (Z.eqb 0).
  Definition pz_ops : rops (list Z) := pops zk_ops.

  (** polynomial.rs:99-110: the dividend with its highest coefficient first; [low] the divisor without its
      last coefficient, highest first *)
  Fixpoint sub_prefix (coeff : Z) (low dividend : list Z) : list Z :=
    match low, dividend with
    | c :: low, x :: dividend => rsub K x (rmul K c coeff) :: sub_prefix coeff low dividend
    | _, _ => dividend
    end.
  Fixpoint ldiv (n : nat) (low : list Z) (vinv : Z) (dividend : list Z) : list Z * list Z :=
    match n with
    | O => ([], dividend)
    | S n =>
        match dividend with
        | [] => ([], [])
        | top :: rest =>
            let coeff := rmul K top vinv in
            let '(q, r) := ldiv n low vinv (sub_prefix coeff low rest) in (coeff :: q, r)
        end
    end.
  (** polynomial.rs:69-71 and 91-113; an index out of range panics, a coefficient without an inverse is an error *)
  Definition long_division (p q : list Z) : res (list Z * list Z) :=
    match nth_error q (p_degree zk_ops q) with
    | None => Err EPanic
    | Some lead =>
        match inverse K lead with
        | None => Err EPanic
        | Some (Err e) => Err e
        | Some (Ok vinv) =>
            let n := (length p + 1 - length q)%nat in
            let '(quo, rem) := ldiv n (tl (rev q)) vinv (rev p) in
            Ok (if Nat.eqb n 0 then [0] else rev quo, rev rem)
        end
    end.
  (** polynomial.rs:565-585: expect on the result *)
  Definition p_rem (p q : list Z) : res (list Z) :=
    match long_division p q with Ok (_, r) => Ok (p_shrink zk_ops r) | Err _ => Err EPanic end.

  (** polynomial.rs:116-124: 64-bit shifts drop the higher coefficients *)
  Definition to_gf2p64 (p : list Z) : res N :=
    if negb (K <? 64) then Err EPanic
    else Ok (fold_left (fun u c => (N.lor ((N.shiftl u 1) mod 2 ^ 64) (if Z.odd c then 1 else 0))%N) (rev p) 0%N).
  (** polynomial.rs:126-137 *)
  Definition poly_from_u64 (v : N) : res (list Z) :=
    if negb (K <? 64) then Err EPanic
    else Ok (p_shrink zk_ops (map (fun i => if N.testbit v (N.of_nat i) then 1 else 0) (seq 0 64))).
  (** polynomial.rs:139-155 *)
  Fixpoint mod_inverse_inner (a modulus : list Z) (prime_power : nat) : res (list Z) :=
    match prime_power with
    | O => Err EPanic
    | S O => rbind (to_gf2p64 a) (fun a_ => rbind (to_gf2p64 modulus) (fun mod_ => poly_from_u64 (inv_mod a_ mod_)))
    | S n =>
        rbind (mod_inverse_inner a modulus n) (fun v =>
        rbind (p_rem (p_sub zk_ops (p_mul zk_ops v a) [1]) modulus) (fun r =>
        p_rem (p_sub zk_ops v (p_mul zk_ops r v)) modulus))
    end.
  Definition mod_inverse (a modulus : list Z) : res (list Z) := mod_inverse_inner a modulus (Z.to_nat K).

  (** aby3/utils.rs:44-51 *)
  Fixpoint pos_bits (x : positive) : list Z :=
    match x with xH => [1] | xO x => 0 :: pos_bits x | xI x => 1 :: pos_bits x end.
  Definition point_bits (x : nat) : list Z := match N.of_nat x with N0 => [] | Npos p => pos_bits p end.
  (** polynomial.rs:190-206 for Poly<Poly<T>> *)
  Definition gr_lagrange (xs : list (list Z)) (modulus : list Z) : res (list (list (list Z))) :=
    lagrange_polys pz_ops (fun v => mod_inverse v modulus) (fun c => p_rem c modulus) xs.
End Zk.
(** polynomial.rs:225-240 *)
Definition gf_lagrange (xs : list N) : res (list (list N)) := lagrange_polys gf_ops gf_inverse (fun c => Ok c) xs.

(** irreducible_polys.rs:7-30 *)
Definition irreducibles : list N :=
  [1099522486571; 2199023255561; 4399239010919; 8796093022297; 17592203542555; 35184373323841; 70368755859457;
   140737488355361; 281475018792329; 562949953422687; 1125900847118165; 2251799813788225; 4503600141354131;
   9007199254741063; 18014423912784023; 36028797018967697; 72057603773459229; 144115188078554495;
   288230378958036459; 576460752303423611; 1152981527954067773; 2305843009213693991; 4611686024857219139;
   9223372036884368159]%N.
(** irreducible_polys.rs:32-59 *)
Definition irreducible (d : nat) : res N :=
  if Nat.ltb d 40 then Err EPanic else match nth_error irreducibles (d - 40) with Some v => Ok v | None => Err EPanic end.
(** irreducible_polys.rs:61-71 *)
Definition irreducible_poly (d : nat) : res (list Z) :=
  rbind (irreducible d) (fun v => Ok (map (fun i => if N.testbit v (N.of_nat i) then 1 else 0) (seq 0 (S d)))).
