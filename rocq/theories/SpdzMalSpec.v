(** Specification for C63: what programs of ring operations compute when every product may be off. *)
From Verif Require Import Base MpcSpec Client.

(** The calls: linear operations, products, inner products, batches of inner products. *)
Definition ring_call (c : cmd) : bool :=
  match c with CAdd _ _ | CSub _ _ | CAddConst _ _ | CSubConst _ _ | CMulConst _ _ | CMul _ _ | CDot _ _ | CDotMany _ _ => true | _ => false end.

(** An entry of the queue of the MAC check: the value it should have, how far its value is off, and how far its
    MAC is off from what the MAC of the former should be (value * key). *)
Record item := Item { it_value : Z; it_off : Z; it_mac_off : Z }.

(** Products to be computed, given with their MACs: registers and entries of the queue.  offs: the third party's
    choices, for every product to come one offset for the value and one for the MAC.  r: the key. *)
Fixpoint products (U r : Z) (l : list (Z * Z)) (offs : list (Z * Z)) : option (list (Z * Z) * (list (Z * Z) * list item)) :=
  match l with
  | [] => Some (offs, ([], []))
  | (z, mac) :: t =>
      match offs with
      | (d, d') :: o => obind (products U r t o) (fun p =>
          Some (fst p, (((z + d) mod 2 ^ U, (mac + d') mod 2 ^ U) :: fst (snd p), Item z d (mac + d' - z * r) :: snd (snd p))))
      | [] => None
      end
  end.
(** The inner product of two rows of registers: its value, and its MAC computed from the MACs of the first row. *)
Definition dot2 (x y : list (Z * Z)) : Z * Z := (dotp (map fst x) (map fst y), dotp (map snd x) (map fst y)).
(** A register holds a value and a MAC, modulo 2^U.  Everything but products is as in an honest run. *)
Definition off_cmd (U r : Z) (c : cmd) (offs : list (Z * Z)) (m : list (Z * Z) * list item) : option (list (Z * Z) * (list (Z * Z) * list item)) :=
  let (rs, q) := m in
  let rd n := nth_error rs n in
  let result v mac := Some (offs, (rs ++ [(v mod 2 ^ U, mac mod 2 ^ U)], q)) in
  let multiply l := obind (products U r l offs) (fun p => Some (fst p, (rs ++ fst (snd p), q ++ snd (snd p)))) in
  match c with
  | CAdd a b => obind (rd a) (fun x => obind (rd b) (fun y => result (fst x + fst y) (snd x + snd y)))
  | CSub a b => obind (rd a) (fun x => obind (rd b) (fun y => result (fst x - fst y) (snd x - snd y)))
  | CAddConst a c => obind (rd a) (fun x => result (fst x + c) (snd x + r * c))
  | CSubConst a c => obind (rd a) (fun x => result (fst x - c) (snd x - r * c))
  | CMulConst a c => obind (rd a) (fun x => result (fst x * c) (snd x * c))
  | CMul a b => obind (rd a) (fun x => obind (rd b) (fun y => multiply [(fst x * fst y, snd x * fst y)]))
  | CDot a b => guard (Nat.eqb (length a) (length b)) (obind (gets rs a) (fun x => obind (gets rs b) (fun y =>
      multiply [dot2 x y])))
  | CDotMany a b => guard (Nat.eqb (length a) (length b)) (obind (getss rs a) (fun xs => obind (getss rs b) (fun ys => multiply (map2 dot2 xs ys))))
  | _ => None
  end.
Fixpoint off_eval (U r : Z) (cs : list cmd) (offs : list (Z * Z)) (m : list (Z * Z) * list item) : option (list (Z * Z) * (list (Z * Z) * list item)) :=
  match cs with [] => Some (offs, m) | c :: t => obind (off_cmd U r c offs m) (fun om => off_eval U r t (fst om) (snd om)) end.
(** The registers to start with: values with their MACs. *)
Definition with_mac (U r : Z) (vs : list Z) : list (Z * Z) := map (fun v => (v, (v * r) mod 2 ^ U)) vs.
