(** Swift3: seeding the pseudo random functions and public coins. *)
From Verif Require Import Base Ring Prog Rng Net Aby3 Jmp Swift3.

Section Setup.
  Variables (G : rng) (H : hasher) (i : pid).
  Local Open Scope M_scope.

  (** protocol.rs:1479-1484, 1665-1670: the other two parties, smaller id first *)
  Definition other0 : pid := match i with P0 => P1 | P1 => P0 | P2 => P0 end.
  Definition other1 : pid := match i with P0 => P2 | P1 => P2 | P2 => P1 end.

  (** protocol.rs:113-136 and 1426-1460: one message for each of the others, then one from each *)
  Definition swap_others (m0 m1 : msg) : prog (msg * msg) :=
    Send other0 m0 (Send other1 m1 (Recv other0 (fun r0 => Recv other1 (fun r1 => Ret (r0, r1))))).

  (** protocol.rs:1469-1475 *)
  Definition verify_commitment (data rand comm : list Z) : bool := o_verify H 8 (Opening data rand) comm.

  (** protocol.rs:1538-1550 slices of an opening message: seed, randomness, common seed, randomness *)
  Definition cut (from n : nat) (m : list Z) : list Z := firstn n (skipn from m).

  (** protocol.rs:1462-1600: seeds and commitment randomness come from the OS, here arguments;
      InvalidMessageSize and InvalidCommitment are EOther *)
  Definition w_setup_prf (seed1 seed2 seed3 rand1 rand2 rand3 : list Z) : M (sst G) unit :=
    let c1 := commit_with_rand H 8 seed1 rand1 in
    let c2 := commit_with_rand H 8 seed2 rand2 in
    let c3 := commit_with_rand H 8 seed3 rand3 in
    m <- liftM (swap_others (c_comm c1 ++ c_comm c3) (c_comm c2 ++ c_comm c3)) ;;
    if negb (Nat.eqb (length (fst m)) 128) || negb (Nat.eqb (length (snd m)) 128) then failM EOther
    else
      let op c := ring_slice_to_bytes 8 (o_values (c_open c)) ++ o_rand (c_open c) in
      n <- liftM (swap_others (op c1 ++ op c3) (op c2 ++ op c3)) ;;
      let l := length seed1 in
      let total := (2 * (l + 32))%nat in
      if negb (Nat.eqb (length (fst n)) total) || negb (Nat.eqb (length (snd n)) total) then failM EOther
      else
        let open1 := cut 0 l (fst n) in
        let open2 := cut (l + 32) l (fst n) in
        let open3 := cut 0 l (snd n) in
        let open4 := cut (l + 32) l (snd n) in
        if negb (verify_commitment open1 (cut l 32 (fst n)) (firstn 64 (fst m))) ||
           negb (verify_commitment open2 (cut (2 * l + 32) 32 (fst n)) (skipn 64 (fst m))) then failM EOther
        else if negb (verify_commitment open3 (cut l 32 (snd n)) (firstn 64 (snd m))) ||
                negb (verify_commitment open4 (cut (2 * l + 32) 32 (snd n)) (skipn 64 (snd m))) then failM EOther
        else
          let k1 := map2 (fun a b => rxor b a) seed1 open1 in
          let k2 := map2 (fun a b => rxor b a) seed2 open3 in
          let k3 := map2 (fun a bc => rxor (rxor (fst bc) a) (snd bc)) seed3 (combine open2 open4) in
          s <- getM ;;
          putM (w_set_p G (w_set_prf G s
            (match i with P1 => prf_new G k2 k1 | _ => prf_new G k1 k2 end)) (rseed G k3)).

  (** protocol.rs:1660-1729; the local generator's outputs (seed, commitment randomness) are arguments *)
  Definition w_coin (seed rand : list Z) : M (sst G) (list Z) :=
    let c := commit_with_rand H 8 seed rand in
    r <- liftM (broadcast i (c_comm c)) ;;
    let r0 := nth (Z.to_nat (pid_num other0)) r [] in
    let r1 := nth (Z.to_nat (pid_num other1)) r [] in
    if negb (Nat.eqb (length r0) 64) || negb (Nat.eqb (length r1) 64) then failM EOther
    else
      q <- liftM (broadcast i (ring_slice_to_bytes 8 (c_values c) ++ c_rand c)) ;;
      let q0 := nth (Z.to_nat (pid_num other0)) q [] in
      let q1 := nth (Z.to_nat (pid_num other1)) q [] in
      let l := length seed in
      if negb (Nat.eqb (length q0) (l + 32)) || negb (Nat.eqb (length q1) (l + 32)) then failM EOther
      else
        if negb (verify_commitment (cut 0 l q0) (cut l 32 q0) r0) then failM EOther
        else if negb (verify_commitment (cut 0 l q1) (cut l 32 q1) r1) then failM EOther
        else retM (map2 (fun r ab => rxor r (rxor (fst ab) (snd ab))) seed (combine (cut 0 l q0) (cut 0 l q1))).
End Setup.
