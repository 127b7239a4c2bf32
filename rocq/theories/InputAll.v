(** input_all of the SPDZ-wise and the Swift3 engine (test helpers; ABY3's is Aby3.input_all, malicious ABY3's
    Aby3Mal.mal_input_all): every party shares one input, party after party. *)
From Verif Require Import Base Ring Prog Rng Aby3 Jmp Aby3Mal Spdz Swift3.
Local Open Scope M_scope.

(** spdzwise/protocol.rs:821-833 *)
Definition spdz_input_all (G : rng) (i : pid) (K : Z) (x : Z) : M (Spdz.sst G) (list ashare) :=
  mapM (fun id => spdz_input G i K (if id =? pid_num i then Some x else None) id) [0; 1; 2].
(** swift3/protocol.rs:2029-2041 *)
Definition w_input_all (G : rng) (i : pid) (K : Z) (x : Z) : M (Swift3.sst G) (list share3) :=
  mapM (fun id => w_input G i K (if id =? pid_num i then Some x else None) id) [0; 1; 2].
