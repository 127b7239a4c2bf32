(** The complete MpcTrait implementations of the plain and ABY3 engines. *)
From Verif Require Import Base Ring Prog Rng Net BinTrait Iris Protocol Plain Aby3 Client.

(** mpc_trait.rs:195-323 (input: the value itself; Plain has one party, every "party" of the model
    runs the same program and must be given the value). *)
Definition plain_api (signed : bool) (K : Z) : api unit Z Z :=
  {| a_mpc := plain_engine signed K;
     a_input := fun v _ => match v with Some x => retM x | None => failM EValue end;
     a_open := retM;
     a_open_many := retM;
     a_open_bit_many := fun l => retM (map (fun b => b =? 1) l);
     a_add_const := fun _ => radd K;
     a_mul := fun x y => retM (rmul K x y);
     a_dot := plain_dot K;
     a_dot_many := plain_dot_many K;
     a_get_msb := fun x => retM (get_msb K x);
     a_binary_or := fun x y => retM (ror x y) |}.

(** aby3/protocol.rs:256-550 *)
Definition aby3_api (G : rng) (K : Z) (i : pid) : api (prf G) share share :=
  {| a_mpc := aby3_engine G K i;
     a_input := input G i K;
     a_open := open G i K;
     a_open_many := open_many G i K;
     a_open_bit_many := open_bit_many G i;
     a_add_const := fun _ => sh_add_const i K;
     a_mul := mul G i K;
     a_dot := dot G i K;
     a_dot_many := dot_many G i K;
     a_get_msb := get_msb_share G i K;
     a_binary_or := b_or (aby3_bin G i 1) |}.
