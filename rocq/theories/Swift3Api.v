(** The complete MpcTrait implementation of Swift3 (swift3/protocol.rs:1911-2312).  The check run by
    [verify] is a parameter [V] of these records: it is modelled in Swift3Verify.v. *)
From Verif Require Import Base Ring Prog Rng Net Jmp BinTrait Iris Protocol Plain Swift3 Client.

Section Api.
  Variables (G : rng) (H : hasher) (V : M (sst G) unit) (i : pid) (K : Z).
  (** protocol.rs:2196-2312; masked_dot_many is the default of traits/mpc_trait.rs:47-84;
      filter_reduce_add_twice of a vector of shares is the default of mpc_trait.rs:108-128. *)
  Definition swift3_engine : mpc (sst G) share3 share3 :=
    {| m_K := K;
       m_precompute := fun _ => retM tt;
       m_masked_dot_many := default_masked_dot_many tzero (w_dot_many G i K);
       m_filter_reduce_add_twice := zip_filter_reduce_add_twice tzero (t_add K);
       m_add := t_add K;
       m_sub := t_sub K;
       m_mul_const := t_mulc K;
       m_sub_const := fun _ => t_sub_const K;
       m_get_msb_many := w_get_msb_many G i K;
       m_reduce_binary_or := w_reduce_or G i;
       m_verify := V;
       m_open_bit := w_open_bit G H i |}.
  (** protocol.rs:1940-2027, 2056-2295 *)
  Definition swift3_api : api (sst G) share3 share3 :=
    {| a_mpc := swift3_engine;
       a_input := w_input G i K;
       a_open := w_open G H i K;
       a_open_many := w_open_many G H i K;
       a_open_bit_many := w_open_bit_many G H i;
       a_add_const := fun _ => t_add_const K;
       a_mul := w_mulg G i K;
       a_dot := w_dotg G i K;
       a_dot_many := w_dot_many G i K;
       a_get_msb := w_get_msb G i K;
       a_binary_or := b_or (swift3_bin G i 1) |}.
End Api.
