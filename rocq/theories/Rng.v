(** Pseudo-random generators and hash functions, as arbitrary functions. *)
From Verif Require Import Base Ring Prog.

(** rand_chacha::ChaCha12Rng (SeedableRng::from_seed, Rng::gen) as used by
    aby3/random/prf.rs:1-66 and swift3/random/prf.rs:1-67.  Nothing is assumed about it except
    that it is a deterministic function of the seed: [rdraw s K] returns the next state and the
    value drawn for a K-bit type (reduced to K bits below). *)
Record rng := Rng {
  rstate : Type;
  rseed : list Z -> rstate;
  rdraw : rstate -> Z -> rstate * Z
}.
Definition draw (G : rng) (K : Z) (s : rstate G) : rstate G * Z :=
  let '(s', v) := rdraw G s K in (s', norm K v).

(** [rng.gen::<[u8; 32]>()]: 32 consecutive u8 draws (rand 0.8, Standard for arrays). *)
Fixpoint draw_bytes (G : rng) (n : nat) (s : rstate G) : rstate G * list Z :=
  match n with
  | O => (s, [])
  | S n' => let '(s1, v) := draw G 8 s in
            let '(s2, l) := draw_bytes G n' s1 in (s2, v :: l)
  end.

(** A small linear congruential generator, used only to run the model on examples. *)
Definition lcg : rng :=
  {| rstate := Z;
     rseed := fun bs => fold_left (fun a b => (a * 257 + b + 1) mod 2 ^ 64) bs 7;
     rdraw := fun s K => let s' := (s * 6364136223846793005 + 1442695040888963407) mod 2 ^ 64 in
                         let s'' := (s' * 6364136223846793005 + 1442695040888963407) mod 2 ^ 64 in
                         (s'', Z.shiftr (s' * 2 ^ 64 + s'') 13) |}.
