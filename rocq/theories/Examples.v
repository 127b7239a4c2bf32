(** The programs shipped with the library: plain-reference/src/lib.rs (sampling), plain-reference/src/bin/*.rs,
    iris-mpc/src/bin/create_sample_data.rs and iris-mpc/examples/{aby3,aby3_mal,swift3,spdzwise}.rs. *)
From Verif Require Import Base Ring Prog Rng Net Iris Protocol Aby3 Jmp Aby3Mal Spdz Swift3 Swift3Setup Swift3Verify Swift3Api.
From Coq Require Import Floats.SpecFloat.

(** ** Iris codes as bytes *)
Definition blob := list Z.
(** lib.rs:68-73 as_raw_slice / as_raw_mut_slice: the words as they lie in memory (little-endian machine) *)
Definition raw (c : code) : blob := flat_map (to_le 8) c.
Definition unraw (b : blob) : code := map from_le (chunks 8 b).
(** x.as_raw_mut_slice().copy_from_slice(b): panics unless b has IRIS_CODE_SIZE_BYTES = 1600 bytes *)
Definition copy_raw (b : blob) : res code := if Z.of_nat (length b) =? 1600 then Ok (unraw b) else Err EPanic.

Section Sampling.
  Variable G : rng.
  (** lib.rs:57-62; rand 0.8 [Rng::fill] on a byte slice is one call of [fill_bytes]: here one draw of 12800
      bits, least significant byte first *)
  Definition random_code (s : rstate G) : rstate G * code :=
    let '(s1, v) := draw G IRIS_CODE_SIZE_Z s in (s1, unraw (to_le (Z.to_nat 1600) v)).
  (** rand 0.8.5 Bernoulli::new(p).unwrap() for 0 <= p < 1: p_int = (p * 2^64) as u64; p is the decimal literal
      n/100 as rustc rounds it *)
  Definition bernoulli_new (n : Z) : Z := f64_to_usize (f64_mul (f64_div (f64_of_Z n) (f64_of_Z 100)) (f64_of_Z (2 ^ 64))).
  (** Bernoulli::sample *)
  Definition bernoulli (p_int : Z) (s : rstate G) : rstate G * bool :=
    let '(s1, v) := draw G 64 s in (s1, v <? p_int).
  (** lib.rs:146-150: the loop from position i on *)
  Fixpoint clear_bits (p : Z) (n : nat) (i : Z) (m : code) (s : rstate G) : res (rstate G * code) :=
    match n with
    | O => Ok (s, m)
    | S n => let '(s1, b) := bernoulli p s in
             rbind (if b then set_bit m i false else Ok m) (fun m1 => clear_bits p n (i + 1) m1 s1)
    end.
  (** lib.rs:136-153 *)
  Definition random_iris (s : rstate G) : res (rstate G * iris) :=
    let '(s1, c) := random_code s in
    rbind (clear_bits (bernoulli_new 10) IRIS_CODE_SIZE 0 ONES s1) (fun sm =>
    Ok (fst sm, {| ir_code := c; ir_mask := snd sm |})).
  (** lib.rs:173-180 *)
  Fixpoint flip_bits (p : Z) (n : nat) (i : Z) (x : iris) (s : rstate G) : res (rstate G * iris) :=
    match n with
    | O => Ok (s, x)
    | S n => let '(s1, b1) := bernoulli p s in
             rbind (if b1 then flip_bit (ir_code x) i else Ok (ir_code x)) (fun c =>
             let '(s2, b2) := bernoulli p s1 in
             rbind (if b2 then flip_bit (ir_mask x) i else Ok (ir_mask x)) (fun m =>
             flip_bits p n (i + 1) {| ir_code := c; ir_mask := m |} s2))
    end.
  (** lib.rs:169-183 *)
  Definition similar_iris (x : iris) (s : rstate G) : res (rstate G * iris) :=
    flip_bits (bernoulli_new 5) IRIS_CODE_SIZE 0 x s.

  (** create_sample_data.rs:61-65, 126-130, 208-212: [num_items] fresh irises *)
  Fixpoint random_irises (n : nat) (s : rstate G) : res (rstate G * list iris) :=
    match n with
    | O => Ok (s, [])
    | S n => rbind (random_iris s) (fun sx => rbind (random_irises n (fst sx)) (fun sl => Ok (fst sl, snd sx :: snd sl)))
    end.

  (** The bits of a code, each handed to [share] in turn *)
  Fixpoint deal_bits {X} (deal : Z -> rstate G -> rstate G * (X * X * X)) (bs : list bool) (s : rstate G) : rstate G * list (X * X * X) :=
    match bs with
    | [] => (s, [])
    | b :: bs => let '(s1, t) := deal (Z.b2z b) s in let '(s2, ts) := deal_bits deal bs s1 in (s2, t :: ts)
    end.
End Sampling.

(** ** The database.  A table is the list of its rows in the order of their ids 1, 2, ... (INTEGER PRIMARY KEY
    without AUTOINCREMENT and without deletions), which is also the order SELECT delivers.  A row: the code and
    the mask in the clear, and the share columns.  SQLite itself is not modelled: statements succeed. *)
Record row (C : Type) := Row { r_code : blob; r_mask : blob; r_cols : C }.
Arguments Row {C}. Arguments r_code {C}. Arguments r_mask {C}. Arguments r_cols {C}.

(** aby3.rs:166-176 and find_match.rs:36-42, 64-70 *)
Definition row_iris {C} (x : row C) : res iris :=
  rbind (copy_raw (r_code x)) (fun c => rbind (copy_raw (r_mask x)) (fun m => Ok {| ir_code := c; ir_mask := m |})).

(** bincode::serialize / deserialize of a Vec of K-bit ring elements, and of one element *)
Definition enc_vec (K : Z) (l : list Z) : blob := bc_vec (bc_uint (nbytes K)) l.
Definition dec_vec (K : Z) (b : blob) : res (list Z) := rbind (bc_list (bc_take (nbytes K)) b) (fun lb => Ok (fst lb)).
Definition dec_one (K : Z) (b : blob) : res Z := rbind (bc_take (nbytes K) b) (fun vb => Ok (fst vb)).

Definition fst3 {A B C} (t : A * B * C) : A := fst (fst t).
Definition snd3 {A B C} (t : A * B * C) : B := snd (fst t).
Definition thd3 {A B C} (t : A * B * C) : C := snd t.

(** ** plain-reference/src/bin/find_match.rs:73-77: [result |= code?.is_close(&code_to_compare_to)] over all rows *)
Definition find_match {C} (tbl : list (row C)) (q : iris) : res bool :=
  rbind (mapM_res (fun x => rbind (row_iris x) (fun a => is_close a q)) tbl) (fun l => Ok (existsb (fun b => b) l)).

(** ** create_sample_data.rs: the rows made from fresh irises (72-95, 137-165, 237-275), for one dealing function *)
Section Create.
  Variable G : rng.
  Context {X C : Type}.
  Variable deal : Z -> rstate G -> rstate G * (X * X * X).
  Variable cols : list (X * X * X) -> C.
  Fixpoint make_rows (l : list iris) (s : rstate G) : res (rstate G * list (row C)) :=
    match l with
    | [] => Ok (s, [])
    | x :: l => rbind (bits (ir_code x)) (fun bs =>
                let '(s1, ts) := deal_bits G deal bs s in
                rbind (make_rows l s1) (fun sr => Ok (fst sr, Row (raw (ir_code x)) (raw (ir_mask x)) (cols ts) :: snd sr)))
    end.
  (** Fresh irises first, then their rows, appended in one transaction *)
  Definition create (n : nat) (s : rstate G) (tbl : list (row C)) : res (list (row C)) :=
    rbind (random_irises G n s) (fun sl => rbind (make_rows (snd sl) (fst sl)) (fun sr => Ok (tbl ++ snd sr))).
End Create.
(** plain-reference/src/bin/create_sample_data_plain.rs:33-61: no share columns *)
Definition create_plain (G : rng) := create G (fun _ s => (s, (tt, tt, tt))) (fun _ => tt).
(** create_sample_data.rs:37-99; share columns a, b, c *)
Definition aby3_cols (ts : list (share * share * share)) : blob * blob * blob :=
  (enc_vec 16 (map (fun t => sa (fst3 t)) ts), enc_vec 16 (map (fun t => sa (snd3 t)) ts), enc_vec 16 (map (fun t => sa (thd3 t)) ts)).
Definition create_aby3 (G : rng) := create G (share_value G 16) aby3_cols.
(** create_sample_data.rs:101-169; share columns a, b, c, d *)
Definition swift3_cols (ts : list (share3 * share3 * share3)) : blob * blob * blob * blob :=
  (enc_vec 16 (map (fun t => ta (fst3 t)) ts), enc_vec 16 (map (fun t => ta (snd3 t)) ts), enc_vec 16 (map (fun t => ta (thd3 t)) ts),
   enc_vec 16 (map (fun t => tc (fst3 t)) ts)).
Definition create_swift3 (G : rng) := create G (share3_value G 16) swift3_cols.
(** create_sample_data.rs:171-281; shares and MACs are u64.  The file: the table of MAC keys (key, share a, b, c)
    and the table of codes (share and MAC columns a, b, c). *)
Definition spdz_cols (ts : list (ashare * ashare * ashare)) : (blob * blob) * (blob * blob) * (blob * blob) :=
  let col f := (enc_vec 64 (map (fun t => sa (av (f t))) ts), enc_vec 64 (map (fun t => sa (am (f t))) ts)) in
  (col fst3, col snd3, col thd3).
Record zdb := Zdb { z_keys : list (blob * (blob * blob * blob)); z_rows : list (row ((blob * blob) * (blob * blob) * (blob * blob))) }.
Definition create_spdz (G : rng) (n : nat) (s : rstate G) (db : zdb) : res zdb :=
  let '(s1, key) := draw G 64 s in
  rbind (random_irises G n s1) (fun sl =>
  let '(s2, t) := share_value G 64 key (fst sl) in
  let k := (bc_uint 8 key, (bc_uint 8 (sa (fst3 t)), bc_uint 8 (sa (snd3 t)), bc_uint 8 (sa (thd3 t)))) in
  rbind (make_rows G (fun x => spdz_share_value G 16 x key) spdz_cols (snd sl) s2) (fun sr =>
  Ok (Zdb (z_keys db ++ [k]) (z_rows db ++ snd sr)))).

(** Several invocations of create_sample_data on the same file: number of items and generator of each *)
Definition created {D St} (mk : nat -> St -> D -> res D) (calls : list (nat * St)) (empty : D) : res D :=
  fold_left (fun t ns => rbind t (mk (fst ns) (snd ns))) calls (Ok empty).

(** ** examples/*.rs *)
(** The party number given on the command line *)
Definition party_of (n : Z) : res pid :=
  if n =? 0 then Ok P0 else if n =? 1 then Ok P1 else if n =? 2 then Ok P2 else Err (EId n).
Definition pick3 {X} (p : pid) (t : X * X * X) : X := match p with P0 => fst3 t | P1 => snd3 t | P2 => thd3 t end.
(** The columns a party reads, own one first: "SELECT share_a, share_c", "share_b, share_a", "share_c, share_b" *)
Definition own_prev {X} (p : pid) (t : X * X * X) : X * X := (pick3 p t, pick3 (prev p) t).

Definition size_ok (l : list Z) : bool := Nat.eqb (length l) IRIS_CODE_SIZE.
(** aby3.rs:131-148, aby3_mal.rs:136-153 *)
Definition aby3_read_row (p : pid) (x : row (blob * blob * blob)) : res (list share * code) :=
  let '(ca, cb) := own_prev p (r_cols x) in
  rbind (copy_raw (r_mask x)) (fun m =>
  rbind (dec_vec 16 ca) (fun a =>
  rbind (dec_vec 16 cb) (fun b =>
  if negb (size_ok a) || negb (size_ok b) then Err EInvalidCodeSize else Ok (map2 Share a b, m)))).
(** aby3.rs:117-151, aby3_mal.rs:122-156 *)
Definition aby3_read_db (party : Z) (tbl : list (row (blob * blob * blob))) : res (list (list share * code)) :=
  rbind (party_of party) (fun p => mapM_res (aby3_read_row p) tbl).
(** swift3.rs:110-148 *)
Definition swift3_read_row (p : pid) (x : row (blob * blob * blob * blob)) : res (list share3 * code) :=
  let '(ca, cb) := own_prev p (fst (r_cols x)) in
  rbind (copy_raw (r_mask x)) (fun m =>
  rbind (dec_vec 16 ca) (fun a =>
  rbind (dec_vec 16 cb) (fun b =>
  rbind (dec_vec 16 (snd (r_cols x))) (fun c =>
  if negb (size_ok a) || negb (size_ok b) || negb (size_ok c) then Err EInvalidCodeSize
  else Ok (map2 (fun ab c => Share3 (fst ab) (snd ab) c) (combine a b) c, m))))).
Definition swift3_read_db (party : Z) (tbl : list (row (blob * blob * blob * blob))) : res (list (list share3 * code)) :=
  rbind (party_of party) (fun p => mapM_res (swift3_read_row p) tbl).
(** spdzwise.rs:135-158: share and clear text of the one MAC key; "no mac key in database", "Too many mac keys" *)
Definition spdz_read_key (p : pid) (keys : list (blob * (blob * blob * blob))) : res (ashare * Z) :=
  match keys with
  | [] => Err EOther
  | (k, cols) :: rest =>
      let '(ca, cb) := own_prev p cols in
      rbind (dec_one 64 ca) (fun a => rbind (dec_one 64 cb) (fun b => rbind (dec_one 64 k) (fun key =>
      match rest with [] => Ok (AShare szero (Share a b), key) | _ => Err EOther end)))
  end.
(** spdzwise.rs:171-204 *)
Definition spdz_read_row (p : pid) (x : row ((blob * blob) * (blob * blob) * (blob * blob))) : res (list ashare * code) :=
  let '((ca, ma), (cb, mb)) := own_prev p (r_cols x) in
  rbind (copy_raw (r_mask x)) (fun m =>
  rbind (dec_vec 64 ca) (fun a => rbind (dec_vec 64 ma) (fun ma =>
  rbind (dec_vec 64 cb) (fun b => rbind (dec_vec 64 mb) (fun mb =>
  if negb (size_ok a) || negb (size_ok b) || negb (size_ok ma) || negb (size_ok mb) then Err EInvalidCodeSize
  else Ok (map2 AShare (map2 Share a b) (map2 Share ma mb), m)))))).
(** spdzwise.rs:131-207 *)
Definition spdz_read_db (party : Z) (db : zdb) : res (ashare * Z * list (list ashare * code)) :=
  rbind (party_of party) (fun p =>
  rbind (spdz_read_key p (z_keys db)) (fun kk =>
  rbind (mapM_res (spdz_read_row p) (z_rows db)) (fun l => Ok (kk, l)))).

Section Query.
  Variable G : rng.
  (** aby3.rs:158-182: the iris to look for, from the generator seeded with --iris-seed: similar to the row with
      id 1 (no such row: an error), or fresh *)
  Definition query_iris {C} (tbl : list (row C)) (should_match : bool) (s : rstate G) : res (rstate G * iris) :=
    if should_match then
      match tbl with
      | [] => Err EOther
      | x :: _ => rbind (row_iris x) (fun a => similar_iris G a s)
      end
    else random_iris G s.
  (** aby3.rs:153-202, aby3_mal.rs:158-217, swift3.rs:150-199, spdzwise.rs:209-257: this party's share of the
      query (every party runs the same generator and keeps its own share) and the mask *)
  Definition query_share {X C} (deal : Z -> rstate G -> rstate G * (X * X * X)) (party : Z) (tbl : list (row C)) (should_match : bool)
      (s : rstate G) : res (list X * code) :=
    rbind (query_iris tbl should_match s) (fun sq =>
    rbind (mapM_res (Iris.get_bit (ir_code (snd sq))) (map Z.of_nat (seq 0 IRIS_CODE_SIZE))) (fun bs =>
    rbind (party_of party) (fun p =>
    Ok (map (pick3 p) (snd (deal_bits G deal bs (fst sq))), ir_mask (snd sq))))).
End Query.

(** plain-reference/src/bin/find_match.rs:34-85; with --should-match the first row, a few bits flipped *)
Definition find_match_main (G : rng) {C} (tbl : list (row C)) (should_match : bool) (s : rstate G) : res bool :=
  rbind (query_iris G tbl should_match s) (fun sq => find_match tbl (snd sq)).

(** ** main.  The results of the runs; party 0 prints them ("Result is ..."), the others only continue.  Network
    set-up and shut-down between the runs, statistics and timing are left out; the runs follow each other on the
    same channels. *)
Section Main.
  Variables (G : rng) (i : pid).
  Variables (should_match : bool) (q : rstate G) (chunk : nat).
  Local Open Scope M_scope.

  (** aby3.rs:204-268; one run per element of [runs]: the generators of Aby3::new and the seed of setup_prf, both
      from the operating system *)
  Definition aby3_example (tbl : list (row (blob * blob * blob))) (runs : list (prf G * list Z)) : M (prf G) (list bool) :=
    db <- resM (aby3_read_db (pid_num i) tbl) ;;
    x <- resM (query_share G (share_value G 16) (pid_num i) tbl should_match q) ;;
    mapM (fun r : prf G * list Z =>
      putM (fst r) ;;;
      resM (iris_new 16) ;;;
      setup_prf_from_seed G i (snd r) ;;;
      iris_in_db (aby3_engine G 16 i) false (fst x) (map fst db) (snd x) (map snd db) chunk) runs.

  Variable H : hasher.
  (** aby3_mal.rs:219-280, a single run *)
  Definition mal_example (tbl : list (row (blob * blob * blob))) (f : prf G) (sd1 sd2 rd1 rd2 : list Z) : M (jst G) bool :=
    db <- resM (aby3_read_db (pid_num i) tbl) ;;
    x <- resM (query_share G (share_value G 16) (pid_num i) tbl should_match q) ;;
    putM (JSt G f [] [] []) ;;;
    resM (iris_new 16) ;;;
    setup_prf_mal G H i sd1 sd2 rd1 rd2 ;;;
    iris_in_db (mal_engine G H i 16) false (fst x) (map fst db) (snd x) (map snd db) chunk.

  (** swift3.rs:201-263, a single run; [em], [ea], [ed] and [fuel] as in [sw_verify] *)
  Definition swift3_example (tbl : list (row (blob * blob * blob * blob))) (k1 k2 k3 sd1 sd2 sd3 rd1 rd2 rd3 : list Z)
      (fuel : nat) (em ea ed : Swift3.sst G -> rstate G) : M (Swift3.sst G) bool :=
    db <- resM (swift3_read_db (pid_num i) tbl) ;;
    x <- resM (query_share G (share3_value G 16) (pid_num i) tbl should_match q) ;;
    putM (sst_new G k1 k2 k3) ;;;
    resM (iris_new 16) ;;;
    w_setup_prf G H i sd1 sd2 sd3 rd1 rd2 rd3 ;;;
    iris_in_db (swift3_engine G H (sw_verify G H 16 fuel i em ea ed) i 16) false (fst x) (map fst db) (snd x) (map snd db) chunk.

  (** spdzwise.rs:259-323 *)
  Definition spdz_example (db : zdb) (runs : list (prf G * list Z)) : M (Spdz.sst G) (list bool) :=
    d <- resM (spdz_read_db (pid_num i) db) ;;
    let '(key_share, key, l) := d in
    x <- resM (query_share G (fun x => spdz_share_value G 16 x key) (pid_num i) (z_rows db) should_match q) ;;
    mapM (fun r : prf G * list Z =>
      putM (spdz_new G (fst r)) ;;;
      resM (iris_new 16) ;;;
      (spdz_preprocess G i (snd r) ;;; set_mac_key G key_share) ;;;
      iris_in_db (spdz_engine G H i 16) false (fst x) (map fst l) (snd x) (map snd l) chunk) runs.
End Main.
