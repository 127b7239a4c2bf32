# Design of the Rocq model of TaceoLabs/worldcoin-experiments

Source: /repo (Rust, read as text only). All proofs: `rocq/theories`, Coq 8.16.1, built by `coq_makefile`.
`properties.jsonl` states the properties, `MANIFEST.json` maps each to its theorems (all in `Properties*.v`),
`seeded/LOG.jsonl` records the wrong programs tried against the theorems.

## 1. How the code is modelled

* **Ring elements** (`types/*.rs`): canonical integers in `[0, 2^K)` (`Z`), every operation reduces mod `2^K` exactly
  where the Rust code wraps; `K` is a parameter (1, 8, 16, 32, 64, 128).  Byte codecs work on lists of bytes.
* **Programs**: each `async fn` of an engine becomes a *program for one party*: a free monad with `Send to bytes`,
  `Recv from`, `Ret`, `Fail` (an `Err(..)` or a panic, each a distinct value).  Engine state (`&mut self`) is threaded.
* **Network** (`traits/network_trait.rs`, `test_network.rs`, `aby3/network.rs`): three programs and nine FIFO queues;
  small-step semantics with *arbitrary interleaving*.  Kahn-style confluence is proved once (C06), so every functional
  theorem holds under every schedule and implies deadlock freedom.
* **Malicious parties**: an arbitrary program in place of one party (`Conc.project`, `Duo.v`); the theorems speak of
  every run in which the honest parties finish, over every byte string the third party may send.
* **Randomness**: a PRNG is an arbitrary record (state, seeding function, output functions); theorems quantify over it,
  hence over all random outcomes.  Hash functions (SHA-512) are arbitrary functions on byte lists; soundness statements
  say "accepted implies equal, or here is an explicit collision".  Probabilistic claims are *counts* of bad challenges.
* **f64**: `Coq.Floats.SpecFloat` (axiom-free IEEE-754 binary64), swept over the whole finite domain.
* **Ghost fields**: the only state that the code does not have is the log of what was queued (`j_log` in `Jmp.v`, `w_log` in
  `Swift3.v`).  No definition of the model reads it; it lets statements name what was sent.

## 2. Property by property

| id | model | proof |
|----|-------|-------|
| C01, C02 | `Ring.v`, `Net.v`: codecs, parsers with explicit panic value | induction over lists; C02 is false of the iterator parser |
| C03 | `Ring.v`: Euclid loop on Z with fuel | loop invariant, termination measure |
| C04, C05 | `Iris.v`: 200 words of 64 bits; f64 threshold | testbit reasoning, exhaustive sweep of the 12801 mask weights for the f64 part |
| C06 | `Prog.v`: interleaving semantics | diamond property, strong confluence (`Sched.v`) |
| C07, C09-C12 | `Aby3.v`: ABY3 engine | joint invariant of the three parties' states |
| C08 | dealer functions of ABY3 and Swift3 | bijection on the randomness; freshness of successive dealings |
| C13, C14 | `BinTrait.v`: binary adders | carry recurrences by bit induction |
| C15, C16 | packing and reduction trees | list induction |
| C17-C20 | `Protocol.v`: iris protocol, generic in the engine | composition of engine specifications (`MpcSpec.v`) |
| C21, C22, C32 | `Jmp.v`: jmp queues, commitments, coin | arbitrary received messages, explicit hash collision |
| C23, C24 | `Aby3Mal.v`: malicious ABY3 | as ABY3, with Beaver/sacrifice algebra; two honest parties against any third |
| C25-C29, C39 | `Spdz.v`: SPDZ-wise | MAC invariant, triple pool as list, counting; C29 is false of the code |
| C30, C31, C40 | `Swift3.v`, `Swift3Setup.v` | joint invariant; C31 and coin agreement are false of Swift3 |
| C33, C34 | `Poly.v`: polynomials over GF(2^64), over Z/2^K and over Galois rings | ring algebra with setoids; units are the elements nonzero mod 2 |
| C35, C43 | `Dzkp.v`: prove, verify_pi, combine_verifications, generic in the coefficient ring | one generic completeness and one generic soundness theorem (`DzkpProofs.v`, `DzkpSound.v`), instantiated for GF(2^64) and Galois rings |
| C44 | the same, with coefficients known in advance | linear dependence of 65 vectors of 64 bits |
| C45, C46 | `Gf2.v`, `Poly.v`: field and ring operations, table of moduli | certificates (iterated squaring, `Gf2Certs.v`) checked by `vm_compute` |
| C36 | `Channel.v`: managed channel state machine | invariant over all event sequences |
| C37 | `Channel.v`: config check | sort/dedup |
| C38 | all engines through one engine interface | instances of the generic theorem; Swift3 through a lenient verify that it refines (`OutcomeProofs.v`) |
| C47 | `Swift3Verify.v`: the three verification rounds with their messages | joint run of the three parties (`Swift3VerifyRun/Gr/Main.v`), local checks by C35 |
| C42 | `Swift3.v` message queues; `Session3.v` (specification) | local traces of the honest parties in any execution; joint run for honest parties |
| C48 | `Swift3Verify.v`; `CheatSpec.v` (specification) | local traces of two honest parties in any execution (`Swift3VerifyDuo/Mal.v`), then C43; the stages of the whole verify by counting messages (`Swift3VerifyAll.v`) |
| C49 | `Dzkp.v`, `Swift3Verify.v` (the points drawn again); `PrivacySpec.v` (specification) | the Lagrange polynomial of the random value is a unit outside the points, so a shift of the random values absorbs any change of the gates (`DzkpPrivate.v`, `PrivateGates.v`) |
| C50 | `Aby3.v`, `Client.v`, `Apis.v`; `ViewSpec.v` (specification: what a party receives, the tape generator, `same_to`) | a relational calculus of couplings of the hidden bits (`Private.v`), every masked exchange is a coupling (`PrivateOps.v`, `PrivateAby3.v`), circuits (`PrivateCirc.v`, `PrivateSliced.v`), openings are determined by value and own shares (`PrivateClient.v`), programs (`PrivateFinal.v`) |
| C51 | `Protocol.v` over `aby3_engine`; `ViewSpec.v` | as C50; the correctness lemmas of C18 show that the opened bit is the answer (`PrivateIris.v`) |
| C52 | `Examples.v`: sampling, the tables (as lists of rows of byte strings), bincode columns, the four example mains on top of the engines, the plain programs | what is sampled by induction over the loops; columns read back to shares (`ExamplesProofs.v`); composition with set-up and C18/C38 (`ExamplesRun.v`) |
| C53 | `Establish.v`: processes, connections and streams as a transition system; quinn and rustls are the environment (handshakes succeed or fail according to `w_tls`, servers are dialled once they listen, any fault at any time if `w_faults`, strangers if `w_outsiders`) | safety by an invariant over all steps; no deadlock by following the smallest waiting process, a measure bounds the number of steps; refutation by a run |
| C54 | `Shutdown.v`: the processes of `Prog.v` with closing of connections (undelivered messages may be lost from some point on), reading from a closed connection, and crashes | a simulation: every disturbed run is shadowed by an undisturbed one that it lags behind; the confluence of `Sched.v` does the rest |
| C55 | as C54 | false of the code; `C55_when_partial` is an exact criterion, `C55_*_refuted` show that every query meets it (the final exchange of any opening) |
| C56 | SPDZ-wise `generate_triples`, `verify_triple_queue`; two honest parties against one sending arbitrary bytes | `C56_generate`: the exact relation between the third party's deviation and the shuffle when both accept (symbolic execution of the two honest programs, `duoR`); `C56_detect`: counting Fisher-Yates pick sequences (`FyCount.v`); `C56_queue`, `C56_queue_sound` for the gates of a computation. That the picks are close to uniform is the assumption on the generator (the coin includes bytes of a generator the third party does not know); the collision alternative is explicit |
| C57 | malicious ABY3 `mul`, `dot`, `dot_many`, `open`, `open_many` and the local operations, in any program (`exec` of `Client.v` over `mal_api`); two honest parties against one sending arbitrary bytes | `C57_programs`: invariant over the program: as long as what party i has received equals what i+1 has buffered, the registers of i and i+1 are shares of the plain values; an opening starts and ends with `jmp_verify`, so afterwards the condition held or the hash collides (`ProgMalDuo.v`, `ProgMalOps*.v`, `ProgMalExec.v`); `C57_luck` counts the challenges that miss a wrong product (by `C24_missed`); `C57_met`: every program has such runs. Inputs are in C58, binary operations in C59 |
| C58 | as C57, with malicious ABY3 `input` of all three parties in the program | `C58_programs`: `input_i/j/k` (`ProgMalInput.v`) show that a call with an honest dealer gives shares of its value and one with a malicious dealer gives the two honest parties shares of *some* value (both compare what they received); `exec_B2` (`ProgMalExec2.v`) extends the invariant of C57; `C58_bound`: registers never change, so the value is fixed when the call returns; `C58_met`, `C58_example` |
| C59 | as C58, with every call of the interface: `get_msb(_many)`, `binary_or`, `reduce_binary_or`, `open_bit(_many)` on malicious ABY3, i.e. `get_mul_triple_many`, `mal_and(_many)`, the carry adder and the OR tree | `C59_programs`: a judgement `duoL` (`ProgMalBin.v`) for two parties running the same circuit: their bits are shares of the plain bits unless something has gone wrong (hash collision, missed challenge), and what has gone wrong stays visible; proved for triples and AND gates (`ProgMalBin2.v`, `ProgMalBin3.v`), adder and OR (`ProgMalBin4.v`), OR tree, comparisons and openings (`ProgMalBin5.v`), then for programs (`ProgMalExec3.v`). `lucky_bits` (`ProgMalBinSpec.v`) says that at some moment of the run both parties start the check of a batch of bit triples of which one is wrong and the challenge misses it; `C57_luck` (at K = 1) counts such challenges. `C59_met`, `C59_example` |
| C60 | `iris_in_db` over the malicious ABY3 engine (masked dot products, distances, thresholds, comparisons, OR tree, opening); two honest parties against one sending arbitrary bytes | `C60_iris`: the judgement of C59 extended with inner products (`duoX`, `IrisMal.v`); local steps need only each party's own data, so that they succeed even on spoiled shares (`local_ok`); the products are right unless the challenge misses (`lucky_dots`, `IrisMalSpec.v`: both parties are about to start the check of the same rows). `C60_met`: with an honest third party both finish |
| C61 | `input_all` of malicious ABY3, SPDZ-wise and Swift3 (`Aby3Mal.v`, `InputAll.v`) | `C61_aby3_mal`, `C61_spdz`, `C61_swift3`: three uses of the input lemmas (`inputs_RL`). `C61_malicious`: the two-party judgement of C57/C58 for the three inputs, then the opening; `C61_met` gives the runs |
| C62 | SPDZ-wise `open`, `open_bit(_many)`; two honest parties against one sending arbitrary bytes | False of the code for ring values: `C62_open_refuted` (and `C62_open_many_refuted` for batches) gives, for every honest state, shared x and d, a run in which both accept, i+1 obtains x and i obtains x + d. `C62_open_partial`: what does hold: both accepted C26's relation, i+1 obtains what the shares stand for, i that plus the change of the last word. `C62_open_met` (honest runs), `C62_reachable` (states). Bits are safe: `C62_open_bit`, `C62_open_bit_many` (as in C59), `C62_open_bit_met` |
| C63 | programs of linear operations, `mul`, `dot`, `dot_many` on the SPDZ-wise engine, then `open`; two honest parties against one sending arbitrary bytes; `SpdzMalSpec.v` (specification: what the program computes when every product is off) | `C63_programs`: an invariant of the two honest parties (`SpdzMal2.v`) keeps what their registers and queues jointly stand for equal to the specification; the check is C26's over exactly the collected items (`C62`'s lemma). `C63_no_offset`: offsets vanishing modulo 2^K are harmless. `C63_detect`: a counting argument over (key, coefficient of the first product off): the offset of its MAC depends on the key only through multiples of 2^K (`SpdzMalCount.v`), which generalises C26's count to offsets of later items depending on the key. Bit operations (msb, or) are not covered: their triples are those of C54, C56. |
| C64 | SPDZ-wise `input`, then `open`; two honest parties against one sending arbitrary bytes | False of the code (finding 27): `C64_input_refuted` gives, for every honest state, dealer, value v and offset d, a run in which both honest parties finish the input, the MAC check and the opening and obtain v + d: the third party acts as if it dealt d at the same time. `C64_input_partial`: whatever it sends, adding is all it can do: the shares stand for v plus the difference between its first word and its share of zero, and the item is queued for the check. Missing: that this offset is zero, which is false. |
| C41 | malicious ABY3 input with a malicious provider | local runs of the two honest receivers |

## 3. Trusted base

* Coq 8.16.1's kernel (and `coqchk`, which re-checks the compiled files), the OCaml runtime, the shell.
* **Axioms**: none.  `Print Assumptions` says "Closed under the global context" for every theorem listed in MANIFEST.json.
  (`coqchk`'s context listing also names the fields of `Coq.ssr.ssrunder.Under_rel`, a module type of the
  standard library that is loaded but not used by any theorem.)  `vm_compute` (kernel bytecode machine) is used for finite
  sweeps: the f64 threshold, concrete example runs, field certificates.
* The reading of the Rust code into the definitions of the model files; each definition cites its source lines.
* For the reader of a theorem: the specification files `IrisSpec.v`, `ShareSpec.v`, `Swift3Spec.v`, `TripleSpec.v`,
  `MacSpec.v`, `MpcSpec.v`, `IrisMalSpec.v`, `ProgMalSpec.v`, `ProgMalBinSpec.v`, `SpdzMalSpec.v`, `DzkpSpec.v`, `GaloisSpec.v`, `OutcomeSpec.v`, `Swift3VerifySpec.v`,
  `Session.v`, `Client.v`, and the semantics in `Prog.v`, `Conc.v`, `Duo.v`.

Model files (code): `Ring, Net, Rng, Prog, Iris, Protocol, Plain, BinTrait, Aby3, Jmp, Aby3Mal, Spdz, Swift3, Swift3Setup,
Swift3Verify, Swift3Api, Apis, Channel, Gf2, Poly, Dzkp, ...`; everything else is specification or proof.

## 4. What is and is not modelled

Modelled: `types/` (ring elements, bits, codecs, parsers), `plain-reference` (iris codes, masks, distances, threshold), `traits/`
(mpc_trait defaults, binary_trait, share and vecshare operations), `iris/protocol.rs`, the five engines (plain, ABY3, malicious
ABY3, SPDZ-wise, Swift3) with set-up, input, share, arithmetic, binary circuits, opening and verification, `aby3/utils.rs`,
`commitment`, `mpc-net` channels and configuration checks, `dzkp/`, the sampling and main functions of `plain-reference`'s and
`iris-mpc`'s programs (`Examples.v`).

Not modelled: the inside of TLS and QUIC (connections are established by `Establish.v`'s environment steps; certificates are the relation `w_tls`), tokio's runtime and timeouts, file I/O, SQLite itself (a table is a
list of rows; statements succeed), argument parsing and printing of the binaries, benches and key generation tools, bounded buffering/back-pressure, timing, memory exhaustion, overflow of `usize` lengths, tracing.  Byte transport: a message sent is delivered unchanged and in order or (C36) the channel is
broken; in the engine theorems channels do not break.  Plain's `+` is modelled as panicking on overflow (debug profile).

## 5. Findings about the code (each backed by a theorem or a definition)

1. SPDZ-wise precomputes too few AND triples for several chunk sizes; honest runs fail (`C29_refuted`).
2. `RingBytesIter` panics on an invalid `Bit` byte received from the network (`C02_refuted`).
3. `Not` on Swift3 binary shares leaves the value unchanged (`C31_swift3_refuted`).
4. Empty batches: `msb_adder_many` panics (`C14_empty_batch_refuted`); `chunk_size = 0` panics; `iris_in_db` unwraps the verification result.
5. `inverse` for u128 is `todo!()`.
6. Malicious ABY3 multiplication panics for share types of 32 and 128 bits (`C23_unsupported`).
7. Messages above the 8 MiB frame limit are lost; only the send handle learns it (`C36`).
8. `Triples::extend` on a partially filled pool would misalign it (not reached by the engine).
9. Swift3 `input` with an identifier of 3 or more panics instead of returning an error.
10. Swift3 coin: a malicious third party can equivocate; honest parties finish with different coins (`C40_agreement_refuted`).
11. The malicious ABY3 input protocol's echo: equivocation is detected (C41).
12. Zero-knowledge proofs of multiplications and inner products: the final comparison compares a shortened with an unshortened
    list of coefficients, so honest proofs are rejected whenever the top coefficients of the two shares cancel
    (`C35_mul_refuted`; `C35_mul_partial`, `C35_dot_partial` give the exact condition) - about one run in 2^K.
13. The same proofs panic for 64-bit and wider rings (`C33_wide_panics`).
14. The combination coefficients are derived from a key all three parties hold, so a prover knows them in advance; for 4097 or
    more AND gates wrong gates can then be hidden (`C44_known_thetas`).
15. `long_division` is wrong for divisors that end in zero coefficients (`C34_trailing_zero_refuted`; not reached by the engine).
16. `mod_inverse` of a non-unit returns a value instead of an error (`C46_nonunit_refuted`; not reached by honest runs).
17. A Swift3 inner-product proof over iris codes is a message of about 12 MB, above the frame limit of finding 7.
18. Swift3's verify rejects some honest runs (consequence of 12): about 3 in 2^K, e.g. 6 of 180 runs of the model on u8 with one
    multiplication each.  Then one party stops with `DZKPVerifyError` while the others may return (`C47_mul_outcome`).
19. The registries of gates are not emptied by verify: every call proves all earlier gates again, and the size limits of
    `C47_panics` apply to the whole life of the engine (`C47_mul_outcome`: the registry afterwards).
20. Swift3's verify panics whenever a multiplication or inner product of 64-bit or wider elements is registered (`C47_panics`).
21. The evaluation points for multiplications and inner products are drawn again only while the constant coefficient is zero
    (protocol.rs:1902), not while they are among the points 1, ..., m of the gates: at an odd point the message between the
    verifiers is the sender's shares of one column of gates in the clear (`C49_mul_exposed`, `C49_dot_exposed`,
    `C49_mul_refuted`).  The probability is about m / 2^(K d + 1).  For AND gates the test is right (`C49_and_point`).

22. A SPDZ-wise sample file on which create_sample_data ran twice holds two MAC keys and is refused by the example
    (`C52_spdz_twice`), although the program is written to append; on an empty table the plain search answers "no match" where
    the MPC programs end with an error (`C52_empty`).

23. Clients are not authenticated: the TLS set-up asks for no client certificate, and the server takes the id in the greeting at
    its word.  Whoever can reach a server's port can be a party (`C53_outsider_refuted`); then also the private channels which
    the key exchanges of C10, C50 assume are with a stranger.
24. A configuration that lists only its own party passes `check_config`, but asking for channels panics
    (`HashMap::with_capacity(len - 1)`, `C53_alone`).

25. `finish` closes the connections at once (`conn.close`, lib.rs:222-224; quinn then abandons data that has not been
    transmitted) and `send` drops the status of the write job, so nothing waits for the last message of a party to be delivered.
    Every opening ends with an exchange in which a party may have received its part before its own part has arrived: one party can
    return the answer while another fails with an I/O error (`C55_when_partial`, `C55_aby3_refuted`, ...).  The answer is never wrong
    (`C54_safe`), and a shutdown that waits for delivery would do (`C54_orderly`).  The model lets an arbitrary suffix of the
    undelivered messages be lost; whether it happens depends on timing (a party usually gets its last packets out earlier).

26. The SPDZ-wise engine opens ring values with the semi-honest ABY3 opening after the MAC check (spdzwise/protocol.rs:869-900):
    the last word a party sends is not authenticated, so a malicious party makes its neighbour obtain x + d for a d of its choice,
    unnoticed, while the other one obtains x (`C62_open_refuted`).  Opening the value first and checking the MACs of the opened
    value, or opening with a jmp as `open_bit` does, would close this.  The iris programs open bits only and are not affected.
27. The SPDZ-wise engine's `input` shares the value with the semi-honest ABY3 input and only then multiplies it by the MAC key
    (spdzwise/protocol.rs:795-818): a malicious party adds a d of its choice to an honest party's input, and the MAC is the MAC of
    the shifted value, so no later check can notice (`C64_input_refuted`).  `aby3_mal`'s input compares echoes and is not affected
    (C58).  The iris programs read their shares from a dealer (`share`) and are not affected.

## 6. Notes on the model of Swift3's verify

* The provers' randomness and coin shares come from a generator seeded by the operating system (`from_entropy`): the parameter `ent`
  (one arbitrary generator state per party and check, allowed to depend on the party's state).
* The loop that redraws a challenge hitting an evaluation point is a recursion with `fuel`.  The theorems hold for every fuel.  A
  run of the code whose loop ends agrees with the model for all large enough fuels; with too little fuel the model keeps the last
  challenge, a case the theorems cover as well (more than the code needs).
* bincode serialisation of proofs: a length as 8 bytes, then the elements; the parser is total with an explicit error.

What `C48_*` assume and leave open: the cheater must open the same coin share to both honest parties (`firstn 32 o1 = firstn
32 o2`); the code does not enforce this (finding 10, `C40_agreement_refuted`).  Probability is expressed by counting the
points, weights and common elements for which a fixed proof of a wrong gate is accepted.  That the common elements can be
known before the gates are evaluated is finding 14 (C44); `C48_*_sound` therefore quantifies over them explicitly
(`common_elements ... = replaced j theta ts`).  `C48_order` is about honest parties: the coin share leaves a party only when
both proofs and both commitments have arrived there.

## 7. What C50 and C51 assume

* Randomness is perfect: the generators are replaced by tapes of independent uniform bits (`tape` in `ViewSpec.v`, one of
  the instances of the generator interface all engine definitions are parametric in).  The code uses ChaCha12; its
  pseudo-randomness is not modelled.
* One party is curious, all three follow the protocol.  The set-up has given every pair of parties one common generator
  (`deal`); that the third party cannot know it follows from the key exchange going over a private channel (assumed).
* The view is everything the party receives (in order) together with its own generators and final shares.  Message timing
  and lengths are not random: the coupling also shows the number of messages is the same.
* "The same distribution" is stated without probabilities: for uniformly random hidden bits a one-to-one correspondence
  between the choices that produce a view is equality of the probabilities (`C50_distribution`).
