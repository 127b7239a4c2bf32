{"id": "C01", "title": "Ring element byte codec is a bijection", "statement": "Writing a ring element of any supported width (1,8,16,32,64,128 bits) and reading it back returns the same element and consumes exactly the bytes that were written; serialising a vector and parsing it with the right element count returns the vector; a byte string of any other length is rejected with an error and yields no elements.", "quantifier": "all widths, all ring values, all vectors of any length, all byte strings", "why_tests_cant": "2^128 values and unboundedly many vector lengths and byte strings", "anchors": ["iris-mpc/src/types/int_ring.rs: add_to_bytes, from_bytes_mut", "iris-mpc/src/aby3/utils.rs: ring_vec_to_bytes, ring_vec_from_bytes, ring_slice_to_bytes"]}
{"id": "C02", "title": "Malformed Bit bytes never crash a receiver", "statement": "A byte string received from the network that is not a valid encoding (in particular a Bit byte other than 0 or 1) makes the receiving call return an error instead of panicking.", "quantifier": "all received byte strings, all widths, both the vector and the iterator parser", "why_tests_cant": "the set of malformed messages a corrupted peer can send is unbounded", "anchors": ["iris-mpc/src/aby3/utils.rs: ring_vec_from_bytes, ring_iter_from_bytes, RingBytesIter::next", "iris-mpc/src/types/int_ring.rs: Bit::from_bytes_mut"]}
{"id": "C03", "title": "Modular inverse", "statement": "inverse() of an odd ring element of width up to 64 bits returns y with x*y = 1 in the ring; for every even element it returns NoInverseError; it always terminates.", "quantifier": "all ring elements of every width for which the function is implemented", "why_tests_cant": "2^64 elements, termination of a Euclidean loop", "anchors": ["iris-mpc/src/types/mod.rs: extended_euclid_rev", "iris-mpc/src/types/int_ring.rs: inverse"]}
{"id": "C04", "title": "Iris code bit accessors form an array of 12800 independent bits", "statement": "After set_bit(i,v), get_bit(i)=v and every other bit is unchanged; flip_bit(i) inverts bit i only; an out-of-range index panics; the Bits iterator yields exactly get_bit(0..12800) in order; count_ones counts the set positions; & and ^ act bitwise.", "quantifier": "all iris codes, all indices, all operation sequences", "why_tests_cant": "2^12800 codes", "anchors": ["plain-reference/src/lib.rs: IrisCodeArray::{set_bit,get_bit,flip_bit,count_ones,bits}, Bits, BitAnd, BitXor"]}
{"id": "C05", "title": "Plain matching rule", "statement": "is_close(a,b) panics exactly when fewer than 70% of the 12800 positions are valid in both masks; otherwise it returns true exactly when the number of jointly valid differing positions is strictly less than floor(0.34 * number of jointly valid positions), the f64 arithmetic introducing no rounding error for any mask weight. It is symmetric, and a sufficiently unmasked code is close to itself.", "quantifier": "all pairs of iris codes and masks", "why_tests_cant": "2^51200 pairs, rounding behaviour of f64 at every mask weight", "anchors": ["plain-reference/src/lib.rs: IrisCode::is_close, MASK_THRESHOLD, MATCH_THRESHOLD_RATIO"]}
{"id": "C06", "title": "Schedule independence and deadlock freedom of the three-party execution", "statement": "Three deterministic parties communicating over point-to-point FIFO channels reach the same final results under every interleaving of their sends and receives; if one interleaving terminates then none deadlocks or diverges, and all take the same number of steps.", "quantifier": "all party programs, all message contents, all interleavings", "why_tests_cant": "the number of interleavings is exponential; a test run exercises one", "anchors": ["iris-mpc/src/traits/network_trait.rs", "iris-mpc/src/traits/test_network.rs", "iris-mpc/src/aby3/network.rs", "mpc-net/src/channel.rs"]}
{"id": "C07", "title": "ABY3 share / open round trip", "statement": "Opening the three shares produced by share(x) returns x at all three parties, whatever randomness is used and whatever the schedule; input(x) by any one of the three parties followed by open also returns x; open_many and open_bit likewise.", "quantifier": "all ring values, all randomness, all schedules, all choices of the input party", "why_tests_cant": "quantifies over randomness and schedules", "anchors": ["iris-mpc/src/aby3/protocol.rs: share,input,open,open_many,open_bit,open_bit_many"]}
{"id": "C08", "title": "A single ABY3 / Swift3 share reveals nothing", "statement": "For each party, as the dealer's randomness ranges over all values, every possible value of that party's share of x occurs equally often, and the multiset of shares is the same for any two secrets x, y.", "quantifier": "all secrets, all parties, all dealer randomness", "why_tests_cant": "a statement about the whole distribution of the dealer's randomness", "anchors": ["iris-mpc/src/aby3/protocol.rs: share", "iris-mpc/src/swift3/protocol.rs: share"]}
{"id": "C09", "title": "Linear share operations are exact and local", "statement": "add, sub, neg, add_const, sub_const, mul_const and vector versions transform shares of x and y into shares of x+y, x-y, -x, x+c, x-c, x*c modulo 2^K without communication; xor, shift-left and complement do the same bitwise for binary shares.", "quantifier": "all shares (not only freshly dealt ones), constants, widths", "why_tests_cant": "unbounded share triples", "anchors": ["iris-mpc/src/aby3/share.rs", "iris-mpc/src/aby3/vecshare.rs", "iris-mpc/src/swift3/share.rs", "iris-mpc/src/spdzwise/share.rs"]}
{"id": "C10", "title": "ABY3 multiplication and dot products", "statement": "mul, mul_many, dot, dot_many and masked_dot_many on shares of x and y yield shares of the (masked) product/inner products modulo 2^K at every party, under every schedule and all correlated randomness; mismatched lengths give InvalidSizeError at every party before any message is sent.", "quantifier": "all vectors of any length, share representations, PRF states in sync, schedules", "why_tests_cant": "unbounded lengths, randomness, schedules", "anchors": ["iris-mpc/src/aby3/protocol.rs: mul,mul_many,dot,dot_many,masked_dot_many"]}
{"id": "C11", "title": "Correlated randomness stays synchronised", "statement": "After PRF setup the three parties hold pairwise equal keys (each party's second key is its predecessor's first key), zero shares sum to zero, and every protocol operation advances the generators in lock step so that this is still true after any sequence of operations.", "quantifier": "all seeds, all operation sequences", "why_tests_cant": "unbounded histories of operations", "anchors": ["iris-mpc/src/aby3/random/prf.rs", "iris-mpc/src/aby3/protocol.rs: setup_prf", "iris-mpc/src/swift3/random/prf.rs"]}
{"id": "C12", "title": "Binary gates", "statement": "and, and_many, or, or_many, xor on binary shares yield shares of the bitwise and/or/xor at every party.", "quantifier": "all share triples, widths, vector lengths, schedules, randomness", "why_tests_cant": "unbounded", "anchors": ["iris-mpc/src/traits/binary_trait.rs: or,or_many", "iris-mpc/src/aby3/protocol.rs: and,and_many"]}
{"id": "C13", "title": "Arithmetic to binary conversion", "statement": "arithmetic_to_binary (and _many) turns an arithmetic sharing of x modulo 2^K into a binary sharing of exactly the bits of x; the Kogge-Stone adder computes addition modulo 2^K for every width.", "quantifier": "all x, all share representations, all K in {8,16,32,64,128}", "why_tests_cant": "2^(3K) share triples and carry chains", "anchors": ["iris-mpc/src/traits/binary_trait.rs: binary_add_3, binary_add_3_many", "iris-mpc/src/aby3/protocol.rs: a2b_pre, arithmetic_to_binary"]}
{"id": "C14", "title": "Most significant bit extraction", "statement": "get_msb and get_msb_many return binary shares of bit K-1 of each shared value; the bit-sliced batched adder, processing 128 values per word, agrees with the single value computation for every batch length (at least one value).", "quantifier": "all vectors of any positive length, values, shares, schedules", "why_tests_cant": "batch lengths that are not multiples of 128 and all carry patterns", "anchors": ["iris-mpc/src/aby3/protocol.rs: get_msb,get_msb_many,msb_adder_many", "iris-mpc/src/aby3/utils.rs: transpose_pack_u128"]}
{"id": "C15", "title": "Bit-matrix transposition", "statement": "The transposed packing places bit i of the j-th input value at bit (j mod 128) of word j/128 of row i, padding bits being zero, for every number of inputs; xor-packing is the bitwise xor of rows.", "quantifier": "all vectors and widths", "why_tests_cant": "unbounded lengths", "anchors": ["iris-mpc/src/aby3/utils.rs: transpose_pack_u128, transposed_pack_xor, transposed_pack_xor_assign, transpose_shared_input"]}
{"id": "C16", "title": "OR reduction", "statement": "reduce_binary_or of any non-empty vector of bit shares yields a share of the OR of all bits, for any vector length and any chunk size of at least one.", "quantifier": "all vector lengths, bit values, chunk sizes >= 1, schedules", "why_tests_cant": "unbounded lengths and chunk sizes; tree shapes", "anchors": ["iris-mpc/src/aby3/protocol.rs: pack,reduce_or_u8,reduce_binary_or", "iris-mpc/src/aby3/utils.rs: or_tree_bounded, split"]}
{"id": "C17", "title": "Threshold comparison in the ring never wraps", "statement": "For every admissible width (IrisProtocol::new accepts exactly K > 14), the most significant bit of (hamming distance - threshold) computed modulo 2^K is one exactly when the masked hamming distance is below the threshold; new rejects narrower rings with an error.", "quantifier": "all codes and masks, all admissible widths", "why_tests_cant": "wrap-around for extreme inputs", "anchors": ["iris-mpc/src/iris/protocol.rs: new, masked_hamming_distance_post, get_cmp_diff, compare_threshold"]}
{"id": "C18", "title": "iris_in_db answers the plain question (ABY3, semi-honest)", "statement": "With an honest run, iris_in_db on shares of the query code and of every database code returns, at all three parties, true exactly when some database entry is close to the query by the plain matching rule, provided every combined mask has weight >= 70%.", "quantifier": "all queries, databases of any positive size, share representations, randomness, chunk sizes, schedules", "why_tests_cant": "unbounded databases, randomness and schedules", "anchors": ["iris-mpc/src/iris/protocol.rs: iris_in_db, compare_iris_many"]}
{"id": "C19", "title": "Chunk size does not affect the answer", "statement": "For two positive chunk sizes iris_in_db returns the same answer; chunk size 0 panics.", "quantifier": "all chunk sizes", "why_tests_cant": "unbounded", "anchors": ["iris-mpc/src/iris/protocol.rs: iris_in_db"]}
{"id": "C20", "title": "Invalid database queries are never answered", "statement": "iris_in_db with an empty database or with different numbers of codes and masks returns InvalidSizeError without sending a message, for every engine; a query for which some combined mask has weight below 70% never delivers an answer, whatever messages arrive; if that mask is in the first chunk the ABY3 engine returns MaskHWError without sending a message (in a later chunk the error comes after the earlier chunks' messages).", "quantifier": "all inputs with mismatching sizes or low masks", "why_tests_cant": "unbounded sizes and positions of the offending mask", "anchors": ["iris-mpc/src/iris/protocol.rs: iris_in_db, combine_masks"]}
{"id": "C21", "title": "Joint message passing detects inconsistent messages", "statement": "In jmp, an honest receiver's verification succeeds in an honest run, and whenever it succeeds the sequence of values received from one sender is exactly the sequence the second sender hashed, unless the two distinct transcripts collide under the hash.", "quantifier": "all message sequences, all malicious senders, all interleavings of sends", "why_tests_cant": "adversarial messages", "anchors": ["iris-mpc/src/aby3_mal/protocol.rs: jmp_send,jmp_queue,jmp_receive,jmp_verify", "iris-mpc/src/spdzwise/protocol.rs: jmp_*", "iris-mpc/src/swift3/protocol.rs: jmp_*"]}
{"id": "C22", "title": "Commitments", "statement": "A commitment opens correctly with its own value and randomness; if one commitment opens to two different (value, randomness) pairs the hash has a collision on two distinct explicit inputs.", "quantifier": "all values and randomness", "why_tests_cant": "adversarial openings", "anchors": ["iris-mpc/src/commitment/mod.rs"]}
{"id": "C23", "title": "Malicious-secure ABY3 computes the same function", "statement": "In an honest run the malicious ABY3 engine's input, mul (via Beaver triples and sacrifice), dot, and, get_msb, reduce_binary_or and open give the plain results and its consistency checks pass, for every ring type whose verification type has the 40 spare bits the code demands (Bit, u8, u16, u64); for the others a product panics before any message is sent.", "quantifier": "all values, randomness, schedules", "why_tests_cant": "unbounded randomness and histories", "anchors": ["iris-mpc/src/aby3_mal/protocol.rs"]}
{"id": "C24", "title": "Sacrifice and zero checks are complete and sound up to the challenge", "statement": "The opened sacrifice value of a correct triple pair is zero for every challenge. With two honest parties and an arbitrary third: if an alleged product is wrong in its K low bits, then at most 2^(K-1) of the 2^U challenges let both honest parties finish, unless strings they hashed collide. A zero check accepted by an honest party means every checked value is zero, unless the hashed strings collide.", "quantifier": "all triples, errors and challenges", "why_tests_cant": "adversarial errors", "anchors": ["iris-mpc/src/aby3_mal/protocol.rs: get_mul_triple, dot_sacrifice"]}
{"id": "C25", "title": "SPDZ-wise MAC invariant", "statement": "Every value produced by the SPDZ-wise engine from authenticated inputs carries a MAC equal to the MAC key times the value in the extended ring; the opened value truncated to K bits is the plain result; the batched MAC check accepts in an honest run.", "quantifier": "all operation sequences, values, keys, randomness", "why_tests_cant": "unbounded histories", "anchors": ["iris-mpc/src/spdzwise/protocol.rs: input,share,add,sub,mul,dot,open,verify_macs", "iris-mpc/src/spdzwise/share.rs"]}
{"id": "C26", "title": "SPDZ-wise MAC check rejects additive attacks except for explicit keys", "statement": "If an additive error d is injected into a value share (and e into its MAC) the batched check passes only if an explicit linear relation between d, e, the secret key and the secret coefficients holds.", "quantifier": "all errors, keys, coefficients", "why_tests_cant": "adversarial errors", "anchors": ["iris-mpc/src/spdzwise/protocol.rs: verify_macs, hash_based_zero_verify"]}
{"id": "C27", "title": "AND-triple pools keep bit triples intact", "statement": "After any sequence of pushes of packed words of any widths up to 128 bits, the pool contains exactly the pushed bit triples (a, b and c of a gate stay at the same position, positions depend only on the widths, nothing is lost, duplicated or torn apart), its reported length is the number of 128-bit words needed, and taking everything out yields them padded with zero triples. From a pool of whole words, a request for n words yields the first n and leaves the rest in order, or is an error exactly when there are fewer than n; appending a pool of whole words keeps both in order.", "quantifier": "all operation sequences", "why_tests_cant": "unbounded histories and alignments", "anchors": ["iris-mpc/src/spdzwise/triples.rs"]}
{"id": "C28", "title": "Permutation of triples is a permutation", "statement": "The coin-driven shuffle of the triples outputs a permutation of its input (no triple lost, duplicated or torn apart), for every coin outcome, every size and whatever messages arrive; it is a Fisher-Yates shuffle, so every arrangement is reached by exactly one sequence of picks; in an honest run the three parties apply the same permutation.", "quantifier": "all sizes, all coins", "why_tests_cant": "n! permutations", "anchors": ["iris-mpc/src/spdzwise/protocol.rs: permute, swap_bit, generate_triples"]}
{"id": "C29", "title": "Precomputed triples suffice", "statement": "A SPDZ-wise iris_in_db call never fails for lack of precomputed AND triples.", "quantifier": "all database sizes, chunk sizes and histories of earlier calls", "why_tests_cant": "depends on alignment of chunk size, database size and history", "anchors": ["iris-mpc/src/spdzwise/protocol.rs: precompute_and_triples, verify_triple_queue", "iris-mpc/src/iris/protocol.rs: msb_and_gates, iris_in_db"]}
{"id": "C30", "title": "Swift3 sharing, multiplication and opening", "statement": "The Swift3 engine's share/input/open, linear operations, mul, dot, and, msb and OR-reduction give the plain results at every party in an honest run, the jmp checks pass.", "quantifier": "all values, randomness, schedules", "why_tests_cant": "unbounded", "anchors": ["iris-mpc/src/swift3/protocol.rs", "iris-mpc/src/swift3/share.rs"]}
{"id": "C31", "title": "Complement of a binary share", "statement": "The Not operator on a binary share (all engines) yields a share of the bitwise complement.", "quantifier": "all share triples of all widths and engines", "why_tests_cant": "all values", "anchors": ["iris-mpc/src/aby3/share.rs: Not", "iris-mpc/src/swift3/share.rs: Not"]}
{"id": "C32", "title": "Coin tossing and key set-up agreement", "statement": "After the coin protocol all parties hold the same coin, the xor of all contributions; with one arbitrary party the two honest parties agree once verification passes (or their hashed strings collide). Key set-up gives neighbours equal keys; a party finishes it only if the openings it received match the commitments received before.", "quantifier": "all contributions, schedules, adversarial openings", "why_tests_cant": "adversarial messages", "anchors": ["iris-mpc/src/aby3_mal/protocol.rs: coin, setup_prf", "iris-mpc/src/commitment/mod.rs"]}
{"id": "C33", "title": "Lagrange interpolation over GF(2^64) and over Galois rings", "statement": "Interpolating values at points that are pairwise different (over Galois rings: different modulo 2) gives a polynomial that takes exactly those values, is the only one of that size, and is linear in the values.", "quantifier": "all point sets, all values, all sizes", "why_tests_cant": "unbounded sizes, field of 2^64 elements", "anchors": ["iris-mpc/src/dzkp/polynomial.rs: lagrange_polys, interpolate, evaluate"]}
{"id": "C34", "title": "Polynomial division", "statement": "Sums, differences and products have the coefficients of school algebra; long_division returns quotient and remainder with self = q*other + r and r shorter than other whenever the last coefficient of other is odd; if it is even (and not zero) or other is zero, an error; it terminates.", "quantifier": "all polynomials over all rings Z/2^K", "why_tests_cant": "unbounded degrees", "anchors": ["iris-mpc/src/dzkp/polynomial.rs: long_division, Rem, Mul, Add, Sub"]}
{"id": "C35", "title": "Distributed zero-knowledge proofs of multiplication are complete", "statement": "For every set of correctly computed local products, any challenge, any prover randomness, the two verifiers' combined check accepts.", "quantifier": "all batches of ANDs / multiplications / dot products, all randomness and challenges", "why_tests_cant": "unbounded batches and randomness", "anchors": ["iris-mpc/src/dzkp/and_proof.rs", "iris-mpc/src/dzkp/mul_proof.rs", "iris-mpc/src/dzkp/dot_proof.rs"]}
{"id": "C36", "title": "Managed channels deliver in order, exactly once", "statement": "Requests submitted to a managed channel are served in submission order: the i-th receive call gets the i-th message the peer sent, among those within the codec's 8 MiB frame limit; none of them is lost or duplicated while the connection is alive, every send and receive call is eventually answered, and a send is answered with an error exactly when its message exceeds the limit (such a message is not delivered). After a break the remaining receive calls fail.", "quantifier": "all interleavings of submissions and I/O completions", "why_tests_cant": "concurrency", "anchors": ["mpc-net/src/channel.rs: ChannelHandle"]}
{"id": "C37", "title": "Network configuration check", "statement": "check_config succeeds exactly when my_id occurs among the parties and all party ids are distinct. The three-party network's configuration is accepted exactly when the ids are 0, 1, 2 in some order and my_id is one of them.", "quantifier": "all configurations", "why_tests_cant": "unbounded party lists", "anchors": ["mpc-net/src/config.rs: check_config"]}
{"id": "C38", "title": "Every engine gives the plain answer to iris_in_db", "statement": "In an honest run, whatever iris_in_db returns on the plain, ABY3, malicious ABY3, SPDZ-wise and Swift3 engines is the same answer: true exactly when some database entry is close to the query. The first four always answer (SPDZ-wise for the chunk sizes of C29); on Swift3 a party may instead stop with an error in the final verification (C47).", "quantifier": "all queries, databases, randomness, schedules", "why_tests_cant": "unbounded", "anchors": ["iris-mpc/src/iris/protocol.rs", "iris-mpc/src/traits/mpc_trait.rs"]}
{"id": "C39", "title": "Outcome of a SPDZ-wise session", "statement": "A session of any number of iris_in_db calls on one new SPDZ-wise engine answers every call with the plain answer exactly when an explicit word count (words of AND gates evaluated, words of triples requested, batches of 2^13 words, leftovers carried from call to call) works out; otherwise all three honest parties stop with a panic, under every schedule.", "quantifier": "all sequences of valid calls (any database sizes, chunk sizes), all generators, hash functions, seeds and keys, all schedules", "why_tests_cant": "the outcome depends on unbounded combinations of database and chunk sizes and on the whole history of calls", "anchors": ["iris-mpc/src/spdzwise/protocol.rs: precompute_and_triples, verify_triple_queue, generate_triples", "iris-mpc/src/iris/protocol.rs: iris_in_db"]}
{"id": "C40", "title": "Swift3 set-up and coins", "statement": "An honest Swift3 set-up leaves neighbouring parties with a common generator and all three with one more; a coin toss gives every party the xor of the three contributions. A party finishes either only if every opening it received matches a commitment it had received before revealing its own contribution. Two honest parties that finish a coin toss hold the same coin.", "quantifier": "all seeds, commitment randomness, schedules and hash functions; arbitrary behaviour of the other parties for the checks", "why_tests_cant": "tests only run honest parties with a few seeds; agreement must hold for every strategy of the third party", "anchors": ["iris-mpc/src/swift3/protocol.rs: setup_prf_from_seed, coin, send_seed_commitment, send_seed_opening"]}
{"id": "C41", "title": "An input provider cannot equivocate (malicious ABY3)", "statement": "When a party provides an input in the malicious ABY3 protocol and the two other parties are honest and both finish, the provider has sent both the same value, the two honest shares are consistent, and they fix the shared value to be the joint randomness plus that value; a provider sending different values is detected.", "quantifier": "all behaviours of the provider, all ring widths, generators, states and schedules", "why_tests_cant": "tests only run an honest provider; the check must hold against every message the provider could send", "anchors": ["iris-mpc/src/aby3_mal/protocol.rs: input, reconstruct_id"]}
{"id": "C42", "title": "Swift3 joint messages: wrong values are detected", "statement": "In Swift3 a value known to two parties is sent to the third by one and vouched for by the other. Whatever a malicious party sends, an honest party whose verification succeeds has received, since the previous verification, exactly the bytes the other honest party vouched for, unless the two strings collide under the hash. Among honest parties all values arrive in order and no verification fails.", "quantifier": "all sequences of sends, vouched-for values, receptions and verifications, any widths; any program of the third party; all schedules", "why_tests_cant": "arbitrary adversaries, histories and interleavings", "anchors": ["iris-mpc/src/swift3/protocol.rs: jmp_send, jmp_queue, jmp_receive, jmp_verify"]}
{"id": "C43", "title": "A wrong gate is caught by the zero-knowledge proof", "statement": "If one of the AND gates, multiplications or inner products covered by a Swift3 proof is wrong, then, except for one value (over Galois rings: one class modulo 2) of its combination coefficient, whatever proof shares the verifiers receive: either at most 2m values (classes) of the evaluation challenge are accepted, or for given other challenges at most one value (class) of one beta is accepted. Proof shares of another size are refused.", "quantifier": "all batches of any size, all wrong gates, all proofs (adversarial), all challenges", "why_tests_cant": "quantifies over every cheating prover and counts accepted challenges among 2^64", "anchors": ["iris-mpc/src/dzkp/and_proof.rs: verify_pi, combine_verifications", "iris-mpc/src/dzkp/mul_proof.rs", "iris-mpc/src/dzkp/dot_proof.rs", "iris-mpc/src/swift3/protocol.rs: and_verify, mul_verify, dot_verify"]}
{"id": "C44", "title": "Combination coefficients known in advance make the AND proof unsound", "statement": "The soundness of the AND proof needs coefficients that are unpredictable when the gates are computed: for every choice of coefficients and at least 65 rows there is a set of gate outputs, computable from the coefficients, whose inversion is accepted under every challenge. The code derives the coefficients from the generator known to all three parties.", "quantifier": "all coefficient vectors, all batches with at least 65 rows, all challenges", "why_tests_cant": "an attack on every coefficient vector; needs linear dependence of any 65 vectors of 64 bits", "anchors": ["iris-mpc/src/swift3/protocol.rs: and_verify (theta_rng from prf.gen_p)", "iris-mpc/src/dzkp/and_proof.rs"]}
{"id": "C45", "title": "GF(2^64) arithmetic is a field", "statement": "Multiplication of GF2p64 elements is the carry-less product reduced modulo x^64+x^4+x^3+x+1; it is commutative, associative, distributes over addition, has no zero divisors, and inverse() inverts every nonzero element.", "quantifier": "all triples of 64-bit elements", "why_tests_cant": "2^192 triples; irreducibility of the modulus is a statement about all factorisations", "anchors": ["iris-mpc/src/dzkp/gf2p64.rs"]}
{"id": "C46", "title": "Moduli of the Galois rings are irreducible and inversion is correct", "statement": "For every degree from 40 to 63 the table entry has that degree and is irreducible modulo 2; other degrees panic. mod_inverse inverts every polynomial that is not zero modulo 2.", "quantifier": "all table entries, all ring elements, K in {8,16,32}", "why_tests_cant": "statement about all factorisations and all ring elements", "anchors": ["iris-mpc/src/dzkp/irreducible_polys.rs", "iris-mpc/src/dzkp/polynomial.rs: mod_inverse", "iris-mpc/src/dzkp/gf2p64.rs: p64_extended_euclid_rev, inv_mod"]}
{"id": "C47", "title": "Swift3 verification of an honest run", "statement": "When three honest Swift3 parties call verify after any honest operations: the check of the AND gates always succeeds; the check of multiplications and of inner products ends, for each party, with the verdict of the proof checks (C35, C43) on its next neighbour's proof, for proofs of the gates the three registered, and with the error DZKP verification otherwise; batches above the size limits and ring types of 64 bits and more make every party panic; gates stay registered after verification. The whole call ends in every schedule, with all three returning or with some party stopped by an error.", "quantifier": "all registered gates that honest operations lead to, all generators and sources of entropy, all batch sizes, all schedules", "why_tests_cant": "all gate lists, all randomness and all interleavings of a protocol with six proofs in flight; the rejection of honest proofs is rare (about one in 2^K)", "anchors": ["iris-mpc/src/swift3/protocol.rs: and_verify, mul_verify, dot_verify, verify", "iris-mpc/src/dzkp/and_proof.rs", "iris-mpc/src/dzkp/mul_proof.rs", "iris-mpc/src/dzkp/dot_proof.rs"]}
{"id": "C48", "title": "Swift3 verify against a malicious party", "statement": "If two honest Swift3 parties end the verification of the AND gates, multiplications or inner products although the third party deviates arbitrarily, (on its own or as a part of a whole verify, which ends only if it was ended for every kind of gate that was registered) then they have checked the proof the third party sent them for the gates they registered, with weights and a point derived from a coin that contains shares fixed by the honest parties and shown only after proofs and commitments arrived. If one of the third party's gates is wrong, such a proof is accepted only for at most 2m points, or one class of one weight, or one class of one common element (given that the third party opens the same coin share to both). A registered gate counts as wrong exactly if the value received differs from what the shares and masks demand.", "quantifier": "all programs of the third party, all schedules, all registered gates, generators and entropy, K in {8,16,32} for arithmetic gates", "why_tests_cant": "arbitrary adversaries; soundness is a statement about all proofs and all coins", "anchors": ["iris-mpc/src/swift3/protocol.rs: verify, and_verify, mul_verify, dot_verify", "iris-mpc/src/swift3/protocol.rs: register_and, register_mul, register_dot", "iris-mpc/src/dzkp"]}
{"id": "C49", "title": "Swift3 verification discloses nothing about the gates", "statement": "The proof share a verifier is sent, and the message one verifier sends to the other, have the same distribution whatever the (correct) gates of the prover are that agree with the receiver's own shares: for every pair of gate lists there is a shift of the prover's random values that makes the messages equal, for all challenges; every explicit proof share comes from exactly one seed share.", "quantifier": "all correct gate lists with the receiver's shares fixed, all coefficients, weights, prover randomness and seed shares, all evaluation points the code admits", "why_tests_cant": "a statement about distributions over all randomness and all pairs of secrets; tests only see single messages", "anchors": ["iris-mpc/src/dzkp/and_proof.rs: prove, verify_pi", "iris-mpc/src/dzkp/mul_proof.rs: prove, verify_pi", "iris-mpc/src/dzkp/dot_proof.rs: prove, verify_pi", "iris-mpc/src/swift3/protocol.rs: get_and_r, get_mul_r"]}
{"id": "C50", "title": "A party of the semi-honest engine learns only what is opened", "statement": "Two honest executions of the same sequence of calls of the public interface on ABY3 that differ only in the values the other two parties input, and in which the same values are opened, look the same to a party: whatever its own generators produce, the choices of the hidden random bits in the two executions correspond one to one such that it receives exactly the same messages, in the same order, and ends with the same shares. Single calls (input, mul, dot, get_msb_many, reduce_binary_or) look the same for any shares of the others, even inconsistent ones.", "quantifier": "all programs over the interface, all pairs of inputs of the others with equal openings, all parties, all randomness, all schedules, all widths K >= 3", "why_tests_cant": "a statement about the distribution of everything received, over all pairs of secrets and all randomness; a missing or reused mask leaves every result correct", "anchors": ["iris-mpc/src/aby3/protocol.rs: input, mul, dot, dot_many, masked_dot_many, get_msb, get_msb_many, binary_or, reduce_binary_or, open, open_many, open_bit, open_bit_many", "iris-mpc/src/aby3/random/prf.rs: gen_zero_share, gen_binary_zero_share", "iris-mpc/src/traits/binary_trait.rs"]}
{"id": "C51", "title": "An iris query on the semi-honest engine discloses only the answer", "statement": "Two honest iris_in_db executions on ABY3 with the same public masks and the same answer, of which a party holds the same input shares, look the same to that party: it learns nothing about the query code, the database codes, the distances, or which and how many entries matched.", "quantifier": "all well-formed queries and databases of any size with enough valid positions, all chunk sizes, all parties, all randomness, all schedules, all widths above 14 bits", "why_tests_cant": "a statement about distributions over all randomness and all pairs of databases", "anchors": ["iris-mpc/src/iris/protocol.rs: iris_in_db, compare_iris_many, masked_hamming_distance_many, compare_threshold_many", "iris-mpc/src/aby3/protocol.rs"]}
{"id": "C52", "title": "The shipped programs, from creating the sample data to the printed answer", "statement": "create_sample_data always succeeds and stores irises that the sampler produced, with share columns from which the three parties read shares of exactly these codes; the examples aby3, aby3_mal, swift3 and spdzwise, run on such a file by three honest parties, all print what the plain find_match search over the same file and query finds (SPDZ-wise: provided the AND triples suffice, which they do for the default chunk size; Swift3: unless a party stops with an error); where the plain search panics because a mask is too small, no party prints an answer; a SPDZ-wise file created twice is refused; unknown party numbers are refused.", "quantifier": "all generators and seeds, all numbers of items and of invocations of create_sample_data, both query modes, all chunk sizes, any number of runs, all schedules of the messages", "why_tests_cant": "all sampled irises, all seeds and all interleavings of three processes", "anchors": ["plain-reference/src/lib.rs: random, get_similar_iris", "plain-reference/src/bin/find_match.rs, create_sample_data_plain.rs", "iris-mpc/src/bin/create_sample_data.rs", "iris-mpc/examples/aby3.rs, aby3_mal.rs, swift3.rs, spdzwise.rs: main, read_db, get_iris_share"]}
{"id": "C53", "title": "Setting up the network", "statement": "If every process has a complete configuration (all processes, in any order, under addresses that lead to them and names their certificates are valid for), then however their actions interleave the set-up never deadlocks, no assertion in it fails, and it ends within a bounded number of actions with exactly one channel between any two processes, each end held by the process meant; three processes get from it the ring in which what a party sends to the next one is what the next one receives from its predecessor. With wrong configurations or faults, whoever gets channels has them with the party meant. Strangers who can reach a server's port are not kept out (negative), and a configuration of one party panics (negative).", "quantifier": "all numbers of processes, all ids below 2^32, all orders of the configuration files, all interleavings, faults at any time, handshakes completing before or after accept", "why_tests_cant": "the interleavings of n processes dialling and accepting, and all configuration orders; a race in the accept loop shows only under some schedules", "anchors": ["mpc-net/src/lib.rs: MpcNetworkHandler::establish, get_custom_channels, get_byte_channels", "mpc-net/src/config.rs: NetworkConfig, check_config", "iris-mpc/src/aby3/network.rs: Aby3Network::new"]}
{"id": "C54", "title": "However processes end, a returned answer is right and nobody is left waiting", "statement": "When parties close their connections as soon as they have their answer (finish), stop with errors, or are killed at any point: every party that still returns a value returns the value of the undisturbed run; if nobody is killed the only possible error is the lost connection; the run ends within a bounded number of actions and at its end every party has returned or stopped with an error. If a shutdown delivers everything that was sent before it closes, and nobody is killed, every party returns the value.", "quantifier": "all protocols of all engines that have an honest run (C01 to C52), all schedules, all crash points of any of the parties, all amounts of undelivered data lost on closing", "why_tests_cant": "crash points and loss of undelivered data at every place of every schedule", "anchors": ["mpc-net/src/lib.rs: MpcNetworkHandler::shutdown", "iris-mpc/src/aby3/network.rs: Aby3Network::send, receive, shutdown", "mpc-net/src/channel.rs: ChannelHandle, ChannelTasks", "iris-mpc/src/aby3/protocol.rs: finish"]}
{"id": "C55", "title": "If nobody fails before, everybody gets the answer", "statement": "If three honest parties run a query and close their connections with finish when they have their answer, then all of them return the answer. (False of the code: finish closes the connections without waiting for what it has sent to be delivered. Proved instead: with this shutdown all parties always return the answer exactly if no party can be done while a message it sent is under way, and otherwise there is a run in which one party returns the right answer and another stops with an I/O error; the latter is the case for every iris query on ABY3, malicious ABY3 and SPDZ-wise, and for opening a bit on Swift3. With a shutdown that waits for delivery the claim holds.)", "quantifier": "all queries and databases, all generators, all schedules", "why_tests_cant": "depends on whether the last packets leave before the process exits", "anchors": ["mpc-net/src/lib.rs: MpcNetworkHandler::shutdown", "iris-mpc/src/aby3/network.rs: Aby3Network::send_next_id, send_prev_id, shutdown", "iris-mpc/src/iris.rs: iris_in_db", "iris-mpc/src/aby3/protocol.rs, aby3_mal/protocol.rs, spdzwise/protocol.rs, swift3/protocol.rs: open_bit, finish"]}
{"id": "C56", "title": "Wrong AND triples do not get past the check", "statement": "Generating AND triples in the SPDZ-wise engine: if two honest parties accept a batch while the third sends arbitrary bytes, their shares of the batch are consistent, the products are wrong exactly where the third party's message differs from the honest one, and the pattern of wrong gates among those kept is the one the jointly drawn shuffle produces from those sacrificed, the shuffle being drawn after the third party has committed to its message; so a batch with a wrong gate is accepted for at most one shuffle in N, N being the number of gates compared (over a million), unless the hash function collides. Verifying the AND gates of a computation: if both honest parties accept, the pattern of wrong gates is a prefix of the shuffled pattern of wrong triples in the pool; in particular every gate is right if the pool is.", "quantifier": "all strategies of the third party and all positions of it, all batch sizes, generators, hash functions, schedules, pools and gates", "why_tests_cant": "a test tries one cheating strategy on one seed; the claim counts the shuffles under which any strategy survives", "anchors": ["iris-mpc/src/spdzwise/protocol.rs: generate_triples, verify_triples, verify_triple_queue, permute, swap_bit, coin, jmp_verify, aby3_open_bin_many, aby3_jmp_open_bin_many, precompute_and_triples", "iris-mpc/src/spdzwise/triples.rs"]}
{"id": "C57", "title": "Malicious ABY3: wrong results of a whole computation are not opened", "statement": "Two honest parties run, on the maliciously secure ABY3 engine, any sequence of additions, subtractions, operations with constants, multiplications, inner products (single and batched) and openings, starting from correctly shared values, while the third party sends arbitrary bytes at any time. If both honest parties finish, every value they opened is the one the plain computation gives, and the same at both; otherwise the strings they hashed collide, or at some multiplication or inner product a product that is wrong modulo 2^K met one of the at most 2^(K-1) challenges, out of 2^U, that miss it, the challenge being drawn after the product was fixed.", "quantifier": "all programs, widths, sharings, generators, hash functions, positions and strategies of the third party, schedules", "why_tests_cant": "a test tries a few deviations at a few steps; values are used unverified across calls and checked later, so the claim needs an invariant over all programs and strategies", "anchors": ["iris-mpc/src/aby3_mal/protocol.rs: mul, get_mul_triple, dot, dot_many, dot_sacrifice, dot_sacrifice_many, open, open_many, add, sub, add_const, sub_const, mul_const, reconstruct, reconstruct_many, jmp_send, jmp_receive, jmp_verify, coin, zero_verify", "iris-mpc/src/traits/mpc_trait.rs"]}
{"id": "C58", "title": "Malicious ABY3: a malicious party can only choose its own inputs", "statement": "Two honest parties run, on the maliciously secure ABY3 engine, any sequence of inputs of all three parties, additions, subtractions, operations with constants, multiplications, inner products and openings, while the third party sends arbitrary bytes at any time. If both honest parties finish, every value they opened is the one the plain computation gives on their own inputs and on one fixed input value per input call of the third party; that value is determined by the shares the honest parties hold when the call returns. Otherwise the strings they hashed collide, or a wrong product met a challenge that misses it (as in C57).", "quantifier": "all programs with inputs, widths, sharings, generators, hash functions, positions and strategies of the third party, schedules", "why_tests_cant": "a malicious dealer can send inconsistent shares, equivocate in the echo, and react to later messages; only an argument over every strategy shows that all this amounts to choosing an input", "anchors": ["iris-mpc/src/aby3_mal/protocol.rs: input, reconstruct_id, jmp_send, jmp_receive, jmp_buffer, jmp_verify, mul, dot, dot_many, open, open_many", "iris-mpc/src/traits/mpc_trait.rs"]}
{"id": "C59", "title": "Malicious ABY3: comparisons and Boolean results cannot be falsified", "statement": "Two honest parties run, on the maliciously secure ABY3 engine, any sequence of calls of the engine interface: inputs of all three parties, arithmetic, inner products, most significant bits (single and batched), OR of two bits, OR of a whole vector, openings of ring values and of bits, while the third party sends arbitrary bytes at any time. If both honest parties finish, every value and every bit they opened is the one the plain computation gives on their own inputs and on one fixed input value per input call of the third party. Otherwise the strings they hashed collide, or in some sacrifice - of an arithmetic product (as in C57) or of a batch of bit triples used by the AND gates - a wrong product met a challenge that misses it.", "quantifier": "all programs over the engine interface, widths, sharings, generators, hash functions, positions and strategies of the third party, schedules", "why_tests_cant": "one comparison runs dozens of AND gates on unverified bits, each with its own triples, opened masks and delayed checks; a cheater may deviate at any of them and adapt later; no finite set of deviations covers this", "anchors": ["iris-mpc/src/aby3_mal/protocol.rs: get_mul_triple_many, and, and_many, arithmetic_to_binary, arithmetic_to_binary_many, get_msb, get_msb_many, binary_or, reduce_binary_or, open_bit, open_bit_many, pack, pack_exact", "iris-mpc/src/traits/binary_trait.rs: or, or_many, binary_add_3, binary_add_3_many", "iris-mpc/src/aby3/utils.rs: or_tree"]}
{"id": "C60", "title": "Malicious ABY3: the iris-code answer cannot be falsified", "statement": "Two honest parties run the iris-code protocol (IrisProtocol::iris_in_db) on the maliciously secure ABY3 engine with a correctly shared query and database, in batches of any size, while the third party sends arbitrary bytes at any time. If both honest parties finish, both answer the plain question: true exactly if some entry of the database is close to the query. Otherwise the strings they hashed collide, or in some sacrifice - of a batch of masked inner products or of bit triples - a wrong product met a challenge that misses it.", "quantifier": "all queries, databases, masks with enough valid bits, sharings, chunk sizes, ring widths, generators, hash functions, positions and strategies of the third party, schedules", "why_tests_cant": "the answer depends on thousands of products and AND gates, any of which the third party may spoil, now or later, depending on all it has seen; a test fixes one strategy and one database", "anchors": ["iris-mpc/src/iris/protocol.rs: IrisProtocol::iris_in_db, compare_iris_many, masked_hamming_distance_many, compare_threshold_many", "iris-mpc/src/aby3_mal/protocol.rs: masked_dot_many, dot_many, get_msb_many, reduce_binary_or, open_bit", "iris-mpc/src/traits/mpc_trait.rs: masked_dot_many"]}
{"id": "C61", "title": "Everybody inputs at once: own inputs are kept, the third party is bound", "statement": "When every party calls input_all with its own value, honest runs of the malicious ABY3, SPDZ-wise and Swift3 engines give all parties shares of the three values in the order of the party numbers, and open_many of these shares returns the three values to everybody. On malicious ABY3, if one party sends arbitrary bytes and the two honest parties finish input_all and open_many, both obtain the same list: their own values at their places and, at the third party's place, the one ring element that their shares already determine when input_all returns (or two hashed strings collide).", "quantifier": "all inputs, ring widths, generators, MAC keys, hash functions, schedules, positions and strategies of the malicious party", "why_tests_cant": "the existing tests use input_all with honest parties and random values only; what a misbehaving third party can do, and all schedules, are outside of them", "anchors": ["iris-mpc/src/aby3_mal/protocol.rs: input_all, input, open_many", "iris-mpc/src/spdzwise/protocol.rs: input_all, input, open_many", "iris-mpc/src/swift3/protocol.rs: input_all, input, open_many", "iris-mpc/src/traits/mpc_trait.rs: MpcTrait::input_all"]}
{"id": "C62", "title": "A value opened on the SPDZ-wise engine is the shared value", "statement": "Two honest parties open a secret-shared value on the SPDZ-wise engine while the third party sends arbitrary bytes. If both finish, both obtain the value that their shares determine: for ring values (open, open_many) because the MAC check passed, for bits (open_bit, open_bit_many) because the two senders of each word are compared; the only exceptions are colliding hashes and errors that satisfy the MAC relation.", "quantifier": "all engine states and shares, ring widths, generators, MAC keys, hash functions, positions and strategies of the malicious party, schedules", "why_tests_cant": "the existing tests open with three honest parties only; what a corrupted last message does to the result is not visible in them", "anchors": ["iris-mpc/src/spdzwise/protocol.rs: open, open_many, open_bit, open_bit_many, verify_macs", "iris-mpc/src/aby3/protocol.rs: open, open_many"]}
{"id": "C63", "title": "A program on the SPDZ-wise engine is what its MAC check is about", "statement": "Two honest parties run any program of linear operations, multiplications, inner products and batches of inner products on MACed shares with the SPDZ-wise engine and open a value, while the third party sends arbitrary bytes. If both finish, the third party's whole influence on the values is one additive offset per product, on the value and on its MAC; the value one honest party obtains is the program's result with these offsets; if no product is off modulo 2^K it is the plain result; otherwise the MAC check passed although a product was off, which, unless hashes collide, happens for at most a (U+1) 2^(K-1-U) fraction of the keys and coefficients (U the width of the check's ring).", "quantifier": "all programs, inputs, ring widths, generators, MAC keys, hash functions, positions and strategies of the malicious party, schedules", "why_tests_cant": "the existing tests run three honest parties; what arbitrary bytes in any message of any product do to later products, their MACs and the final check is not visible in them", "anchors": ["iris-mpc/src/spdzwise/protocol.rs: mul, dot, dot_many, add, sub, add_const, sub_const, mul_const, verify_macs, open", "iris-mpc/src/aby3/protocol.rs: mul_many, dot_many"]}
{"id": "C64", "title": "The value an honest party shares on the SPDZ-wise engine is the value computed on", "statement": "An honest party shares a value v with the SPDZ-wise engine's input call while one of the others is malicious. If both honest parties finish the call, their shares stand for v, or the MAC check before the next opening fails at one of them. (False of the code: the third party can replace v by v + d for any d of its choice, unnoticed.)", "quantifier": "all values, ring widths, generators, MAC keys, honest dealers, positions and strategies of the malicious party, schedules", "why_tests_cant": "the existing tests run three honest parties; the attack needs one wrong word in one message, and every check of the engine passes after it", "anchors": ["iris-mpc/src/spdzwise/protocol.rs: input, open, verify_macs", "iris-mpc/src/aby3/protocol.rs: input, mul"]}
