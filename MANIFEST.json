{
 "claims": [
  {
   "property": "C01",
   "status": "proved",
   "theorems": [
    "C01_element_roundtrip",
    "C01_element_canonical",
    "C01_vector_roundtrip",
    "C01_vector_canonical",
    "C01_wrong_length"
   ],
   "note": "all six widths; element, slice and iterator codecs"
  },
  {
   "property": "C02",
   "status": "partial",
   "theorems": [
    "C02_partial",
    "C02_refuted"
   ],
   "note": "false of the code: RingBytesIter panics on a Bit byte other than 0/1 (C02_refuted); C02_partial proves the vector parser, single elements and every non-Bit type never panic"
  },
  {
   "property": "C03",
   "status": "proved",
   "theorems": [
    "C03_inverse_odd",
    "C03_inverse_even",
    "C03_inverse_bit_one"
   ],
   "note": "widths 1..64; u128 inverse is todo!() in the code"
  },
  {
   "property": "C04",
   "status": "proved",
   "theorems": [
    "C04_set_get",
    "C04_flip_get",
    "C04_out_of_range",
    "C04_bits_iterator",
    "C04_count_ones",
    "C04_bitwise"
   ],
   "note": ""
  },
  {
   "property": "C05",
   "status": "proved",
   "theorems": [
    "C05_is_close",
    "C05_symmetric",
    "C05_reflexive"
   ],
   "note": "includes the f64 rounding argument, swept over all 12801 mask weights"
  },
  {
   "property": "C06",
   "status": "proved",
   "theorems": [
    "C06_confluence",
    "C06_finished",
    "C06_unique_result"
   ],
   "note": ""
  },
  {
   "property": "C07",
   "status": "proved",
   "theorems": [
    "C07_share_open",
    "C07_input_open",
    "C07_open_many",
    "C07_open_bit",
    "C07_open_bit_many",
    "C07_input_rejected",
    "C07_input_all"
   ],
   "note": ""
  },
  {
   "property": "C08",
   "status": "proved",
   "theorems": [
    "C08_aby3_share_uniform",
    "C08_aby3_dealt",
    "C08_aby3_dealt_shares",
    "C08_swift3_share_uniform",
    "C08_swift3_dealt_shares",
    "C08_aby3_fresh",
    "C08_swift3_fresh"
   ],
   "note": "single shares of ABY3 and Swift3 uniform; successive dealings use successive generator outputs"
  },
  {
   "property": "C09",
   "status": "proved",
   "theorems": [
    "C09_arithmetic",
    "C09_binary"
   ],
   "note": "ABY3 shares"
  },
  {
   "property": "C10",
   "status": "proved",
   "theorems": [
    "C10_mul",
    "C10_mul_many",
    "C10_dot",
    "C10_dot_many",
    "C10_masked_dot_many",
    "C10_sizes"
   ],
   "note": "any correlated randomness, every schedule"
  },
  {
   "property": "C11",
   "status": "proved",
   "theorems": [
    "C11_setup",
    "C11_zero_share",
    "C11_binary_zero_share",
    "C11_any_program"
   ],
   "note": "any client program of API calls"
  },
  {
   "property": "C12",
   "status": "proved",
   "theorems": [
    "C12_and",
    "C12_and_many",
    "C12_or",
    "C12_or_many"
   ],
   "note": ""
  },
  {
   "property": "C13",
   "status": "proved",
   "theorems": [
    "C13_a2b",
    "C13_a2b_many",
    "C13_adder"
   ],
   "note": ""
  },
  {
   "property": "C14",
   "status": "proved",
   "theorems": [
    "C14_get_msb",
    "C14_get_msb_many",
    "C14_empty_batch_refuted"
   ],
   "note": "non-empty batches, K>1; the empty batch panics in the code (C14_empty_batch_refuted)"
  },
  {
   "property": "C15",
   "status": "proved",
   "theorems": [
    "C15_transpose",
    "C15_shape",
    "C15_xor"
   ],
   "note": ""
  },
  {
   "property": "C16",
   "status": "proved",
   "theorems": [
    "C16_reduce_or"
   ],
   "note": ""
  },
  {
   "property": "C17",
   "status": "proved",
   "theorems": [
    "C17_no_wrap",
    "C17_new"
   ],
   "note": ""
  },
  {
   "property": "C18",
   "status": "proved",
   "theorems": [
    "C18_aby3"
   ],
   "note": ""
  },
  {
   "property": "C19",
   "status": "proved",
   "theorems": [
    "C19_chunks",
    "C19_chunk_zero"
   ],
   "note": ""
  },
  {
   "property": "C20",
   "status": "proved",
   "theorems": [
    "C20_sizes",
    "C20_low_mask",
    "C20_low_mask_first"
   ],
   "note": ""
  },
  {
   "property": "C21",
   "status": "proved",
   "theorems": [
    "C21_detect",
    "C21_values",
    "C21_honest"
   ],
   "note": "arbitrary sessions, arbitrary third party, explicit collision; the aby3_mal and spdzwise queues"
  },
  {
   "property": "C22",
   "status": "proved",
   "theorems": [
    "C22_opens",
    "C22_binding"
   ],
   "note": ""
  },
  {
   "property": "C23",
   "status": "proved",
   "theorems": [
    "C23_mul",
    "C23_dot",
    "C23_dot_many",
    "C23_and",
    "C23_a2b",
    "C23_any_program",
    "C23_unsupported"
   ],
   "note": "types with 40 spare verification bits (Bit, u8, u16, u64); the others panic (C23_unsupported)"
  },
  {
   "property": "C24",
   "status": "proved",
   "theorems": [
    "C24_triple_value",
    "C24_missed",
    "C24_mul",
    "C24_mul_many",
    "C24_dot",
    "C24_dot_many",
    "C24_zero"
   ],
   "note": "adversarial executions: two honest parties, arbitrary bytes from the third, explicit hash collision"
  },
  {
   "property": "C25",
   "status": "proved",
   "theorems": [
    "C25_deal",
    "C25_program",
    "C25_fresh_key"
   ],
   "note": "any client program from engine creation on, given or fresh key; 3 <= K (Bit has no comparisons)"
  },
  {
   "property": "C26",
   "status": "proved",
   "theorems": [
    "C26_relation",
    "C26_detect",
    "C26_executions"
   ],
   "note": "adversarial executions: two honest parties, any bytes from the third; explicit relation, and a count of the (key, coefficient) pairs that miss an error"
  },
  {
   "property": "C27",
   "status": "proved",
   "theorems": [
    "C27_pushes",
    "C27_get_all",
    "C27_get",
    "C27_extend"
   ],
   "note": "exact positions (place), permutation, lengths, extraction; t_extend only on whole-word pools, as used"
  },
  {
   "property": "C28",
   "status": "proved",
   "theorems": [
    "C28_shuffle",
    "C28_permutation",
    "C28_unbiased",
    "C28_honest"
   ],
   "note": "exact Fisher-Yates characterisation, unbiasedness, all messages; gen_range is an arbitrary function of generator state and range size"
  },
  {
   "property": "C29",
   "status": "partial",
   "theorems": [
    "C29_aligned_partial",
    "C29_chunk128_partial",
    "C29_refuted"
   ],
   "note": "false of the code (C29_refuted, four families); C29_aligned_partial and C29_chunk128_partial prove it for aligned chunk sizes; C39_session characterises all sessions"
  },
  {
   "property": "C30",
   "status": "proved",
   "theorems": [
    "C30_any_program",
    "C30_operations"
   ],
   "note": "any client program from set-up on, and single operations"
  },
  {
   "property": "C31",
   "status": "partial",
   "theorems": [
    "C31_aby3_partial",
    "C31_swift3_refuted"
   ],
   "note": "proved for ABY3 shares (ABY3, malicious ABY3, SPDZ-wise); false of Swift3 (C31_swift3_refuted: the value is unchanged)"
  },
  {
   "property": "C32",
   "status": "proved",
   "theorems": [
    "C32_honest",
    "C32_agreement",
    "C32_setup_checked",
    "C32_setup"
   ],
   "note": "aby3_mal coin and key set-up"
  },
  {
   "property": "C33",
   "status": "proved",
   "theorems": [
    "C33_gf",
    "C33_gf_points",
    "C33_gf_linear",
    "C33_galois",
    "C33_galois_linear",
    "C33_wide_panics"
   ],
   "note": "GF(2^64) and Galois rings with K in {8,16,32}; for K >= 64 the code panics (C33_wide_panics)"
  },
  {
   "property": "C34",
   "status": "proved",
   "theorems": [
    "C34_ops",
    "C34_division",
    "C34_no_inverse",
    "C34_zero_divisor",
    "C34_trailing_zero_refuted"
   ],
   "note": "K in {8,16,32,64}; u128 has no inverse in the code; divisors written with trailing zero coefficients give wrong results (C34_trailing_zero_refuted)"
  },
  {
   "property": "C35",
   "status": "partial",
   "theorems": [
    "C35_and",
    "C35_mul_partial",
    "C35_dot_partial",
    "C35_mul_refuted"
   ],
   "note": "AND gates proved outright; for multiplications and inner products the claim is false of the code (C35_mul_refuted) and C35_mul_partial, C35_dot_partial prove exactly when an honest proof is accepted"
  },
  {
   "property": "C36",
   "status": "proved",
   "theorems": [
    "C36_order",
    "C36_progress",
    "C36_terminates",
    "C36_send_status",
    "C36_oversize_refuted",
    "C36_limit"
   ],
   "note": "all histories of calls, task steps, deliveries and a break; messages over the 8 MiB frame limit are dropped with an error only to the send handle (C36_oversize_refuted)"
  },
  {
   "property": "C37",
   "status": "proved",
   "theorems": [
    "C37_check",
    "C37_network"
   ],
   "note": "also the full acceptance condition of the three-party network set-up"
  },
  {
   "property": "C38",
   "status": "proved",
   "theorems": [
    "C38_swift3",
    "C38_aby3_mal",
    "C38_spdz"
   ],
   "note": "Swift3: whatever is returned is the plain answer, and a stuck run has stopped with an error (honest proofs can be rejected, C35_mul_refuted)"
  },
  {
   "property": "C39",
   "status": "proved",
   "theorems": [
    "C39_session"
   ],
   "note": "sessions start from a new engine"
  },
  {
   "property": "C40",
   "status": "partial",
   "theorems": [
    "C40_setup",
    "C40_setup_checked_partial",
    "C40_coin",
    "C40_coin_checked_partial",
    "C40_agreement_refuted"
   ],
   "note": "honest runs and what a finishing party has checked are proved; agreement of two honest parties is false of the code (C40_agreement_refuted)"
  },
  {
   "property": "C41",
   "status": "proved",
   "theorems": [
    "C41_equivocation",
    "C41_checked"
   ],
   "note": "two honest receivers, arbitrary provider"
  },
  {
   "property": "C42",
   "status": "proved",
   "theorems": [
    "C42_detect",
    "C42_honest"
   ],
   "note": "any session, any program of the third party"
  },
  {
   "property": "C43",
   "status": "proved",
   "theorems": [
    "C43_and_sound",
    "C43_and_size",
    "C43_mul_sound",
    "C43_dot_sound",
    "C43_gr_size"
   ],
   "note": "AND gates, multiplications, inner products; any number of rows and columns; adversarial proofs"
  },
  {
   "property": "C44",
   "status": "proved",
   "theorems": [
    "C44_known_thetas"
   ],
   "note": "negative result: an attack on predictable coefficients, as in the code"
  },
  {
   "property": "C45",
   "status": "proved",
   "theorems": [
    "C45_product",
    "C45_reduction",
    "C45_field"
   ],
   "note": ""
  },
  {
   "property": "C46",
   "status": "proved",
   "theorems": [
    "C46_irreducible",
    "C46_inverse",
    "C46_nonunit_refuted"
   ],
   "note": "mod_inverse of non-units returns a value rather than an error (C46_nonunit_refuted)"
  },
  {
   "property": "C47",
   "status": "proved",
   "theorems": [
    "C47_and_accepts",
    "C47_mul_outcome",
    "C47_dot_outcome",
    "C47_panics",
    "C47_verify"
   ],
   "note": "K in {8,16,32} for arithmetic gates; K >= 64 panics; fuel bounds only the redraw loop"
  },
  {
   "property": "C48",
   "status": "proved",
   "theorems": [
    "C48_mul",
    "C48_mul_sound",
    "C48_dot",
    "C48_dot_sound",
    "C48_and",
    "C48_and_sound",
    "C48_order",
    "C48_mul_gate",
    "C48_and_gate",
    "C48_dot_gate",
    "C48_and_met",
    "C48_derivation",
    "C48_runs",
    "C48_verify",
    "C48_verify_met"
   ],
   "note": "provided the cheater opens the same coin share to both honest parties (the code does not enforce it, C40); counts of accepting points/weights/common elements instead of probabilities"
  },
  {
   "property": "C49",
   "status": "partial",
   "theorems": [
    "C49_and",
    "C49_and_point",
    "C49_mul_partial",
    "C49_dot_partial",
    "C49_mul_exposed",
    "C49_dot_exposed",
    "C49_mul_refuted",
    "C49_explicit_and",
    "C49_explicit_gr"
   ],
   "note": "proved for all points other than those of the gates (C49_and, C49_mul_partial, C49_dot_partial) and for the explicit share; refuted for the points the code admits for multiplications and inner products (C49_mul_exposed, C49_dot_exposed, C49_mul_refuted)"
  },
  {
   "property": "C50",
   "status": "proved",
   "theorems": [
    "C50_any_program",
    "C50_mul",
    "C50_input",
    "C50_dot",
    "C50_msb_many",
    "C50_reduce_or",
    "C50_distribution",
    "C50_input_all"
   ],
   "note": "perfect randomness (tape), one semi-honest party"
  },
  {
   "property": "C51",
   "status": "proved",
   "theorems": [
    "C51_query"
   ],
   "note": "perfect randomness (tape), one semi-honest party"
  },
  {
   "property": "C52",
   "status": "proved",
   "theorems": [
    "C52_random",
    "C52_similar",
    "C52_create_aby3",
    "C52_create_swift3",
    "C52_create_spdz",
    "C52_spdz_twice",
    "C52_party",
    "C52_plain",
    "C52_aby3",
    "C52_aby3_mal",
    "C52_swift3",
    "C52_spdz",
    "C52_spdz_default",
    "C52_low_mask",
    "C52_empty"
   ],
   "note": "SQLite, argument parsing, printing and network set-up are not modelled; runs share one set of channels"
  },
  {
   "property": "C53",
   "status": "proved",
   "theorems": [
    "C53_completes",
    "C53_no_mixup",
    "C53_three",
    "C53_alone",
    "C53_outsider_refuted"
   ],
   "note": "quinn/rustls are the environment; strangers are not kept out (C53_outsider_refuted), one party alone panics (C53_alone)"
  },
  {
   "property": "C54",
   "status": "proved",
   "theorems": [
    "C54_safe",
    "C54_orderly"
   ],
   "note": "any protocol with an honest run; arbitrary crashes and losses"
  },
  {
   "property": "C55",
   "status": "partial",
   "theorems": [
    "C55_when_partial",
    "C55_aby3_refuted",
    "C55_aby3_mal_refuted",
    "C55_spdz_refuted",
    "C55_swift3_refuted"
   ],
   "note": "false of the code: exact criterion (C55_when_partial) and refutations for the queries of three engines and the opening of Swift3; the claim holds with a shutdown that waits for delivery (C54_orderly)"
  },
  {
   "property": "C56",
   "status": "proved",
   "theorems": [
    "C56_shuffles",
    "C56_generate",
    "C56_detect",
    "C56_queue",
    "C56_queue_sound",
    "C56_generate_met",
    "C56_queue_met"
   ],
   "note": "counting statement over the shuffles; the distribution of the coin is the generator assumption; hash collisions are an explicit alternative"
  },
  {
   "property": "C57",
   "status": "proved",
   "theorems": [
    "C57_programs",
    "C57_luck",
    "C57_challenge",
    "C57_met"
   ],
   "note": "arithmetic programs; hash collisions and missed challenges are explicit alternatives, the latter counted by C57_luck"
  },
  {
   "property": "C58",
   "status": "proved",
   "theorems": [
    "C58_programs",
    "C58_bound",
    "C58_met"
   ],
   "note": "arithmetic programs with inputs; hash collisions and missed challenges are explicit alternatives as in C57"
  },
  {
   "property": "C59",
   "status": "proved",
   "theorems": [
    "C59_programs",
    "C59_met"
   ],
   "note": "all programs over the engine interface; hash collisions and missed challenges are explicit alternatives as in C57"
  },
  {
   "property": "C60",
   "status": "proved",
   "theorems": [
    "C60_iris",
    "C60_met"
   ],
   "note": "16-bit and 64-bit rings (the widths for which the engine starts the check); masks with enough common valid bits, as in C38; hash collisions and missed challenges are explicit alternatives"
  },
  {
   "property": "C61",
   "status": "proved",
   "theorems": [
    "C61_aby3_mal",
    "C61_spdz",
    "C61_swift3",
    "C61_malicious",
    "C61_met"
   ],
   "note": "honest runs of three engines; the part with a malicious party is for malicious ABY3, as the statement says"
  },
  {
   "property": "C62",
   "status": "partial",
   "theorems": [
    "C62_open_refuted",
    "C62_open_partial",
    "C62_open_met",
    "C62_open_bit",
    "C62_open_bit_many",
    "C62_open_bit_met",
    "C62_reachable",
    "C62_open_many_refuted"
   ],
   "note": "false of the code for ring values: C62_open_refuted, C62_open_many_refuted; bits: C62_open_bit, C62_open_bit_many in full; C62_open_partial is what holds for ring values"
  },
  {
   "property": "C63",
   "status": "proved",
   "theorems": [
    "C63_programs",
    "C63_no_offset",
    "C63_detect",
    "C63_met"
   ],
   "note": "programs of linear operations, products, inner products and batches of them; the opened value is that of i+1 (what i obtains can be shifted by the last word, C62); hash collisions and the MAC relation are explicit alternatives, the latter counted by C63_detect"
  },
  {
   "property": "C64",
   "status": "partial",
   "theorems": [
    "C64_input_refuted",
    "C64_input_partial",
    "C64_met"
   ],
   "note": "false of the code: C64_input_refuted (any offset on an honest input, unnoticed); C64_input_partial: an additive offset is all the third party can do"
  }
 ]
}