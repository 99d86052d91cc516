{
 "claims": [
  {
   "property": "C01",
   "status": "proved",
   "theorems": [
    "C01_mul_is_polynomial_product",
    "C01_field_laws",
    "C01_division",
    "C01_width_30_refuted",
    "C01_library_operations_are_field_operations"
   ],
   "note": "All widths 1..29. At width 30 (outside the documented range) building the tables overflows a signed index: C01_width_30_refuted."
  },
  {
   "property": "C02",
   "status": "proved",
   "theorems": [
    "C02_init_succeeds",
    "C02_large_width_fails",
    "C02_tables_complete"
   ],
   "note": "All widths 1..29 succeed, all widths above 30 are rejected."
  },
  {
   "property": "C03",
   "status": "proved",
   "theorems": [
    "C03_in_range_arithmetic_is_memory_safe",
    "C03_division_by_zero_escapes_the_field"
   ],
   "note": "All widths 1..29. Division by zero is memory safe but returns u32::MAX, which is not a field element."
  },
  {
   "property": "C04",
   "status": "partial",
   "theorems": [
    "C04_from_in_range",
    "C04_from_out_of_range_refuted"
   ],
   "note": "Holds for v < 2^W. False for v >= 2^W: every such u32 is an out-of-bounds table read (C04_from_out_of_range_refuted)."
  },
  {
   "property": "C05",
   "status": "partial",
   "theorems": [
    "C05_two_widths_refuted",
    "C05_retry_after_failure_refuted",
    "C05_every_history",
    "C05_ok_means_works_iff",
    "C05_samples_iff"
   ],
   "note": "False as stated: with two widths init reports Ok without tables, samples leave the field, and a failed first init is reported as Ok later (refutations). The single-width case is C02_init_succeeds. What is true for every history of calls over any widths is proved exactly: C05_every_history, C05_ok_means_works_iff and C05_samples_iff."
  },
  {
   "property": "C06",
   "status": "partial",
   "theorems": [
    "C06_element_round_trip",
    "C06_vector_round_trip",
    "C06_vector_encoding_injective",
    "C06_truncation_detected",
    "C06_range_check_refuted",
    "C06_decoder_exact",
    "C06_range_iff",
    "C06_out_of_range"
   ],
   "note": "Round trips, injectivity and truncation proved for all vectors. The range check on decoding is refuted (C06_range_check_refuted); C06_range_iff shows that decoded values are always in the field exactly when W is a multiple of 8."
  },
  {
   "property": "C07",
   "status": "proved",
   "theorems": [
    "C07_lagrange_interpolates",
    "C07_no_division_by_zero"
   ],
   "note": "Any field, any distinct current positions, targets inside or outside them; no zero divisor."
  },
  {
   "property": "C08",
   "status": "proved",
   "theorems": [
    "C08_field_has_enough_points",
    "C08_super_invertible"
   ],
   "note": "Any field with enough points; C08_field_has_enough_points instantiates GF(2^W)."
  },
  {
   "property": "C09",
   "status": "proved",
   "theorems": [
    "C09_reed_solomon_matrix",
    "C09_code_distance"
   ],
   "note": "Entries and code distance, for every message length at least 1."
  },
  {
   "property": "C10",
   "status": "proved",
   "theorems": [
    "C10_selection_from_instance",
    "C10_missing_element_panics"
   ],
   "note": "Plus the panic case for a missing element."
  },
  {
   "property": "C11",
   "status": "proved",
   "theorems": [
    "C11_share_then_reconstruct",
    "C11_coefficient_functions",
    "C11_fewer_secrets",
    "C11_too_few_parties_panics"
   ],
   "note": "Every n, d, positions, secrets and coins; also the coefficient functions used by the protocols and the fewer-secrets case."
  },
  {
   "property": "C12",
   "status": "proved",
   "theorems": [
    "C12_recon_accepts_exactly_sharings",
    "C12_corruption_detected"
   ],
   "note": "Exact acceptance condition, error classification and corruption detection."
  },
  {
   "property": "C13",
   "status": "proved",
   "theorems": [
    "C13_sum_and_scale",
    "C13_product_reconstructs"
   ],
   "note": "Linearity, and products reconstructed by the degree n-1 scheme."
  },
  {
   "property": "C14",
   "status": "proved",
   "theorems": [
    "C14_view_independent_of_secrets",
    "C14_unique_explanation"
   ],
   "note": "Exact count of the coin vectors explaining a view, and uniqueness at d+1-l positions."
  },
  {
   "property": "C15",
   "status": "proved",
   "theorems": [
    "C15_rand_is_a_sharing",
    "C15_rand_bijective",
    "C15_rand_secrets_uniform"
   ],
   "note": "Validity, bijection between coins and polynomials, uniformity of the packed secrets."
  },
  {
   "property": "C16",
   "status": "proved",
   "theorems": [
    "C16_positions_distinct",
    "C16_out_of_range_refuted"
   ],
   "note": "Distinct up to 2^W; beyond that GF::from is undefined behaviour (C16_out_of_range_refuted)."
  },
  {
   "property": "C17",
   "status": "partial",
   "theorems": [
    "C17_parse_partial",
    "C17_single_output",
    "C17_output_order_refuted"
   ],
   "note": "Every token, header and gate line is parsed as the format prescribes, for every text layout; with two or more outputs the output wires come in reversed order (C17_output_order_refuted), so the full statement holds only for one output (C17_single_output)."
  },
  {
   "property": "C18",
   "status": "proved",
   "theorems": [
    "C18_eval_computes_the_circuit",
    "C18_eval_exact"
   ],
   "note": "Every well-formed circuit and input."
  },
  {
   "property": "C19",
   "status": "proved",
   "theorems": [
    "C19_pack_preserves_the_circuit",
    "C19_block_order_and_counts",
    "C19_sorted_by_use",
    "C19_zero_block_size_panics"
   ],
   "note": "Every circuit and block size at least 1; block size 0 panics."
  },
  {
   "property": "C20",
   "status": "proved",
   "theorems": [
    "C20_builder_ids_distinct",
    "C20_subtrees_disjoint",
    "C20_never_below_itself",
    "C20_garble_ids_distinct",
    "C20_preproc_ids_distinct"
   ],
   "note": "Builders at any depth, and all message ids of one garble / preproc invocation."
  },
  {
   "property": "C21",
   "status": "partial",
   "theorems": [
    "C21_capacity",
    "C21_supplies_num_iff",
    "C21_supplies_num_refuted",
    "C21_repeats_after_none",
    "C21_garble_names_subprotocols_iff",
    "C21_small_circuits_refuted",
    "C21_252_gate_blocks_refuted",
    "C21_preproc_names_subprotocols"
   ],
   "note": "False as stated: a builder for num ids supplies them exactly when num is not a power of 256 (C21_supplies_num_iff). Consequence: garble panics for every circuit packing into at most l blocks and for 252 gate blocks. preproc always finds enough ids."
  },
  {
   "property": "C22",
   "status": "proved",
   "theorems": [
    "C22_plans_receive_one_at_a_time",
    "C22_fifo_per_id",
    "C22_nothing_lost",
    "C22_answered_at_once"
   ],
   "note": "Every history of arrivals and requests without two outstanding requests on one id; C22_plans_receive_one_at_a_time shows the protocols never have two."
  },
  {
   "property": "C23",
   "status": "partial",
   "theorems": [
    "C23_concurrent_recv_refuted",
    "C23_later_call_evicts"
   ],
   "note": "False of the code: C23_concurrent_recv_refuted and C23_later_call_evicts prove that the earlier of two concurrent calls panics. The protocols never do this (C22_plans_receive_one_at_a_time)."
  },
  {
   "property": "C24",
   "status": "proved",
   "theorems": [
    "C24_machine_gather_agrees",
    "C24_first_of_each",
    "C24_returns_when_all_heard"
   ],
   "note": "Every arrival order, with repetitions."
  },
  {
   "property": "C25",
   "status": "proved",
   "theorems": [
    "C25_gather_waits_for_all",
    "C25_sync_is_barrier",
    "C25_everybody_returns"
   ],
   "note": "Every schedule and delivery order of the asynchronous machine."
  },
  {
   "property": "C26",
   "status": "proved",
   "theorems": [
    "C26_lossless",
    "C26_cut_stream",
    "C26_long_id_panics"
   ],
   "note": "Every message sequence, chunking and cut point; the vint64 crate is modelled from its published source."
  },
  {
   "property": "C27",
   "status": "proved",
   "theorems": [
    "C27_local_network_delivers",
    "C27_tcp_network_delivers",
    "C27_exactly_once"
   ],
   "note": "Local network and TCP network (down to the bytes of the streams), every interleaving of the tasks."
  },
  {
   "property": "C28",
   "status": "proved",
   "theorems": [
    "C28_stats_exact",
    "C28_stats_monotone"
   ],
   "note": "Every history; counters as unbounded integers (u64 overflow not modelled)."
  },
  {
   "property": "C29",
   "status": "proved",
   "theorems": [
    "C29_reduce_degree"
   ],
   "note": "Every schedule, leader and coins; any codec that round-trips, instantiated with the bincode model in the example."
  },
  {
   "property": "C30",
   "status": "proved",
   "theorems": [
    "C30_mult"
   ],
   "note": "Every schedule; any degrees with d1+d2 <= n-1."
  },
  {
   "property": "C31",
   "status": "proved",
   "theorems": [
    "C31_trans"
   ],
   "note": "Every schedule; new positions as many as the selection has entries."
  },
  {
   "property": "C32",
   "status": "proved",
   "theorems": [
    "C32_randtrans"
   ],
   "note": "Every schedule; also that RandSharingTransform::new does not panic; identifies the common secrets."
  },
  {
   "property": "C33",
   "status": "proved",
   "theorems": [
    "C33_leader_is_a_party",
    "C33_no_parties_panics",
    "C33_every_party_can_lead"
   ],
   "note": "seahash is an arbitrary function."
  },
  {
   "property": "C34",
   "status": "proved",
   "theorems": [
    "C34_rand",
    "C34_zero",
    "C34_randbit"
   ],
   "note": "Every schedule and coins; rand, zero and randbit; matrix abstract (any matrix with a column per party and at least one row; bits for randbit)."
  },
  {
   "property": "C35",
   "status": "proved",
   "theorems": [
    "C35_every_output_reached",
    "C35_distinct_coins_distinct_outputs"
   ],
   "note": "Bijection between the coins of any batch-size-many parties and the tuples of output polynomials, for every contribution of the others."
  },
  {
   "property": "C36",
   "status": "proved",
   "theorems": [
    "C36_preproc"
   ],
   "note": "Every description, schedule and coins; also that no bit or random sharing is used twice and that errors do not touch the material handed out."
  },
  {
   "property": "C37",
   "status": "proved",
   "theorems": [
    "C37_described_is_consumed"
   ],
   "note": "For every well-formed packed circuit: with exactly the described material every run of garble ends without panic and with all queues empty."
  },
  {
   "property": "C38",
   "status": "proved",
   "theorems": [
    "C38_dummy"
   ],
   "note": "Every seed and every generator. The pool is reused cyclically, so the material is consistent but not fresh (finding)."
  },
  {
   "property": "C39",
   "status": "partial",
   "theorems": [
    "C39_roundtrip_partial",
    "C39_roundtrip_refuted",
    "C39_shape_kept_iff",
    "C39_empty_panics_refuted"
   ],
   "note": "False as stated: the key array comes back as (B,2,K) (C39_roundtrip_refuted, C39_shape_kept_iff) and empty masks panic; C39_roundtrip_partial proves that all elements of all five fields survive, through the bincode bytes."
  },
  {
   "property": "C40",
   "status": "proved",
   "theorems": [
    "C40_inputs_carry_their_wires"
   ],
   "note": "For every well-formed packed circuit and schedule."
  },
  {
   "property": "C41",
   "status": "partial",
   "theorems": [
    "C41_one_labelling_refuted",
    "C41_every_wire_refuted"
   ],
   "note": "False of the code: C41_one_labelling_refuted gives an instance all of whose runs end with tables that no labelling of the wires explains; C41_every_wire_refuted shows the mismatch for every wire of every circuit with two or more blocks."
  },
  {
   "property": "C42",
   "status": "proved",
   "theorems": [
    "C42_and_xor_rows"
   ],
   "note": "Exact Boolean description of AND and XOR tables at the end of every run."
  },
  {
   "property": "C43",
   "status": "partial",
   "theorems": [
    "C43_inv_rows_are_buffers",
    "C43_inv_refuted"
   ],
   "note": "False of the code: C43_inv_refuted; C43_inv_rows_are_buffers proves what INV tables are instead."
  },
  {
   "property": "C44",
   "status": "partial",
   "theorems": [
    "C44_number_refuted",
    "C44_number_and_xor_refuted"
   ],
   "note": "False of the code: C44_number_refuted (INV), C44_number_and_xor_refuted; the symbol is the unmasked wire value, by C42_and_xor_rows and C43_inv_rows_are_buffers."
  },
  {
   "property": "C45",
   "status": "proved",
   "theorems": [
    "C45_rows_decrypt"
   ],
   "note": "Reconstruction, subtraction and unique decoding for every table shared as in C48."
  },
  {
   "property": "C46",
   "status": "partial",
   "theorems": [
    "C46_same_wires_different_bytes",
    "C46_same_wires_different_matrix",
    "C46_shared_iff_same_use_numbers",
    "C46_same_operand_different_matrix",
    "C46_per_wire_refuted",
    "C46_self_pairs_share_refuted"
   ],
   "note": "Proved for blocks with the same unordered pair (or the same single wire) at an occupied slot, for every hash that does not collide on the strings of the circuit. Which blocks share a matrix is characterised exactly (same use numbers), and blocks with the same wire at the same slot of the same operand never do. The per-wire reading of the code comment is refuted by a packed circuit of three gates, and two gates on pairs (x,x), (y,y), whose effective keys are both zero, are shown to share a matrix."
  },
  {
   "property": "C47",
   "status": "proved",
   "theorems": [
    "C47_lookup_total_and_dense",
    "C47_shared_iff_equal_hash"
   ],
   "note": "Every gate list, packing parameter and hash."
  },
  {
   "property": "C48",
   "status": "proved",
   "theorems": [
    "C48_garble"
   ],
   "note": "For every well-formed packed circuit, schedule and coins, whenever the ids suffice (C21)."
  },
  {
   "property": "C49",
   "status": "proved",
   "theorems": [
    "C49_leader_view_uniform"
   ],
   "note": "Exact counting of masks over any finite field, for all columns of a call at once."
  },
  {
   "property": "C50",
   "status": "proved",
   "theorems": [
    "C50_one_stream_per_pair",
    "C50_ends_agree"
   ],
   "note": "Every order of accepting; for the accept loop and the connect loop of every party."
  },
  {
   "property": "C51",
   "status": "proved",
   "theorems": [
    "C51_maximal_valid_prefix",
    "C51_zero_length_panics",
    "C51_long_id_length_panics"
   ],
   "note": "Every byte stream; memory exhaustion on large announced lengths is not modelled."
  },
  {
   "property": "C52",
   "status": "proved",
   "theorems": [
    "C52_loads_exactly",
    "C52_transpose",
    "C52_only_bits",
    "C52_other_characters_panic",
    "C52_ragged_panics",
    "C52_every_ragged_panics_refuted"
   ],
   "note": "C52_loads_exactly characterises acceptance and the result for every text. Finding: a ragged text whose total is a multiple of the number of rows is accepted (C52_every_ragged_panics_refuted)."
  },
  {
   "property": "C53",
   "status": "proved",
   "theorems": [
    "C53_separated_reuse",
    "C53_back_to_back_refuted"
   ],
   "note": "Every run, every number of repetitions, for any protocol of at least one round between two synchronisations. Finding: without such a round two synchronisations on one id can hang (C53_back_to_back_refuted)."
  },
  {
   "property": "C54",
   "status": "proved",
   "theorems": [
    "C54_garble_program"
   ],
   "note": "From the text of the circuit file to the tables of every repetition, with numeric hypotheses on the parameters only; the save step is C59."
  },
  {
   "property": "C55",
   "status": "proved",
   "theorems": [
    "C55_preproc_program"
   ],
   "note": "From the texts of both files to the material of every repetition."
  },
  {
   "property": "C56",
   "status": "proved",
   "theorems": [
    "C56_preproc_then_garble"
   ],
   "note": "One run of preproc followed by garble in the same processes; the repository runs them as separate programs."
  },
  {
   "property": "C57",
   "status": "proved",
   "theorems": [
    "C57_report",
    "C57_generated",
    "C57_generated_as_reported_refuted"
   ],
   "note": "C57_report is exact; C57_generated bounds what preproc makes. Finding: generated material is larger than reported when batches do not divide evenly (C57_generated_as_reported_refuted)."
  },
  {
   "property": "C58",
   "status": "proved",
   "theorems": [
    "C58_elapsed_exact",
    "C58_wire_bytes",
    "C58_net_bytes_are_wire_bytes_refuted"
   ],
   "note": "Finding: net_bytes is not the number of bytes on the wire (C58_net_bytes_are_wire_bytes_refuted)."
  },
  {
   "property": "C59",
   "status": "proved",
   "theorems": [
    "C59_garble_saved",
    "C59_preproc_saved",
    "C59_garble_everybody_returns_refuted",
    "C59_preproc_everybody_returns_refuted"
   ],
   "note": "Both halves, for both programs, from file texts. Finding: with --save the parties other than 0 never return (C59_*_everybody_returns_refuted)."
  },
  {
   "property": "C60",
   "status": "proved",
   "theorems": [
    "C60_reduce_degree_private",
    "C60_mult_private",
    "C60_trans_private"
   ],
   "note": "One call at a time; the coalition may deviate arbitrarily. Masks are assumed fresh; those made by randtrans can be less (C61)."
  },
  {
   "property": "C61",
   "status": "partial",
   "theorems": [
    "C61_mask_shares_repeat",
    "C61_one_changed_wire_is_seen",
    "C61_garble_hides_masks_refuted"
   ],
   "note": "The full statement is refuted: if a block that is not full has the same input wire in all gates, t parties know a linear relation of the masks (and label symbols) of a full block. Also proved: the cause (shares of the two masks of a transformation coincide)."
  },
  {
   "property": "C62",
   "status": "proved",
   "theorems": [
    "C62_coalition_learns_nothing",
    "C62_shielded"
   ],
   "note": "Semi-honest coalition, possibilistic: some randomness of the others explains any secrets. Probabilities are not modelled. The condition excludes the attack of C61."
  },
  {
   "property": "C63",
   "status": "proved",
   "theorems": [
    "C63_pipeline_hides",
    "C63_super_inv_hides"
   ],
   "note": "Semi-honest coalition, possibilistic like C62, over the messages of both protocols. The condition on the binary matrix is that of C64."
  },
  {
   "property": "C64",
   "status": "partial",
   "theorems": [
    "C64_hides_iff_distance",
    "C64_known_to_coalition",
    "C64_n16_t5_hides_from_4",
    "C64_n16_t5_refuted",
    "C64_n16_t5_exactly",
    "C64_readme_leak",
    "C64_n128_t31_hides",
    "C64_n256_t89_refuted",
    "C64_n256_t53_refuted",
    "C64_n256_t43_refuted",
    "C64_n256_t65_refuted",
    "C64_n512_t131_refuted",
    "C64_n256_t89_hides",
    "C64_n256_t65_hides",
    "C64_n256_t53_hides",
    "C64_n512_t131_hides",
    "C64_n256_t43_hides"
   ],
   "note": "The criterion and the known sums are proved for all files. The claim about the shipped files is refuted for all of them (n16_t5, n256_t43, n256_t53, n256_t65, n256_t89, n512_t131) but n128_t31, for which it is proved (even 39 parties); n16_t5 hides from 4 parties and from exactly those sets of 5 that are not listed; n256_t89 hides from 79 parties and not from 80; n256_t65, n256_t53, n256_t43 and n512_t131 are proved to hide from 54, 44, 32 and 109 parties."
  },
  {
   "property": "C65",
   "status": "proved",
   "theorems": [
    "C65_messages_left",
    "C65_garble_saved",
    "C65_preproc_saved",
    "C65_local_network",
    "C65_tcp_network",
    "C65_one_id_twice_refuted",
    "C65_pipeline_tcp",
    "C65_pipeline_local",
    "C65_garble_program",
    "C65_preproc_program"
   ],
   "note": "For any code on both networks, and for preproc; garble and the two programs in particular. Also proved: without the condition on ids the machine ends well and the stack can panic. The final report with --save is covered (C65_garble_saved, C65_preproc_saved) as long as processes live until their messages have left; that they do not is C59. Connection set-up is C50."
  },
  {
   "property": "C66",
   "status": "proved",
   "theorems": [
    "C66_dice_deal_material",
    "C66_same_distribution",
    "C66_equally_likely"
   ],
   "note": "Exact (perfect) secrecy of garble, semi-honest coalition, for material dealt by sharings with uniform coins; material that comes out of preproc is C69."
  },
  {
   "property": "C67",
   "status": "proved",
   "theorems": [
    "C67_pipeline_tcp",
    "C67_garble_program",
    "C67_preproc_program"
   ],
   "note": "Exact numbers for every pair of parties, any function of the length of a message. Bytes are those of the data of messages (Stats), not of ids and frame headers. The final report of the programs (C59) is not included."
  },
  {
   "property": "C68",
   "status": "proved",
   "theorems": [
    "C68_blocks",
    "C68_estimate",
    "C68_inv_gates",
    "C68_garble_program",
    "C68_preproc_program",
    "C68_exact_refuted"
   ],
   "note": "Division is exact in the model of the script (Python uses floating point, exact below 2^53). The estimate of the malicious protocol has no counterpart in the library. That the estimates are exact is refuted; bounds and the condition of exactness are proved."
  },
  {
   "property": "C69",
   "status": "proved",
   "theorems": [
    "C69_view_independent"
   ],
   "note": "Perfect secrecy of preproc followed by garble against a semi-honest coalition, with explicit bijections of the coins. Assumes that the hash, as a function, is fixed (leaders do not depend on the coins) and uniform coins."
  },
  {
   "property": "C70",
   "status": "proved",
   "theorems": [
    "C70_noise_rate"
   ],
   "note": "Exact, in the model of uniform coins."
  },
  {
   "property": "C71",
   "status": "proved",
   "theorems": [
    "C71_rows_decrypt",
    "C71_radius_exact"
   ],
   "note": "Upper bound (errors of rate 1/4; the sampled value can also be zero). Unique decodability is proved; there is no evaluator or decoder in the library. Which k the script means is not documented: K + 1 gives the code's radius exactly, K is one too many if M - K is even (C71_radius_exact)."
  },
  {
   "property": "C72",
   "status": "proved",
   "theorems": [
    "C72_parameters_keep_bounds",
    "C72_search_succeeds",
    "C72_parameters_found",
    "C72_any_estimate_refuted"
   ],
   "note": "Exact rationals and reals instead of floating point. C72_any_estimate_refuted: with other security estimates the bound on decryption errors can fail."
  },
  {
   "property": "C73",
   "status": "partial",
   "theorems": [
    "C73_search",
    "C73_printed",
    "C73_generates_what_it_finds_refuted",
    "C73_generates",
    "C73_generated_hides",
    "C73_shipped",
    "C73_corruptions_refuted",
    "C73_found_hides",
    "C73_parity_bit_would_do"
   ],
   "note": "The search is proved sound, optimal and complete. For all parameters found the file hides from every coalition with fewer than d_rs * (d_bch - 1) parties (C73_found_hides, with the BCH bound proved from the roots of the generator); with a parity bit instead of the column of ones the printed number would be right (C73_parity_bit_would_do). All shipped files are proved to be outputs. Refuted: generation for everything found (128 4 aborts) and the number of corruptions printed (16 3). The galois package is an argument with a contract (vectors of bits of a field; roots of the words of the BCH code, independent rows)."
  },
  {
   "property": "C74",
   "status": "proved",
   "theorems": [
    "C74_sub64_subtracts",
    "C74_garbled_sub64_adds",
    "C74_sub64_blocks"
   ],
   "note": "The file is copied byte by byte into Sub64File.v. The evaluation of garbled tables is that of C43 (there is no evaluator in the library): inverters act as wires, so garbled sub64 adds."
  },
  {
   "property": "C75",
   "status": "proved",
   "theorems": [
    "C75_never_returns",
    "C75_returns_iff",
    "C75_sub64_iff",
    "C75_aes_iff",
    "C75_sha_iff",
    "C75_program_never_returns",
    "C75_program_returns"
   ],
   "note": "Exact condition. sub64.txt is read from its text; the other two circuits enter by their numbers of gates and inputs, counted in the files."
  },
  {
   "property": "C76",
   "status": "partial",
   "theorems": [
    "C76_accepts_iff",
    "C76_unambiguous",
    "C76_wires",
    "C76_arity_refuted",
    "C76_wires_checked_refuted"
   ],
   "note": "The set of accepted texts and the circuit read from each are characterised exactly (C76_accepts_iff, C76_unambiguous, C76_wires). Refuted: that superfluous inputs of a gate or wires that do not exist are rejected (C76_arity_refuted, C76_wires_checked_refuted)."
  },
  {
   "property": "C77",
   "status": "partial",
   "theorems": [
    "C77_enough_blocks",
    "C77_inv_as_xor",
    "C77_one_block_more",
    "C77_readme_example",
    "C77_inv_as_xor_refuted"
   ],
   "note": "Exact conditions under which the advice of the README is safe, and a bound that always holds (C77_enough_blocks, C77_inv_as_xor, C77_one_block_more, C77_readme_example). Refuted in general: C77_inv_as_xor_refuted. The comparison is with the semi-honest estimate, the protocol the library implements."
  },
  {
   "property": "C78",
   "status": "proved",
   "theorems": [
    "C78_float_ceil",
    "C78_float_ceil_sharp"
   ],
   "note": "Rounding is that of Flocq; uses the axioms of the real numbers of the standard library, listed in DESIGN.md."
  },
  {
   "property": "C79",
   "status": "proved",
   "theorems": [
    "C79_same_material",
    "C79_malicious_costs",
    "C79_verification",
    "C79_computation_costs",
    "C79_empty_refuted",
    "C79_totals",
    "C79_mac_keys",
    "C79_material_computation",
    "C79_verification_computation",
    "C79_lines"
   ],
   "note": "EstFullModel models the two scripts method by method. C79_empty_refuted shows that circuits without wires have to be excluded."
  },
  {
   "property": "C80",
   "status": "proved",
   "theorems": [
    "C80_com",
    "C80_pooled_gauss",
    "C80_pooled_gauss_refuted",
    "C80_statistical_decoding",
    "C80_information_set",
    "C80_estimate",
    "C80_number",
    "C80_even",
    "C80_odd_refuted",
    "C80_search",
    "C80_search_p",
    "C80_monotone_refuted"
   ],
   "note": "Exact reals instead of decimals of 170 digits and floating point; axioms of the real numbers of the standard library, listed in DESIGN.md. The limits are shown by C80_pooled_gauss_refuted and C80_odd_refuted. That the cost of information set decoding falls and then rises in l (a comment of the script) is a hypothesis of C80_search, and likewise for p of C80_search_p."
  },
  {
   "property": "C81",
   "status": "partial",
   "theorems": [
    "C81_sharing",
    "C81_dealing",
    "C81_multiplication",
    "C81_multiplication_total",
    "C81_transform",
    "C81_randtrans",
    "C81_randtrans_underestimated",
    "C81_randtrans_refuted",
    "C81_select",
    "C81_tables",
    "C81_messages",
    "C81_blocks"
   ],
   "note": "CostModel repeats the local computations of the models with every addition and multiplication counted; Cost proves that they compute what the models compute. That the script counts no less than the library is false for the random sharings of the transformations (C81_randtrans_refuted, exact difference in C81_randtrans) and for the additions of AND blocks (C81_blocks)."
  },
  {
   "property": "C82",
   "status": "partial",
   "theorems": [
    "C82_garble_figure",
    "C82_preproc_figure",
    "C82_overcount",
    "C82_garble_counters",
    "C82_preproc_counters",
    "C82_counters_differ"
   ],
   "note": "C82_garble_figure and C82_preproc_figure: what the figure contains in every schedule, and what arrives in total. That the figure is the traffic of the repetition is false of the code (in the same theorems: arrives_early, undercounts; too much: C82_overcount, for a small loop of the same shape). On the whole network stack (TCP network), in bytes of the counters of receive_router: C82_garble_counters, C82_preproc_counters; executions in which the counters grow by too little and by too much: C82_counters_differ. The two readings are atomic in the model."
  }
 ]
}