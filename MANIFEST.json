{
 "claims": [
  {
   "property": "C01",
   "status": "proved",
   "theorems": [
    "C01_op_4pick",
    "C01_op_4roll",
    "C01_op_4dup",
    "C01_op_4drop",
    "C01_op_4swap",
    "C01_op_4alt",
    "C01_u32_pick",
    "C01_u32_roll",
    "C01_u32_std"
   ],
   "note": ""
  },
  {
   "property": "C02",
   "status": "proved",
   "theorems": [
    "C02_op_ndup",
    "C02_push_to_stack",
    "C02_op_2k_mul",
    "C02_fixed_multiples"
   ],
   "note": ""
  },
  {
   "property": "C03",
   "status": "proved",
   "theorems": [
    "C03_u32_add",
    "C03_u32_add_drop",
    "C03_equal_positions_rejected"
   ],
   "note": ""
  },
  {
   "property": "C04",
   "status": "proved",
   "theorems": [
    "C04_push_table",
    "C04_drop_table",
    "C04_u32_xor"
   ],
   "note": ""
  },
  {
   "property": "C05",
   "status": "proved",
   "theorems": [
    "C05_u32_rrot",
    "C05_domain",
    "C05_special_cases",
    "C05_generic_whole_bytes"
   ],
   "note": ""
  },
  {
   "property": "C06",
   "status": "proved",
   "theorems": [
    "C06_equalverify_equal",
    "C06_equalverify_different",
    "C06_equal",
    "C06_notequal"
   ],
   "note": ""
  },
  {
   "property": "C07",
   "status": "proved",
   "theorems": [
    "C07_push",
    "C07_compress",
    "C07_compress_collisions"
   ],
   "note": ""
  },
  {
   "property": "C08",
   "status": "proved",
   "theorems": [
    "C08_conversion_agrees",
    "C08_conversion_refuted"
   ],
   "note": "agreement for every word but 0x80000000; C08_conversion_refuted is the counterexample at that word"
  },
  {
   "property": "C09",
   "status": "proved",
   "theorems": [
    "C09_sign_script_accepted",
    "C09_witness_accepted",
    "C09_raw_witness"
   ],
   "note": ""
  },
  {
   "property": "C10",
   "status": "proved",
   "theorems": [
    "C10_accepts_iff_valid",
    "C10_digit_malleable"
   ],
   "note": ""
  },
  {
   "property": "C11",
   "status": "proved",
   "theorems": [
    "C11_incomparable",
    "C11_no_forward_forgery"
   ],
   "note": ""
  },
  {
   "property": "C12",
   "status": "proved",
   "theorems": [
    "C12_recover_iff",
    "C12_equal_iff",
    "C12_honest",
    "C12_honest_rejected_refuted",
    "C12_commit_bytes_script",
    "C12_vector_iff",
    "C12_vector_honest",
    "C12_vector_equal_honest",
    "C12_recover_altstack_iff",
    "C12_message_moves"
   ],
   "note": ""
  },
  {
   "property": "C13",
   "status": "proved",
   "theorems": [
    "C13_blake3"
   ],
   "note": ""
  },
  {
   "property": "C14",
   "status": "proved",
   "theorems": [
    "C14_var_length",
    "C14_too_long",
    "C14_blake3_160",
    "C14_empty_refuted"
   ],
   "note": ""
  },
  {
   "property": "C15",
   "status": "proved",
   "theorems": [
    "C15_special",
    "C15_special_leaves_refuted",
    "C15_value_to_bits",
    "C15_value_to_bits_saturates",
    "C15_value_to_bits_rejects_refuted",
    "C15_compress_bits",
    "C15_domain",
    "C15_decompress",
    "C15_index_to_reverse_index",
    "C15_reverse_bits_len",
    "C15_extract_high_bits",
    "C15_extract_high_bits_negative",
    "C15_compress_then_extract_refuted"
   ],
   "note": ""
  },
  {
   "property": "C16",
   "status": "proved",
   "theorems": [
    "C16_index_to_rou",
    "C16_index_to_rou_out_of_range",
    "C16_index_to_rou_ext",
    "C16_domain",
    "C16_value_exp_n"
   ],
   "note": ""
  },
  {
   "property": "C17",
   "status": "proved",
   "theorems": [
    "C17_u31_add",
    "C17_u31_sub",
    "C17_u31_double",
    "C17_u31_mul",
    "C17_u31_square",
    "C17_u31_to_bits"
   ],
   "note": "scripts modelled from the copy in scripts/src/u31/mod.rs; the crate actually linked is external"
  },
  {
   "property": "C18",
   "status": "proved",
   "theorems": [
    "C18_lockstep",
    "C18_grind_checks",
    "C18_no_panic",
    "C18_too_many_bits"
   ],
   "note": ""
  },
  {
   "property": "C19",
   "status": "proved",
   "theorems": [
    "C19_binding"
   ],
   "note": ""
  },
  {
   "property": "C20",
   "status": "proved",
   "theorems": [
    "C20_zero_padding"
   ],
   "note": ""
  },
  {
   "property": "C21",
   "status": "proved",
   "theorems": [
    "C21_sample_bits_range",
    "C21_check_witness_iff",
    "C21_pow_accepted_words"
   ],
   "note": ""
  },
  {
   "property": "C22",
   "status": "proved",
   "theorems": [
    "C22_witness_range",
    "C22_grind_iff",
    "C22_grind_panics_iff",
    "C22_missed_witness_refuted"
   ],
   "note": ""
  },
  {
   "property": "C23",
   "status": "proved",
   "theorems": [
    "C23_agree",
    "C23_accepts_native",
    "C23_rejects_other",
    "C23_second_sample",
    "C23_two_samples_refuted"
   ],
   "note": ""
  },
  {
   "property": "C24",
   "status": "proved",
   "theorems": [
    "C24_u256_roundtrip",
    "C24_u32_roundtrip",
    "C24_from_u64",
    "C24_le_inverse"
   ],
   "note": ""
  },
  {
   "property": "C25",
   "status": "proved",
   "theorems": [
    "C25_index_stable",
    "C25_not_power_of_two_refused"
   ],
   "note": ""
  },
  {
   "property": "C26",
   "status": "proved",
   "theorems": [
    "C26_combine",
    "C26_sequence",
    "C26_combine_total"
   ],
   "note": ""
  },
  {
   "property": "C27",
   "status": "proved",
   "theorems": [
    "C27_path_to_root",
    "C27_verify_inclusion",
    "C27_single_leaf_refuted"
   ],
   "note": ""
  },
  {
   "property": "C28",
   "status": "proved",
   "theorems": [
    "C28_verdict",
    "C28_looks_elsewhere",
    "C28_wrong_leaf_refuted"
   ],
   "note": ""
  },
  {
   "property": "C29",
   "status": "proved",
   "theorems": [
    "C29_binding",
    "C29_script_committed",
    "C29_same_path"
   ],
   "note": ""
  },
  {
   "property": "C30",
   "status": "proved",
   "theorems": [
    "C30_committed_rows",
    "C30_open_batch",
    "C30_open_batch_panics",
    "C30_shortest_first_refuted"
   ],
   "note": ""
  },
  {
   "property": "C31",
   "status": "proved",
   "theorems": [
    "C31_opened_accepted",
    "C31_index_unchecked",
    "C31_contract_winternitz"
   ],
   "note": ""
  },
  {
   "property": "C32",
   "status": "proved",
   "theorems": [
    "C32_fold",
    "C32_every_vector",
    "C32_panics"
   ],
   "note": ""
  },
  {
   "property": "C33",
   "status": "proved",
   "theorems": [
    "C33_row_is_matrix_entry",
    "C33_is_interpolation",
    "C33_arity"
   ],
   "note": ""
  },
  {
   "property": "C34",
   "status": "proved",
   "theorems": [
    "C34_fold_row",
    "C34_hint_checked",
    "C34_zero_point_panics"
   ],
   "note": ""
  },
  {
   "property": "C35",
   "status": "proved",
   "theorems": [
    "C35_accepted",
    "C35_prover_total",
    "C35_concrete",
    "C35_smallest_height_refuted"
   ],
   "note": ""
  },
  {
   "property": "C36",
   "status": "proved",
   "theorems": [
    "C36_top_opening_ignored"
   ],
   "note": ""
  },
  {
   "property": "C37",
   "status": "proved",
   "theorems": [
    "C37_empty_query",
    "C37_truncated_accepted",
    "C37_layers_checked",
    "C37_surplus_openings"
   ],
   "note": ""
  },
  {
   "property": "C38",
   "status": "proved",
   "theorems": [
    "C38_wrong_count",
    "C38_bad_witness",
    "C38_ok"
   ],
   "note": ""
  },
  {
   "property": "C39",
   "status": "proved",
   "theorems": [
    "C39_verifier",
    "C39_agree"
   ],
   "note": ""
  },
  {
   "property": "C40",
   "status": "proved",
   "theorems": [
    "C40_count",
    "C40_degree",
    "C40_enough_chunks",
    "C40_nested_transitions_refuted"
   ],
   "note": ""
  },
  {
   "property": "C41",
   "status": "proved",
   "theorems": [
    "C41_folding",
    "C41_script",
    "C41_few_bad_alphas"
   ],
   "note": ""
  },
  {
   "property": "C42",
   "status": "proved",
   "theorems": [
    "C42_new",
    "C42_eval",
    "C42_lagrange"
   ],
   "note": ""
  },
  {
   "property": "C43",
   "status": "proved",
   "theorems": [
    "C43_recombination"
   ],
   "note": ""
  },
  {
   "property": "C44",
   "status": "proved",
   "theorems": [
    "C44_more_chunks_panics",
    "C44_wrong_lengths",
    "C44_one_chunk"
   ],
   "note": ""
  },
  {
   "property": "C45",
   "status": "proved",
   "theorems": [
    "C45_public_values",
    "C45_degree_modulo_64"
   ],
   "note": ""
  },
  {
   "property": "C46",
   "status": "proved",
   "theorems": [
    "C46_accepts_iff",
    "C46_wrong_shape",
    "C46_too_large"
   ],
   "note": ""
  },
  {
   "property": "C47",
   "status": "proved",
   "theorems": [
    "C47_rows",
    "C47_boolean_selectors_refuted"
   ],
   "note": ""
  },
  {
   "property": "C48",
   "status": "proved",
   "theorems": [
    "C48_optimised_generation",
    "C48_plain_generation",
    "C48_caching_preserves_meaning"
   ],
   "note": ""
  },
  {
   "property": "C49",
   "status": "proved",
   "theorems": [
    "C49_caching_panics_refuted"
   ],
   "note": ""
  },
  {
   "property": "C50",
   "status": "proved",
   "theorems": [
    "C50_run",
    "C50_embedded_parity",
    "C50_all_true_accepted",
    "C50_one_false_rejected",
    "C50_failing_check_rejected",
    "C50_accepted_checks_hold_refuted",
    "C50_no_expression"
   ],
   "note": ""
  },
  {
   "property": "C51",
   "status": "proved",
   "theorems": [
    "C51_generates",
    "C51_verdict",
    "C51_one_row",
    "C51_honest_accepted_refuted",
    "C51_accepted_consistent_refuted"
   ],
   "note": ""
  },
  {
   "property": "C52",
   "status": "proved",
   "theorems": [
    "C52_distinct_values",
    "C52_set_twice_panics",
    "C52_managers"
   ],
   "note": ""
  },
  {
   "property": "C53",
   "status": "proved",
   "theorems": [
    "C53_next",
    "C53_current_is_last_returned",
    "C53_inputs_go_to_current",
    "C53_next_is_current_refuted",
    "C53_get_manager",
    "C53_current_exists"
   ],
   "note": ""
  },
  {
   "property": "C54",
   "status": "proved",
   "theorems": [
    "C54_u31ext_add",
    "C54_u31ext_sub",
    "C54_u31ext_double",
    "C54_u31ext_equalverify"
   ],
   "note": ""
  },
  {
   "property": "C55",
   "status": "proved",
   "theorems": [
    "C55_sub_group",
    "C55_generator_order",
    "C55_sub_group_halves"
   ],
   "note": ""
  },
  {
   "property": "C56",
   "status": "proved",
   "theorems": [
    "C56_bytewise",
    "C56_x_passes",
    "C56_mixture_refuted",
    "C56_x_rejected_refuted"
   ],
   "note": ""
  },
  {
   "property": "C57",
   "status": "proved",
   "theorems": [
    "C57_hash_chain"
   ],
   "note": ""
  },
  {
   "property": "C58",
   "status": "proved",
   "theorems": [
    "C58_records",
    "C58_grind_record"
   ],
   "note": ""
  },
  {
   "property": "C59",
   "status": "proved",
   "theorems": [
    "C59_digest_check",
    "C59_digest_check_160"
   ],
   "note": ""
  },
  {
   "property": "C60",
   "status": "proved",
   "theorems": [
    "C60_accepted_is_committed"
   ],
   "note": ""
  },
  {
   "property": "C61",
   "status": "proved",
   "theorems": [
    "C61_extra_values",
    "C61_uncommitted_value_refuted"
   ],
   "note": ""
  },
  {
   "property": "C62",
   "status": "proved",
   "theorems": [
    "C62_accepts_iff"
   ],
   "note": ""
  },
  {
   "property": "C63",
   "status": "proved",
   "theorems": [
    "C63_commit",
    "C63_open",
    "C63_opened",
    "C63_accepted",
    "C63_concrete"
   ],
   "note": ""
  },
  {
   "property": "C64",
   "status": "proved",
   "theorems": [
    "C64_evaluations",
    "C64_other_shift"
   ],
   "note": ""
  },
  {
   "property": "C65",
   "status": "proved",
   "theorems": [
    "C65_rejects_by_panic",
    "C65_ok_iff"
   ],
   "note": ""
  },
  {
   "property": "C66",
   "status": "proved",
   "theorems": [
    "C66_top_values_ignored",
    "C66_any_value_accepted"
   ],
   "note": ""
  },
  {
   "property": "C67",
   "status": "proved",
   "theorems": [
    "C67_accepted",
    "C67_runs",
    "C67_concrete"
   ],
   "note": ""
  },
  {
   "property": "C68",
   "status": "proved",
   "theorems": [
    "C68_transfer",
    "C68_forgery"
   ],
   "note": ""
  },
  {
   "property": "C69",
   "status": "proved",
   "theorems": [
    "C69_consecutive",
    "C69_distinct"
   ],
   "note": ""
  },
  {
   "property": "C70",
   "status": "proved",
   "theorems": [
    "C70_ids_unique",
    "C70_expressions_have_unique_ids"
   ],
   "note": ""
  },
  {
   "property": "C71",
   "status": "proved",
   "theorems": [
    "C71_rebinding",
    "C71_rebound_recover"
   ],
   "note": ""
  },
  {
   "property": "C72",
   "status": "proved",
   "theorems": [
    "C72_query",
    "C72_all_queries",
    "C72_verify_challenges",
    "C72_native_verdict",
    "C72_script_native",
    "C72_accepted_is_native_refuted",
    "C72_native_is_accepted_refuted"
   ],
   "note": ""
  },
  {
   "property": "C73",
   "status": "proved",
   "theorems": [
    "C73_selectors",
    "C73_vanishing_refuted"
   ],
   "note": ""
  },
  {
   "property": "C74",
   "status": "proved",
   "theorems": [
    "C74_openings",
    "C74_panics",
    "C74_query",
    "C74_inverse_free",
    "C74_inverse_bound_refuted"
   ],
   "note": ""
  },
  {
   "property": "C75",
   "status": "proved",
   "theorems": [
    "C75_native",
    "C75_script_checks_accumulator",
    "C75_panics_together",
    "C75_no_constraints",
    "C75_new"
   ],
   "note": ""
  },
  {
   "property": "C76",
   "status": "proved",
   "theorems": [
    "C76_verdict",
    "C76_errors",
    "C76_accepted",
    "C76_many_chunks",
    "C76_accepted_folds",
    "C76_sound",
    "C76_one_row",
    "C76_accepted_even",
    "C76_no_constraints",
    "C76_native_accepted_refuted"
   ],
   "note": ""
  },
  {
   "property": "C77",
   "status": "proved",
   "theorems": [
    "C77_limited_is_run",
    "C77_var_length",
    "C77_all_lengths_fit",
    "C77_blake3",
    "C77_blake3_160"
   ],
   "note": ""
  },
  {
   "property": "C78",
   "status": "proved",
   "theorems": [
    "C78_opened_limited",
    "C78_capacity",
    "C78_limited_sound",
    "C78_wide_row_refuted"
   ],
   "note": ""
  },
  {
   "property": "C79",
   "status": "proved",
   "theorems": [
    "C79_domain",
    "C79_get_generator",
    "C79_same_as_get_table",
    "C79_beyond_table",
    "C79_room",
    "C79_exp_minus_one"
   ],
   "note": ""
  },
  {
   "property": "C80",
   "status": "proved",
   "theorems": [
    "C80_operand_sizes",
    "C80_run_dsl",
    "C80_assert_dsl",
    "C80_failing",
    "C80_wrong_size"
   ],
   "note": ""
  },
  {
   "property": "C81",
   "status": "proved",
   "theorems": [
    "C81_new",
    "C81_script_by_keys",
    "C81_constant_gen_accepts_any",
    "C81_constant_gen_reuse"
   ],
   "note": ""
  },
  {
   "property": "C82",
   "status": "proved",
   "theorems": [
    "C82_main_injective",
    "C82_public_panics",
    "C82_kinds_apart_refuted",
    "C82_never_registered"
   ],
   "note": ""
  },
  {
   "property": "C83",
   "status": "proved",
   "theorems": [
    "C83_closed_program",
    "C83_other_kind",
    "C83_script"
   ],
   "note": ""
  },
  {
   "property": "C84",
   "status": "proved",
   "theorems": [
    "C84_forgeable_iff",
    "C84_forged",
    "C84_one",
    "C84_two_cover_many",
    "C84_constant_gen"
   ],
   "note": ""
  },
  {
   "property": "C85",
   "status": "proved",
   "theorems": [
    "C85_accepts_iff",
    "C85_otherwise_first",
    "C85_no_queries",
    "C85_round_trip",
    "C85_open_no_queries",
    "C85_accepted_is_committed",
    "C85_max_height",
    "C85_max_height_committed",
    "C85_commit_vec"
   ],
   "note": ""
  },
  {
   "property": "C86",
   "status": "proved",
   "theorems": [
    "C86_trace",
    "C86_constraints_iff",
    "C86_one_chunk",
    "C86_proved_and_verified",
    "C86_wrong_output_accepted",
    "C86_script_verdict"
   ],
   "note": ""
  },
  {
   "property": "C87",
   "status": "proved",
   "theorems": [
    "C87_limited_is_run",
    "C87_too_many_inputs",
    "C87_managers_refused",
    "C87_query_words",
    "C87_constraints_too_wide",
    "C87_limited_constraints",
    "C87_wide_trace",
    "C87_accepted"
   ],
   "note": ""
  },
  {
   "property": "C88",
   "status": "proved",
   "theorems": [
    "C88_manager_fits",
    "C88_session_fits",
    "C88_check",
    "C88_constraints_fit",
    "C88_managers_fit",
    "C88_monotone",
    "C88_verifier_fits",
    "C88_some_limit"
   ],
   "note": ""
  },
  {
   "property": "C89",
   "status": "proved",
   "theorems": [
    "C89_accepted",
    "C89_accepts"
   ],
   "note": ""
  },
  {
   "property": "C90",
   "status": "proved",
   "theorems": [
    "C90_one_thread",
    "C90_same_scripts",
    "C90_panics",
    "C90_finishes",
    "C90_ids_unique",
    "C90_counter"
   ],
   "note": ""
  },
  {
   "property": "C91",
   "status": "proved",
   "theorems": [
    "C91_bytes_run",
    "C91_bytes_accept",
    "C91_bytes_determine",
    "C91_same_bytes_same_run",
    "C91_leaf_preimage_injective",
    "C91_accepted",
    "C91_accepts"
   ],
   "note": ""
  },
  {
   "property": "C92",
   "status": "proved",
   "theorems": [
    "C92_leaf_size",
    "C92_block_limit"
   ],
   "note": ""
  },
  {
   "property": "C93",
   "status": "proved",
   "theorems": [
    "C93_one_unlucky_challenge",
    "C93_codewords_stay",
    "C93_prover",
    "C93_query_iff",
    "C93_all_positions",
    "C93_cancelling_inputs_accepted"
   ],
   "note": ""
  },
  {
   "property": "C94",
   "status": "proved",
   "theorems": [
    "C94_violations_show"
   ],
   "note": ""
  },
  {
   "property": "C95",
   "status": "proved",
   "theorems": [
    "C95_openings_sound",
    "C95_right_claims_pass",
    "C95_spelled",
    "C95_true_value"
   ],
   "note": ""
  },
  {
   "property": "C96",
   "status": "proved",
   "theorems": [
    "C96_broken_noticed",
    "C96_accepted_lists",
    "C96_not_a_codeword",
    "C96_verify_iff",
    "C96_near_miss"
   ],
   "note": ""
  },
  {
   "property": "C97",
   "status": "proved",
   "theorems": [
    "C97_openings",
    "C97_sound"
   ],
   "note": ""
  },
  {
   "property": "C98",
   "status": "proved",
   "theorems": [
    "C98_accepts_iff",
    "C98_evidence_rejected",
    "C98_sound_refuted",
    "C98_signed_twice",
    "C98_checkable"
   ],
   "note": ""
  },
  {
   "property": "C99",
   "status": "proved",
   "theorems": [
    "C99_anyone_can_spend",
    "C99_one_digit",
    "C99_value_refuted"
   ],
   "note": ""
  },
  {
   "property": "C100",
   "status": "proved",
   "theorems": [
    "C100_indices",
    "C100_first_layer"
   ],
   "note": ""
  }
 ]
}