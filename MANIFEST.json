{
 "claims": [
  {
   "property": "C01",
   "status": "proved",
   "theorems": [
    "C01_arith_sound"
   ],
   "note": ""
  },
  {
   "property": "C02",
   "status": "proved",
   "theorems": [
    "C02_arith_complete"
   ],
   "note": ""
  },
  {
   "property": "C03",
   "status": "proved",
   "theorems": [
    "C03_bool_sound",
    "C03_bool_complete"
   ],
   "note": ""
  },
  {
   "property": "C04",
   "status": "proved",
   "theorems": [
    "C04_is_zero_is_equal_sound",
    "C04_is_zero_is_equal_complete"
   ],
   "note": ""
  },
  {
   "property": "C05",
   "status": "proved",
   "theorems": [
    "C05_inner_product_sound",
    "C05_sums_sound",
    "C05_accumulated_product_sound",
    "C05_sum_products_sound",
    "C05_complete",
    "C05_running_complete",
    "C05_accumulated_product_complete",
    "C05_sum_products_complete"
   ],
   "note": "soundness and completeness of all eight operations"
  },
  {
   "property": "C06",
   "status": "proved",
   "theorems": [
    "C06_bits_to_indicator_sound",
    "C06_idx_to_indicator_sound",
    "C06_select_sound",
    "C06_select_array_sound",
    "C06_complete"
   ],
   "note": ""
  },
  {
   "property": "C07",
   "status": "proved",
   "theorems": [
    "C07_num_to_bits_sound",
    "C07_num_to_bits_complete",
    "C07_bits_to_num_sound",
    "C07_bits_to_num_complete",
    "C07_num_bits_noncanonical_refuted"
   ],
   "note": "n <= CAPACITY; at n = NUM_BITS non-canonical, shown by C07_num_bits_noncanonical_refuted"
  },
  {
   "property": "C08",
   "status": "proved",
   "theorems": [
    "C08_pow_var_sound",
    "C08_pow_var_complete"
   ],
   "note": ""
  },
  {
   "property": "C09",
   "status": "proved",
   "theorems": [
    "C09_lagrange_sound",
    "C09_lagrange_complete"
   ],
   "note": "modulus prime"
  },
  {
   "property": "C10",
   "status": "proved",
   "theorems": [
    "C10_range_check_sound",
    "C10_range_check_complete"
   ],
   "note": "sound for every n, complete for n <= CAPACITY"
  },
  {
   "property": "C11",
   "status": "proved",
   "theorems": [
    "C11_check_less_than_sound",
    "C11_check_less_than_complete",
    "C11_check_less_than_safe_sound",
    "C11_check_less_than_safe_complete",
    "C11_capacity_bits_refuted",
    "C11_safe_capacity_refuted"
   ],
   "note": "sound when 2^(padded bits + 1) <= p; at the documented limit num_bits = CAPACITY the claim is false: C11_capacity_bits_refuted, C11_safe_capacity_refuted"
  },
  {
   "property": "C12",
   "status": "proved",
   "theorems": [
    "C12_is_less_than_sound",
    "C12_is_less_than_complete",
    "C12_is_less_than_safe_sound",
    "C12_is_less_than_safe_complete"
   ],
   "note": ""
  },
  {
   "property": "C13",
   "status": "proved",
   "theorems": [
    "C13_div_mod_sound",
    "C13_div_mod_complete",
    "C13_documented_limit_refuted"
   ],
   "note": "at the documented limit a_num_bits = CAPACITY the claim is false: C13_documented_limit_refuted"
  },
  {
   "property": "C14",
   "status": "proved",
   "theorems": [
    "C14_div_mod_var_sound",
    "C14_div_mod_var_complete",
    "C14_documented_limit_refuted"
   ],
   "note": "b is an existing cell or a constant; at the documented limit false: C14_documented_limit_refuted"
  },
  {
   "property": "C15",
   "status": "proved",
   "theorems": [
    "C15_get_last_bit_sound",
    "C15_get_last_bit_complete"
   ],
   "note": ""
  },
  {
   "property": "C16",
   "status": "proved",
   "theorems": [
    "C16_decompose_le_sound",
    "C16_decompose_le_complete",
    "C16_limbs_to_num_sound",
    "C16_limbs_to_num_complete"
   ],
   "note": ""
  },
  {
   "property": "C17",
   "status": "proved",
   "theorems": [
    "C17_rotate_sound",
    "C17_honest_witness_refuted"
   ],
   "note": "soundness proved; the honest witness generator swaps quotient and remainder: C17_honest_witness_refuted"
  },
  {
   "property": "C18",
   "status": "proved",
   "theorems": [
    "C18_witness_gen_equals_keygen"
   ],
   "note": ""
  },
  {
   "property": "C19",
   "status": "proved",
   "theorems": [
    "C19_shape_independent_of_witness",
    "C19_same_constraints"
   ],
   "note": ""
  },
  {
   "property": "C20",
   "status": "proved",
   "theorems": [
    "C20_constraints_never_lost"
   ],
   "note": ""
  },
  {
   "property": "C21",
   "status": "proved",
   "theorems": [
    "C21_returned_values_are_cells",
    "C21_assign_region",
    "C21_load_constant",
    "C21_load_zero",
    "C21_constrain_equal",
    "C21_assert_is_const",
    "C21_get"
   ],
   "note": ""
  },
  {
   "property": "C22",
   "status": "proved",
   "theorems": [
    "C22_gates_inside_and_apart",
    "C22_select_length_refuted"
   ],
   "note": ""
  },
  {
   "property": "C23",
   "status": "proved",
   "theorems": [
    "C23_layout_faithful",
    "C23_cells_placed_once",
    "C23_layout_faithful_api",
    "C23_second_run_identical",
    "C23_layout_independent_of_values"
   ],
   "note": ""
  },
  {
   "property": "C24",
   "status": "proved",
   "theorems": [
    "C24_break_points_replay"
   ],
   "note": ""
  },
  {
   "property": "C25",
   "status": "partial",
   "theorems": [
    "C25_overlap_check_partial",
    "C25_overlap_gap_refuted"
   ],
   "note": "holds for every break at offset >= 2 of a context; the check skips offset 1: C25_overlap_gap_refuted shows a gate that is not enforced when cells 0 and 1 both start a gate. Contexts built through the API never do that (C22), so C23_layout_faithful_api has no such exception"
  },
  {
   "property": "C26",
   "status": "partial",
   "theorems": [
    "C26_fixed_columns_refuted",
    "C26_calculated_columns_refuted",
    "C26_enough_columns_partial"
   ],
   "note": "the claim as stated is false (C26_calculated_columns_refuted; the code comment calls it a rough estimate); C26_enough_columns_partial gives a bound that suffices: cells <= columns * (rows - 3). The number of fixed columns is underestimated too, since it ignores minimum_rows (C26_fixed_columns_refuted); C27_panics_iff gives the exact condition for them"
  },
  {
   "property": "C27",
   "status": "proved",
   "theorems": [
    "C27_copies_imposed",
    "C27_panics_iff",
    "C27_num_distinct"
   ],
   "note": ""
  },
  {
   "property": "C28",
   "status": "proved",
   "theorems": [
    "C28_interleaving_irrelevant",
    "C28_lookups_complete"
   ],
   "note": ""
  },
  {
   "property": "C29",
   "status": "proved",
   "theorems": [
    "C29_tags_unique",
    "C29_parallelize"
   ],
   "note": ""
  },
  {
   "property": "C30",
   "status": "proved",
   "theorems": [
    "C30_tuples_tied",
    "C30_rows_distinct",
    "C30_enough_chunks",
    "C30_prover_writes_same",
    "C30_lookups_enforced",
    "C30_lookups_dropped_refuted"
   ],
   "note": "needs at least one lookup column: with num_lookup_advice = 0 the builder silently drops recorded lookups (C30_lookups_dropped_refuted)"
  },
  {
   "property": "C31",
   "status": "proved",
   "theorems": [
    "C31_keys_in_table",
    "C31_honest_accepted"
   ],
   "note": ""
  },
  {
   "property": "C32",
   "status": "proved",
   "theorems": [
    "C32_u64_digits_to_limbs",
    "C32_fe_to_u64_limbs",
    "C32_decompose_64_refuted"
   ],
   "note": "decompose with bit_len = 64 panics in debug builds: C32_decompose_64_refuted"
  },
  {
   "property": "C33",
   "status": "proved",
   "theorems": [
    "C33_decompose_biguint",
    "C33_compose_decompose",
    "C33_decompose_bigint",
    "C33_decompose",
    "C33_zero_limbs_refuted"
   ],
   "note": ""
  },
  {
   "property": "C34",
   "status": "proved",
   "theorems": [
    "C34_conversions",
    "C34_get_lower"
   ],
   "note": ""
  },
  {
   "property": "C35",
   "status": "proved",
   "theorems": [
    "C35_bit_length_log2_ceil"
   ],
   "note": ""
  },
  {
   "property": "C36",
   "status": "proved",
   "theorems": [
    "C36_bool_sound",
    "C36_byte_sound",
    "C36_arrays_sound",
    "C36_complete"
   ],
   "note": "unsafe_to_* conversions deliberately add no constraints and are not covered"
  },
  {
   "property": "C37",
   "status": "partial",
   "theorems": [
    "C37_raw_bytes_to_partial",
    "C37_raw_bytes_to_complete",
    "C37_packed_value_refuted"
   ],
   "note": "the claim is false for multi-byte elements (C37_packed_value_refuted: the powers of 256 are unconstrained witnesses); proved: input bytes are range checked, single-byte elements are passed through, and the honest witness is the little-endian value"
  },
  {
   "property": "C38",
   "status": "proved",
   "theorems": [
    "C38_left_pad_sound",
    "C38_left_pad_complete",
    "C38_ensure_0_padding_sound",
    "C38_ensure_0_padding_complete"
   ],
   "note": "all len <= array length, including 0"
  },
  {
   "property": "C39",
   "status": "proved",
   "theorems": [
    "C39_optimized_permutation",
    "C39_construction_total_refuted"
   ],
   "note": "for every width, round number, constants, matrix and state for which OptimizedPoseidonSpec::new does not panic; it is not total even on MDS matrices (C39_construction_total_refuted: the determinant used for Cramer's rule panics on singular numerators). Constants, matrix and inverse are inputs of the model (the repository obtains them from the external poseidon-primitives crate)"
  },
  {
   "property": "C40",
   "status": "proved",
   "theorems": [
    "C40_permutation_sound",
    "C40_permutation_complete",
    "C40_permutation_var_sound"
   ],
   "note": "equal to the textbook permutation, fixed and witnessed block length"
  },
  {
   "property": "C41",
   "status": "proved",
   "theorems": [
    "C41_initialize",
    "C41_hash_fix_len",
    "C41_hash_var_len",
    "C41_complete",
    "C41_sponge_squeeze",
    "C41_sponge",
    "C41_compact_rows",
    "C41_chunk_rows"
   ],
   "note": "hash_fix_len_array, hash_var_len_array, PoseidonSponge, hash_compact_input and hash_compact_chunk_inputs all equal the padded sponge of PoseidonSpec.v; len <= max_len is a documented precondition"
  },
  {
   "property": "C42",
   "status": "partial",
   "theorems": [
    "C42_valid_rows_refuted",
    "C42_accepted_rows_sound",
    "C42_accepted_rows_complete",
    "C42_invalid_row_accepted_refuted"
   ],
   "note": "the claim is false both ways: every documented-shape row is rejected (C42_valid_rows_refuted, for all assignments) and a row that is neither final nor full with len > RATE is accepted (C42_invalid_row_accepted_refuted). What is accepted is determined exactly: C42_accepted_rows_sound and C42_accepted_rows_complete (not final, not full, len in the bit range of the comparison)"
  },
  {
   "property": "C43",
   "status": "proved",
   "theorems": [
    "C43_physical_implies_virtual",
    "C43_virtual_implies_physical",
    "C43_no_panic"
   ],
   "note": "phase 0 only, as in BaseCircuitBuilder::synthesize"
  },
  {
   "property": "C44",
   "status": "proved",
   "theorems": [
    "C44_instances_exposed"
   ],
   "note": ""
  },
  {
   "property": "C45",
   "status": "proved",
   "theorems": [
    "C45_no_carry_ops",
    "C45_scalar_mul_no_carry",
    "C45_limb_bounds"
   ],
   "note": "sound and complete for every limb count and size; C45_limb_bounds gives the reported max_limb_bits"
  },
  {
   "property": "C46",
   "status": "proved",
   "theorems": [
    "C46_sub_sound",
    "C46_sub_complete",
    "C46_big_less_than"
   ],
   "note": ""
  },
  {
   "property": "C47",
   "status": "proved",
   "theorems": [
    "C47_big_is_zero",
    "C47_big_is_equal",
    "C47_big_is_even"
   ],
   "note": ""
  },
  {
   "property": "C48",
   "status": "proved",
   "theorems": [
    "C48_check_carry_to_zero_sound",
    "C48_check_carry_to_zero_complete"
   ],
   "note": "the width condition carry_range_bits + n + 2 <= CAPACITY is not asserted by the code (only the callers' parameters ensure it)"
  },
  {
   "property": "C49",
   "status": "proved",
   "theorems": [
    "C49_carry_mod_sound",
    "C49_carry_mod_complete"
   ],
   "note": "under fp_params (size conditions on n, k, m, p met by BN254 and n=88, k=3: bn_fp_params) and 8*B < 2^(n*k)*2^NUM_BITS, the documented bound"
  },
  {
   "property": "C50",
   "status": "proved",
   "theorems": [
    "C50_check_carry_mod_to_zero_sound",
    "C50_check_carry_mod_to_zero_complete"
   ],
   "note": "same conditions as C49"
  },
  {
   "property": "C51",
   "status": "proved",
   "theorems": [
    "C51_load_sound",
    "C51_load_complete",
    "C51_range_check",
    "C51_enforce_less_than",
    "C51_is_less_than_p_and_parity"
   ],
   "note": ""
  },
  {
   "property": "C52",
   "status": "proved",
   "theorems": [
    "C52_tests_sound",
    "C52_tests_complete",
    "C52_negate",
    "C52_select",
    "C52_select_by_indicator"
   ],
   "note": "is_soft_nonzero is characterised exactly (non-zero and below the modulus)"
  },
  {
   "property": "C53",
   "status": "proved",
   "theorems": [
    "C53_mul_sound",
    "C53_mul_complete",
    "C53_divide_unsafe_sound",
    "C53_divide_unsafe_complete",
    "C53_divide_sound",
    "C53_divide_complete"
   ],
   "note": "C49_C53_example runs load, mul, divide, is_equal with BN254 parameters through the theorems"
  },
  {
   "property": "C54",
   "status": "proved",
   "theorems": [
    "C54_add_unequal_sound",
    "C54_add_unequal_complete",
    "C54_sub_unequal_sound",
    "C54_sub_unequal_complete",
    "C54_double_sound",
    "C54_double_complete",
    "C54_double_and_add_sound",
    "C54_double_and_add_unchecked_sound",
    "C54_double_and_add_complete"
   ],
   "note": "over FpChip with the size conditions HE1, HE2 (met by BN254, bn_he1/bn_he2); for prime m > 3 and b <> 0"
  },
  {
   "property": "C55",
   "status": "proved",
   "theorems": [
    "C55_check_is_on_curve",
    "C55_load_private",
    "C55_is_on_curve_or_infinity",
    "C55_assign_point"
   ],
   "note": ""
  },
  {
   "property": "C56",
   "status": "proved",
   "theorems": [
    "C56_select",
    "C56_select_from_bits_sound",
    "C56_select_from_bits_complete",
    "C56_is_equal",
    "C56_negate",
    "C56_sub_strict_sound",
    "C56_sub_strict_complete"
   ],
   "note": "ec_sub_strict: the random point is universally quantified; completeness needs rand_x <> x2 when P = Q"
  },
  {
   "property": "C57",
   "status": "proved",
   "theorems": [
    "C57_naf_correct",
    "C57_naf_total",
    "C57_naf_carry_out_refuted",
    "C57_naf_adjacent_across_limbs"
   ],
   "note": "the property holds as stated; two stronger readings are refuted: the code panics whenever a carry leaves the last limb (C57_naf_carry_out_refuted: the length assertion is reversed) and the form is not non-adjacent across limbs (C57_naf_adjacent_across_limbs)"
  },
  {
   "property": "C58",
   "status": "proved",
   "theorems": [
    "C58_msm_sound",
    "C58_msm_exact",
    "C58_msm_full_width",
    "C58_scalar_multiply"
   ],
   "note": "soundness for every prover; the honest prover completeness (which depends on the random point avoiding finitely many collisions) is not part of the property"
  },
  {
   "property": "C59",
   "status": "proved",
   "theorems": [
    "C59_sum_sound",
    "C59_sum_complete"
   ],
   "note": "soundness for every prover; completeness when no partial sum from the random point on meets the x of the next point"
  },
  {
   "property": "C60",
   "status": "proved",
   "theorems": [
    "C60_fixed_base_sound",
    "C60_fixed_base_identity"
   ],
   "note": "soundness for every prover; a base point with a precomputed multiple at infinity is excluded by tables_finite (prime_order_tables shows prime-order points meet it)"
  },
  {
   "property": "C61",
   "status": "proved",
   "theorems": [
    "C61_ecdsa_sound"
   ],
   "note": "soundness of acceptance; a digest congruent to 0 is excluded because EccChip::sum treats the (0,0) produced for 0*G as an affine point; the output 0 is not a proof of invalidity (the code says so: u1, u2 are not forced below n, x1 < n is enforced)"
  },
  {
   "property": "C62",
   "status": "proved",
   "theorems": [
    "C62_schnorr_sound"
   ],
   "note": "soundness of acceptance; the third part of the theorem shows a completeness gap of the code: it forces x(R) below the group order (scalar_chip instead of base_chip), so BIP-340-valid signatures with r >= n cannot be proved"
  },
  {
   "property": "C63",
   "status": "proved",
   "theorems": [
    "C63_sha256_sound",
    "C63_sha256_of_cells"
   ],
   "note": "soundness for every prover; all gates of constraints.rs are modelled as expression trees"
  },
  {
   "property": "C64",
   "status": "proved",
   "theorems": [
    "C64_sha256_config"
   ],
   "note": "for every field"
  },
  {
   "property": "C65",
   "status": "proved",
   "theorems": [
    "C65_sha256_complete",
    "C65_capacity",
    "C65_sizes"
   ],
   "note": "completeness for every field and every list of inputs; u64/usize values are integers (all values stay below 2^36)"
  },
  {
   "property": "C66",
   "status": "partial",
   "theorems": [
    "C66_keccak_zero_digests_refuted",
    "C66_keccak_sound_refuted",
    "C66_keccak_constants"
   ],
   "note": "the claim is refuted for ten (k, rows_per_round) pairs, among them (14, 28) of the repository tests: lookups are only created for parts whose cell has rotation 0 and start_region does not go back to row 0, so the lookups of the input bytes and of iota are missing and any message is accepted with digest zero. What is missing: soundness for parameters under which every lookup is created"
  },
  {
   "property": "C67",
   "status": "proved",
   "theorems": [
    "C67_encode_fix_len_sound",
    "C67_encode_var_len_sound",
    "C67_encode_complete"
   ],
   "note": "soundness and completeness; Poseidon with state 3 and rate 2 and any round numbers, constants and matrix accepted by the constructor"
  },
  {
   "property": "C68",
   "status": "proved",
   "theorems": [
    "C68_shard_sound",
    "C68_shard_complete",
    "C68_matches_native"
   ],
   "note": "the digests are those of the loaded cells; whether these are right is C66. The native Poseidon of snark-verifier is taken to be the textbook Poseidon of PoseidonSpec.v"
  },
  {
   "property": "C69",
   "status": "proved",
   "theorems": [
    "C69_native_outputs",
    "C69_native_key",
    "C69_key_input_injective"
   ],
   "note": "same assumption on the native Poseidon; the digest of the sha3 crate is taken to be KecSpec.keccak256"
  },
  {
   "property": "C70",
   "status": "proved",
   "theorems": [
    "C70_shard_params",
    "C70_shard_params_fail"
   ],
   "note": "usize values are integers"
  },
  {
   "property": "C71",
   "status": "proved",
   "theorems": [
    "C71_ingestion",
    "C71_entry_words"
   ],
   "note": "finding: a field comment says that non-final entries hold keccak256([]); they hold zero. When the requests exceed the capacity the entries are silently truncated"
  },
  {
   "property": "C72",
   "status": "proved",
   "theorems": [
    "C72_linear_sound",
    "C72_linear_complete",
    "C72_carry",
    "C72_load",
    "C72_negate_select",
    "C72_tests_sound",
    "C72_tests_complete"
   ],
   "note": "over FpChip as base chip; finding: vector assert_equal uses plain zip and stops at the shorter argument"
  },
  {
   "property": "C73",
   "status": "proved",
   "theorems": [
    "C73_no_carry",
    "C73_conjugate",
    "C73_mul_divide_sound",
    "C73_mul_divide_complete"
   ],
   "note": "over FpChip as base chip; the native Fp2 arithmetic of halo2curves used for the division hint is ExtSpec.v"
  },
  {
   "property": "C74",
   "status": "proved",
   "theorems": [
    "C74_no_carry",
    "C74_conjugate",
    "C74_mul_divide_sound",
    "C74_mul_divide_complete",
    "C74_tower"
   ],
   "note": "the native Fp12 inversion of halo2curves used for the division hint is ExtSpec2.v; invertible = non-zero norm (x12_unit_iff); that xi makes the ring a field is not used"
  },
  {
   "property": "C75",
   "status": "proved",
   "theorems": [
    "C75_arith_sound",
    "C75_tests_sound",
    "C75_complete",
    "C75_is_soft_nonzero_refuted"
   ],
   "note": "finding: is_soft_nonzero uses gate.neg instead of gate.not; C75_is_soft_nonzero_refuted shows that the trait contract (1 iff non-zero) fails on every non-zero element"
  },
  {
   "property": "C76",
   "status": "proved",
   "theorems": [
    "C76_frobenius_sound",
    "C76_frobenius_complete",
    "C76_conjugate"
   ],
   "note": "halo2curves' FROBENIUS_COEFF_FQ12_C1 table is an input, characterised as xi^((q^j-1)/6); hypotheses shown for BN254 (bn_primitive6, bn_mod6)"
  },
  {
   "property": "C77",
   "status": "proved",
   "theorems": [
    "C77_compressed_sound",
    "C77_compressed_complete",
    "C77_decompress_one_refuted",
    "C77_pow_sound",
    "C77_pow_complete"
   ],
   "note": "findings: cyclotomic_decompress at the identity divides 0 by 0 and is unconstrained (C77_decompress_one_refuted); the honest prover fails when the w^4 coordinate is 0 but the product of the w^2 and w^5 coordinates is not; an exponent 0 returns the base instead of 1"
  },
  {
   "property": "C78",
   "status": "proved",
   "theorems": [
    "C78_easy_part",
    "C78_final_exp_sound",
    "C78_final_exp_complete"
   ],
   "note": "for every prover; at true result 1 the output is not determined by the constraints (consequence of the decompression of 1), but an output 1 is always right; a = 0 leaves the result unconstrained because easy_part divides unsafely"
  },
  {
   "property": "C79",
   "status": "proved",
   "theorems": [
    "C79_lines_sound",
    "C79_lines_complete",
    "C79_multiply_sound",
    "C79_multiply_complete",
    "C79_twist_sound",
    "C79_twist_complete"
   ],
   "note": "the affine formulas are undefined (division by 0, unconstrained result) where the x coordinates agree resp. y = 0: soundness is stated where the formula is defined"
  },
  {
   "property": "C80",
   "status": "proved",
   "theorems": [
    "C80_miller_sound",
    "C80_miller_complete",
    "C80_multi_sound",
    "C80_multi_complete",
    "C80_miller_nonzero"
   ],
   "note": "soundness and completeness where every affine step of Miller's algorithm is defined; is_strict = false leaves the other steps unconstrained. Examples run the generators of BN254 with a 2-digit list"
  },
  {
   "property": "C81",
   "status": "proved",
   "theorems": [
    "C81_pairing_sound",
    "C81_pairing_complete",
    "C81_check_sound",
    "C81_check_complete"
   ],
   "note": "the Miller values are assumed non-zero (C80_miller_nonzero gives a sufficient condition); completeness needs the powers of the easy part to be decompressible, see C77"
  },
  {
   "property": "C82",
   "status": "proved",
   "theorems": [
    "C82_bls_sound",
    "C82_bls_complete"
   ],
   "note": "starts from the loaded and aggregated points (C84 adds loading and `sum`); the Miller values are assumed non-zero. When the equation holds, a malicious prover can still reach output 0, since the exceptional decompression of C77 at 1 is unconstrained; output 1 is never a lie"
  },
  {
   "property": "C83",
   "status": "proved",
   "theorems": [
    "C83_curve_sound",
    "C83_curve_complete",
    "C83_strict_sound",
    "C83_sum_sound",
    "C83_sum_complete"
   ],
   "note": ""
  },
  {
   "property": "C84",
   "status": "proved",
   "theorems": [
    "C84_aggregate_sound",
    "C84_aggregate_complete",
    "C84_points_sound",
    "C84_points_complete"
   ],
   "note": "the Miller values are assumed non-zero, as in C81 and C82. All points are private inputs and only the flag is returned, so a verifier of the circuit learns that points on the curves satisfying the equation exist, not which (this includes the generator g1)"
  },
  {
   "property": "C85",
   "status": "proved",
   "theorems": [
    "C85_pippenger_sound",
    "C85_variable_base_msm_sound",
    "C85_msm_exact",
    "C85_msm_full_width"
   ],
   "note": "soundness; the statement is about satisfying assignments only, as for C58. The parallel sections are run in item order in one context (C28 is about the scheduling). Points of order 2 other than the identity are excluded, as the code assumes"
  },
  {
   "property": "C86",
   "status": "proved",
   "theorems": [
    "C86_pools_keep_the_stage",
    "C86_contexts_available",
    "C86_unknown_reaches_existing_pools",
    "C86_values_per_stage",
    "C86_keygen_unknown_refuted",
    "C86_break_points_round_trip",
    "C86_set_break_points_succeeds",
    "C86_prover_keeps_break_points"
   ],
   "note": "finding: the documentation of unknown (witness values are replaced by unknown during key generation) fails for the phases after the first, which touch creates without the flag (C86_keygen_unknown_refuted)"
  }
 ]
}