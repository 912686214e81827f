notes={
'C05':('proved','soundness and completeness of all eight operations'),
'C09':('proved','modulus prime'),
'C07':('proved','n <= CAPACITY; at n = NUM_BITS non-canonical, shown by C07_num_bits_noncanonical_refuted'),
'C10':('proved','sound for every n, complete for n <= CAPACITY'),
'C11':('proved','sound when 2^(padded bits + 1) <= p; at the documented limit num_bits = CAPACITY the claim is false: C11_capacity_bits_refuted, C11_safe_capacity_refuted'),
'C13':('proved','at the documented limit a_num_bits = CAPACITY the claim is false: C13_documented_limit_refuted'),
'C14':('proved','b is an existing cell or a constant; at the documented limit false: C14_documented_limit_refuted'),
'C17':('proved','soundness proved; the honest witness generator swaps quotient and remainder: C17_honest_witness_refuted'),
'C32':('proved','decompose with bit_len = 64 panics in debug builds: C32_decompose_64_refuted'),
'C25':('partial','holds for every break at offset >= 2 of a context; the check skips offset 1: C25_overlap_gap_refuted shows a gate that is not enforced when cells 0 and 1 both start a gate. Contexts built through the API never do that (C22), so C23_layout_faithful_api has no such exception'),
'C26':('partial','the claim as stated is false (C26_calculated_columns_refuted; the code comment calls it a rough estimate); C26_enough_columns_partial gives a bound that suffices: cells <= columns * (rows - 3). The number of fixed columns is underestimated too, since it ignores minimum_rows (C26_fixed_columns_refuted); C27_panics_iff gives the exact condition for them'),
'C30':('proved','needs at least one lookup column: with num_lookup_advice = 0 the builder silently drops recorded lookups (C30_lookups_dropped_refuted)'),
'C43':('proved','phase 0 only, as in BaseCircuitBuilder::synthesize'),
'C36':('proved','unsafe_to_* conversions deliberately add no constraints and are not covered'),
'C37':('partial','the claim is false for multi-byte elements (C37_packed_value_refuted: the powers of 256 are unconstrained witnesses); proved: input bytes are range checked, single-byte elements are passed through, and the honest witness is the little-endian value'),
'C38':('proved','all len <= array length, including 0'),
'C39':('proved','for every width, round number, constants, matrix and state for which OptimizedPoseidonSpec::new does not panic; it is not total even on MDS matrices (C39_construction_total_refuted: the determinant used for Cramer\'s rule panics on singular numerators). Constants, matrix and inverse are inputs of the model (the repository obtains them from the external poseidon-primitives crate)'),
'C40':('proved','equal to the textbook permutation, fixed and witnessed block length'),
'C41':('proved','hash_fix_len_array, hash_var_len_array, PoseidonSponge, hash_compact_input and hash_compact_chunk_inputs all equal the padded sponge of PoseidonSpec.v; len <= max_len is a documented precondition'),
'C42':('partial','the claim is false both ways: every documented-shape row is rejected (C42_valid_rows_refuted, for all assignments) and a row that is neither final nor full with len > RATE is accepted (C42_invalid_row_accepted_refuted). What is accepted is determined exactly: C42_accepted_rows_sound and C42_accepted_rows_complete (not final, not full, len in the bit range of the comparison)'),
'C45':('proved','sound and complete for every limb count and size; C45_limb_bounds gives the reported max_limb_bits'),
'C46':('proved',''),
'C47':('proved',''),
'C48':('proved','the width condition carry_range_bits + n + 2 <= CAPACITY is not asserted by the code (only the callers\' parameters ensure it)'),
'C49':('proved','under fp_params (size conditions on n, k, m, p met by BN254 and n=88, k=3: bn_fp_params) and 8*B < 2^(n*k)*2^NUM_BITS, the documented bound'),
'C50':('proved','same conditions as C49'),
'C51':('proved',''),
'C52':('proved','is_soft_nonzero is characterised exactly (non-zero and below the modulus)'),
'C53':('proved','C49_C53_example runs load, mul, divide, is_equal with BN254 parameters through the theorems'),
'C54':('proved','over FpChip with the size conditions HE1, HE2 (met by BN254, bn_he1/bn_he2); for prime m > 3 and b <> 0'),
'C55':('proved',''),
'C56':('proved','ec_sub_strict: the random point is universally quantified; completeness needs rand_x <> x2 when P = Q'),
'C57':('proved','the property holds as stated; two stronger readings are refuted: the code panics whenever a carry leaves the last limb (C57_naf_carry_out_refuted: the length assertion is reversed) and the form is not non-adjacent across limbs (C57_naf_adjacent_across_limbs)'),
'C58':('proved','soundness for every prover; the honest prover completeness (which depends on the random point avoiding finitely many collisions) is not part of the property'),
'C59':('proved','soundness for every prover; completeness when no partial sum from the random point on meets the x of the next point'),
'C60':('proved','soundness for every prover; a base point with a precomputed multiple at infinity is excluded by tables_finite (prime_order_tables shows prime-order points meet it)'),
'C61':('proved','soundness of acceptance; a digest congruent to 0 is excluded because EccChip::sum treats the (0,0) produced for 0*G as an affine point; the output 0 is not a proof of invalidity (the code says so: u1, u2 are not forced below n, x1 < n is enforced)'),
'C62':('proved','soundness of acceptance; the third part of the theorem shows a completeness gap of the code: it forces x(R) below the group order (scalar_chip instead of base_chip), so BIP-340-valid signatures with r >= n cannot be proved'),
'C63':('proved','soundness for every prover; all gates of constraints.rs are modelled as expression trees'),
'C64':('proved','for every field'),
'C65':('proved','completeness for every field and every list of inputs; u64/usize values are integers (all values stay below 2^36)'),
'C66':('partial','the claim is refuted for ten (k, rows_per_round) pairs, among them (14, 28) of the repository tests: lookups are only created for parts whose cell has rotation 0 and start_region does not go back to row 0, so the lookups of the input bytes and of iota are missing and any message is accepted with digest zero. What is missing: soundness for parameters under which every lookup is created'),
'C67':('proved','soundness and completeness; Poseidon with state 3 and rate 2 and any round numbers, constants and matrix accepted by the constructor'),
'C68':('proved','the digests are those of the loaded cells; whether these are right is C66. The native Poseidon of snark-verifier is taken to be the textbook Poseidon of PoseidonSpec.v'),
'C69':('proved','same assumption on the native Poseidon; the digest of the sha3 crate is taken to be KecSpec.keccak256'),
'C70':('proved','usize values are integers'),
'C71':('proved','finding: a field comment says that non-final entries hold keccak256([]); they hold zero. When the requests exceed the capacity the entries are silently truncated'),
'C72':('proved','over FpChip as base chip; finding: vector assert_equal uses plain zip and stops at the shorter argument'),
'C73':('proved','over FpChip as base chip; the native Fp2 arithmetic of halo2curves used for the division hint is ExtSpec.v'),
'C74':('proved','the native Fp12 inversion of halo2curves used for the division hint is ExtSpec2.v; invertible = non-zero norm (x12_unit_iff); that xi makes the ring a field is not used'),
'C75':('proved','finding: is_soft_nonzero uses gate.neg instead of gate.not; C75_is_soft_nonzero_refuted shows that the trait contract (1 iff non-zero) fails on every non-zero element'),
'C76':('proved','halo2curves\' FROBENIUS_COEFF_FQ12_C1 table is an input, characterised as xi^((q^j-1)/6); hypotheses shown for BN254 (bn_primitive6, bn_mod6)'),
'C77':('proved','findings: cyclotomic_decompress at the identity divides 0 by 0 and is unconstrained (C77_decompress_one_refuted); the honest prover fails when the w^4 coordinate is 0 but the product of the w^2 and w^5 coordinates is not; an exponent 0 returns the base instead of 1'),
'C78':('proved','for every prover; at true result 1 the output is not determined by the constraints (consequence of the decompression of 1), but an output 1 is always right; a = 0 leaves the result unconstrained because easy_part divides unsafely'),
'C79':('proved','the affine formulas are undefined (division by 0, unconstrained result) where the x coordinates agree resp. y = 0: soundness is stated where the formula is defined'),
'C80':('proved','soundness and completeness where every affine step of Miller\'s algorithm is defined; is_strict = false leaves the other steps unconstrained. Examples run the generators of BN254 with a 2-digit list'),
'C84':('proved','the Miller values are assumed non-zero, as in C81 and C82. All points are private inputs and only the flag is returned, so a verifier of the circuit learns that points on the curves satisfying the equation exist, not which (this includes the generator g1)'),
'C82':('proved','starts from the loaded and aggregated points (C84 adds loading and `sum`); the Miller values are assumed non-zero. When the equation holds, a malicious prover can still reach output 0, since the exceptional decompression of C77 at 1 is unconstrained; output 1 is never a lie'),
 'C81':('proved','the Miller values are assumed non-zero (C80_miller_nonzero gives a sufficient condition); completeness needs the powers of the easy part to be decompressible, see C77'),
'C85':('proved','soundness; the statement is about satisfying assignments only, as for C58. The parallel sections are run in item order in one context (C28 is about the scheduling). Points of order 2 other than the identity are excluded, as the code assumes'),
'C86':('proved','finding: the documentation of unknown (witness values are replaced by unknown during key generation) fails for the phases after the first, which touch creates without the flag (C86_keygen_unknown_refuted)'),
}
