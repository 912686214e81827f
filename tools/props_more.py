BB="halo2-base/src/gates/circuit/builder.rs"; BM="halo2-base/src/gates/circuit/mod.rs"
add("The built circuit enforces exactly the recorded constraints","For every family of contexts built through the public API with one shared copy manager and lookup manager, if building the circuit with range lookups enabled does not panic, then every physical assignment that satisfies the gates, copy constraints, fixed constants and lookups gives a virtual assignment satisfying every gate, equality, constant and range lookup recorded by every context; conversely every satisfying virtual assignment extends to a physical one. Building does not panic when the stated numbers of columns suffice.","all API programs, all families of contexts, all orders of recording, all physical assignments",MAL,[BM+":synthesize",BB+":assign_lookups_in_phase"])
add("Public instances equal the assigned instances","In every satisfying assignment, row j of instance column i has the value of the j-th cell of assigned_instances[i]; a different number of instance columns is a panic.","all instance lists, all satisfying assignments",MAL,[BB+":assign_instances"])
EB="halo2-ecc/src/bigint/"; EF="halo2-ecc/src/fields/"
ADV="an adversarial prover may choose any cell values; tests only run the honest prover on sampled integers"
add("Big-integer no-carry operations compute the named operation","For every CRT integer built in a context, add/sub/mul/scalar_mul/scalar_mul_and_add_no_carry and the constant variants return limbs and a native cell that, under every satisfying assignment, represent exactly the sum, difference, product or multiple of what the inputs represent modulo 2^(n*k) and modulo the native prime; the honest prover never gets stuck and the tracked BigInt equals that integer; the reported max_limb_bits bounds the absolute value of every limb.","all limb counts, limb sizes, cell values and integers",ADV,[EB+"add_no_carry.rs",EB+"sub_no_carry.rs",EB+"mul_no_carry.rs",EB+"scalar_mul_no_carry.rs",EB+"scalar_mul_and_add_no_carry.rs"])
add("Big-integer subtraction and comparison","For integers with proper limbs, sub returns 1 exactly when a < b and otherwise proper limbs of a - b; big_less_than returns 1 exactly when a < b; for every satisfying assignment, and the honest prover succeeds.","all proper limb vectors of equal length and all satisfying assignments",ADV,[EB+"sub.rs",EB+"big_less_than.rs"])
add("Big-integer zero, equality and parity tests","For proper limbs, big_is_zero / is_equal / is_even output 1 exactly when the integer is zero / the integers are equal / the integer is even, else 0, under every satisfying assignment.","all proper limb vectors, all satisfying assignments",ADV,[EB+"big_is_zero.rs",EB+"big_is_equal.rs",EB+"big_is_even.rs"])
add("check_carry_to_zero forces divisibility by the limb base power","If the limbs hold signed integers bounded by 2^max_limb_bits and the stated width condition holds, a satisfying assignment of check_carry_to_zero exists only if the integer spelled by the limbs is 0 modulo 2^(n*k); and the honest prover succeeds whenever it is.","all limb vectors and widths, all satisfying assignments",ADV,[EB+"check_carry_to_zero.rs"])
add("FpChip::carry_mod reduces without changing the residue","For every overflowed CRT integer within the documented size bound, carry_mod returns proper n-bit limbs of a number with at most as many bits as the modulus that is congruent to the input modulo the foreign prime, for every satisfying assignment; the honest prover succeeds and obtains the canonical residue.","all overflowed integers in range, all cell values",ADV,[EB+"carry_mod.rs",EF+"fp.rs:carry_mod"])
add("FpChip::check_carry_mod_to_zero accepts exactly multiples of the modulus","For every overflowed CRT integer within the size bound, the constraints are satisfiable only if the integer is 0 modulo the foreign prime, and the honest prover succeeds if it is.","all overflowed integers in range, all cell values",ADV,[EB+"check_carry_mod_to_zero.rs",EF+"fp.rs:check_carry_mod_to_zero"])
add("FpChip loading and range checks","load_private gives proper limbs with at most modulus-many bits, load_private_reduced and enforce_less_than force a canonical residue, load_constant forces the given constant, range_check forces the bit bound, is_less_than_p and is_even compute their predicate; the honest prover succeeds on every field element.","all field elements, all satisfying assignments",ADV,[EF+"fp.rs:load_private",EF+"fp.rs:range_check",EF+"fp.rs:enforce_less_than",EF+"mod.rs:load_private_reduced"])
add("FpChip tests, negation and selection","is_zero, is_equal and assert_equal are exact on carried inputs (and force them to be canonical); the unchecked is_soft_zero and is_equal_unenforced are exact on canonical inputs; negate computes the additive inverse; select and select_by_indicator return exactly the chosen input.","all carried inputs, all satisfying assignments",ADV,[EF+"fp.rs",EF+"mod.rs",EB+"select.rs",EB+"select_by_indicator.rs"])
add("FpChip multiplication and division","mul returns the product modulo the foreign prime; divide and neg_divide force the divisor to be non-zero and return u/v and -u/v; the unsafe variants return a w with w*v = u (resp. -u), which is the quotient whenever v is non-zero; for every satisfying assignment within the size bound, and the honest prover succeeds.","all inputs within the size bound, all satisfying assignments",ADV,[EF+"mod.rs:mul",EF+"mod.rs:divide",EF+"mod.rs:divide_unsafe",EF+"mod.rs:neg_divide"])
EC="halo2-ecc/src/ecc/mod.rs"
add("Curve additions compute the group law","For curve points represented in the circuit, a satisfying assignment of ec_add_unequal / ec_sub_unequal / ec_double / ec_double_and_add_unequal yields a point equal to P+Q, P-Q, 2P, 2P+Q of the elliptic-curve group; with is_strict the operands are forced to have different x-coordinates, and doubling excludes points of order two; the honest prover succeeds exactly on the documented inputs.","all points, all satisfying assignments, both strictness modes",ADV,[EC+":ec_add_unequal",EC+":ec_sub_unequal",EC+":ec_double",EC+":ec_double_and_add_unequal"])
add("Assigned points are on the curve","load_private, load_random_point and check_is_on_curve accept exactly points of the curve; assign_point accepts exactly points of the curve and (0,0); is_on_curve_or_infinity outputs 1 exactly for those; assign_constant_point forces the given coordinates.","all coordinates, all satisfying assignments",ADV,[EC+":check_is_on_curve",EC+":load_private",EC+":is_on_curve_or_infinity",EC+":assign_point"])
add("Point selection, comparison, negation and strict subtraction","ec_select and ec_select_from_bits return exactly the selected point; is_equal is 1 exactly for equal coordinates and assert_equal forces it; negate returns (x,-y); ec_sub_strict returns P-Q, with (0,0) when P = Q, and rejects P = -Q.","all points, selectors and satisfying assignments",ADV,[EC+":ec_select",EC+":ec_select_from_bits",EC+":is_equal",EC+":negate",EC+":ec_sub_strict"])
add("get_naf is a signed binary recoding of its input","For every vector of 64-bit limbs, if get_naf returns then its digits are in {-1,0,1}, their signed binary value is the value of the limbs, and inside each 64-digit block no two neighbours are non-zero; it returns for every value up to half of the capacity.","all limb vectors of all lengths","there are infinitely many exponents; carries across limbs are rare in samples",[EC+":get_naf"])
add("Multi-scalar multiplication computes the group sum","For points on the curve with y != 0, or (0,0) for the identity, and scalars given as equally many limbs, every satisfying assignment of multi_scalar_multiply / scalar_multiply yields sum_i t_i*P_i (with (0,0) for the identity), where t_i is the integer spelled by limbs of at most max_bits bits equal to the scalar cells in the native field; the integers are exactly the cell values when 2^max_bits does not exceed the native modulus, and the result is exact for full-width scalars when the native modulus annihilates the points. The accumulator's random point cannot influence the result.","all points, scalars, limb counts, max_bits, window sizes, random points and satisfying assignments",ADV,[EC+":multi_scalar_multiply",EC+":scalar_multiply"])
add("EccChip::sum adds finite points","For points of the curve (none at infinity), every satisfying assignment of sum yields exactly the group sum, which is then finite, whatever random point the prover uses.","all lists of points, all random points, all satisfying assignments",ADV,[EC+":EccChip::sum"])
FB="halo2-ecc/src/ecc/fixed_base.rs"
add("Fixed-base scalar multiplication computes the group multiple","For a constant finite base point g of the curve none of whose precomputed multiples is the identity (in particular a point of prime order above 2^window_bits), every satisfying assignment of fixed_base::scalar_multiply yields t*g, with (0,0) for the identity, where t is spelled by limbs of at most max_bits bits equal to the scalar cells in the native field; for the identity as base point the result is (0,0). The random point cannot influence the result.","all constant base points, scalars, limb counts, max_bits, window sizes, random points and satisfying assignments",ADV,[FB+":scalar_multiply"])
add("ECDSA verification accepts only valid signatures","For a public key and generator of prime order n (n at most the base modulus), numbers r, s and digest in proper limbs of at most as many bits as n, and a digest not divisible by n: in every satisfying assignment of ecdsa_verify_no_pubkey_check the output is a bit, and if it is 1 the signature satisfies the textbook verification equation (1 <= r,s < n, R = (h/s)G + (r/s)PK finite, x(R) mod n = r).","all keys, signatures, digests, window sizes, random points and satisfying assignments (a malicious prover)",ADV,["halo2-ecc/src/ecc/ecdsa.rs:ecdsa_verify_no_pubkey_check"])
add("Schnorr verification accepts only valid signatures","For a public key and generator of prime order n and numbers in proper limbs: in every satisfying assignment of schnorr_verify_no_pubkey_check the output is a bit, and if it is 1 the signature satisfies BIP-340's equation (r < p, s, e < n, R = sG - eP finite, y(R) even, x(R) = r).","all keys, signatures, challenges, window sizes, random points and satisfying assignments (a malicious prover)",ADV,["halo2-ecc/src/ecc/schnorr_signature.rs:schnorr_verify_no_pubkey_check"])

SHA="hashes/zkevm/src/sha256/vanilla/"
add("The SHA-256 circuit computes SHA-256","For every assignment of the advice cells that satisfies all gates of Sha256CircuitConfig (fixed columns as multi_sha256 assigns them), in any number of blocks: each block's is_final cell is 0 or 1, and for each maximal run of blocks ending in a final block there is a byte string shorter than 2^29 bytes whose length is the length cell, whose little-endian words (zero-filled) are the word_values cells of those blocks, that needs exactly that many blocks, and whose FIPS 180-4 SHA-256 digest is the output (hi, lo). Hence the digest is the one of any byte string matching the length and word cells.","all tables, block counts, input lengths and satisfying assignments (a malicious prover)",ADV,[SHA+"constraints.rs:Sha256CircuitConfig::new",SHA+"witness.rs:multi_sha256",SHA+"witness.rs:AssignedSha256Block"])
add("Configuring the SHA-256 circuit does not panic","Every constraint created by Sha256CircuitConfig::new has degree at most the maximal degree 4, so the degree assertion of the constraint builder never fires.","all fields","the assertion is checked on expressions built once per field; a proof covers every field and every constraint",[SHA+"constraints.rs:Sha256CircuitConfig::new","hashes/zkevm/src/util/constraint_builder.rs:validate_degree"])
add("The SHA-256 circuit accepts every honest witness","For every list of byte strings shorter than 2^29 bytes and every capacity, generate_witnesses_multi_sha256 panics exactly when the inputs need more blocks than the capacity; otherwise the assigned table has exactly 72 rows per block of the capacity, satisfies every gate whatever the remaining cells hold, and for each input, at the block offset given by the earlier inputs, the returned cells hold its length, words and SHA-256 digest. get_num_sha2_blocks counts exactly the blocks of an input and get_sha2_capacity is the largest capacity that fits the rows.","all fields, lists of inputs, capacities and tables","padding boundaries, empty inputs, capacity boundaries and combinations of inputs are unboundedly many",[SHA+"witness.rs:generate_witnesses_multi_sha256",SHA+"witness.rs:multi_sha256",SHA+"util.rs:get_num_sha2_blocks",SHA+"util.rs:get_sha2_capacity"])

KEC="hashes/zkevm/src/keccak/vanilla/"
add("The Keccak circuit computes Keccak-256","In every accepted assignment of the Keccak circuit (fixed columns as assigned by KeccakCircuitConfig::assign, all gates and lookups satisfied), consecutive blocks whose loaded cells declare a byte string (bytes_left, little-endian words, is_final) carry in hash_lo, hash_hi the Keccak-256 digest of that byte string, whatever k and rows_per_round are.","all k, rows_per_round, byte strings, block counts and satisfying assignments (a malicious prover)",ADV,[KEC+"mod.rs:KeccakCircuitConfig::new",KEC+"keccak_packed_multi.rs:transform_to",KEC+"cell_manager.rs:CellManager::start_region",KEC+"mod.rs:KeccakCircuitConfig::assign"])
KCO="hashes/zkevm/src/keccak/component/"
add("Keccak lookup keys computed in circuit are those of the message","For every satisfying assignment with an initialised hasher, encode_fix_len_bytes_vec returns the Poseidon key of the byte string spelled by the cells, and encode_var_len_bytes_vec that of the first len bytes, whatever the later cells hold; honest runs succeed.","all fields whose words-per-element divide 18, all byte vectors, lengths up to the maximum, Poseidon parameters and satisfying assignments",ADV,[KCO+"encode.rs:encode_fix_len_bytes_vec",KCO+"encode.rs:encode_var_len_bytes_vec",KCO+"encode.rs:format_input"])
add("The Keccak component shard publishes the keys and digests of the loaded blocks","For every satisfying assignment, if the loaded keccak_f cells declare a sequence of messages with digests, the published instances (raw columns or commitment) are, per message, the dummy output for every block but the last and then its key and declared digest; with the right digests and trailing empty messages they equal the natively computed instances; honest runs succeed.","all capacities, message lists, block layouts, publish modes and satisfying assignments",ADV,[KCO+"circuit/shard.rs:generate_base_circuit_witnesses",KCO+"circuit/shard.rs:generate_circuit_final_outputs",KCO+"circuit/shard.rs:publish_outputs",KCO+"circuit/shard.rs:pack_inputs_from_keccak_fs",KCO+"output.rs:multi_inputs_to_circuit_outputs"])
add("Native Keccak component outputs","encode_native_input is the specified key; the elements hashed into it determine the message; multi_inputs_to_circuit_outputs lists, per input, the dummy output for each block but the last and its key and Keccak-256 digest, filled with dummy outputs to the capacity, and panics exactly when the inputs need more blocks than the capacity.","all lists of byte strings and capacities","block boundaries, empty inputs and collisions of the packing are unboundedly many",[KCO+"encode.rs:encode_native_input",KCO+"output.rs:multi_inputs_to_circuit_outputs",KCO+"output.rs:input_to_circuit_outputs"])
add("Keccak shard parameters fit the requested capacity","KeccakComponentShardCircuitParams::new chooses the largest rows_per_round with which the capacity fits in the usable rows, the Keccak circuit then has at least that capacity, and it panics exactly when none fits.","all k, unusable rows and capacities","rounding boundaries",[KCO+"circuit/shard.rs:KeccakComponentShardCircuitParams::new",KEC+"keccak_packed_multi.rs:get_keccak_capacity"])
add("Keccak ingestion format","format_requests_for_ingestion returns the blocks of all requests in order (zero-filled bytes, length in the first block, final flag and digest in the last, zero digest elsewhere), cut or completed with empty messages to the capacity, and the number of blocks needed; each entry holds exactly the words of its part of the key.","all lists of requests, given or missing digests, capacities","block boundaries and combinations of requests are unboundedly many",[KCO+"ingestion.rs:format_requests_for_ingestion"])

add("Field-vector operations act coordinate by coordinate","On vectors of CRT integers, the no-carry operations, carry_mod, negate, select, load_* compute the named operation in every coordinate; is_zero, is_equal, assert_equal, enforce_less_than are exact on carried inputs and force canonical coordinates, is_soft_zero and is_equal_unenforced are exact on canonical inputs, is_soft_nonzero is 1 exactly when some coordinate is non-zero and below the modulus; for every satisfying assignment, and the honest prover succeeds. Arguments of different lengths are a panic except for assert_equal, which compares up to the end of the shorter one.","all lengths, limb sizes, values and satisfying assignments",ADV,[EF+"vector.rs:FieldVectorChip"])
add("Fp2Chip computes in Fp[u]/(u^2+1)","mul_no_carry, mul, conjugate, neg_conjugate and multiplication by xi0 + u compute the named operation of Fp[u]/(u^2+1); divide and neg_divide force a non-zero divisor and return the quotient; the unsafe variants return some w with w*y = x (resp. -x), the quotient when y is non-zero; for every satisfying assignment within the size bound, and the honest prover succeeds (division: for non-zero divisors).","all primes 3 mod 4, limb sizes, inputs and satisfying assignments",ADV,[EF+"fp2.rs:Fp2Chip",EF+"fp12.rs:mul_no_carry_w6",EF+"mod.rs:divide",EF+"mod.rs:neg_divide"])
add("Fp12Chip computes in Fp2[w]/(w^6-xi)","mul_no_carry and mul compute the product in Fp2[w]/(w^6 - (xi0 + u)), which is the product of the tower Fq2, Fq6, Fq12 under the coordinate conversions of the FieldExtConstructor; fp2_mul_no_carry scales by an Fp2 element; conjugate is w -> -w; divide forces a divisor with some non-zero coordinate and a w with w*v = u, which is u*v^-1 whenever v is invertible; for every satisfying assignment within the size bound, and the honest prover succeeds (division: for invertible divisors).","all primes 3 mod 4, xi0, limb sizes, inputs and satisfying assignments",ADV,[EF+"fp12.rs:Fp12Chip",EF+"mod.rs:divide"])
add("NativeFieldChip computes in the circuit's own field","Additions, subtraction, negation, multiplications, scalar multiples, selection, is_zero, is_equal, assert_equal, check_carry_mod_to_zero, range_check compute or enforce the named operation of the native field, divide and neg_divide force a non-zero divisor and return the quotient; for every satisfying assignment, and the honest prover succeeds. The exception is is_soft_nonzero, which returns minus the zero test: 0 for every non-zero element and -1 for 0.","all fields, values and satisfying assignments",ADV,[EF+"native_fp.rs:NativeFieldChip",EF+"mod.rs:divide"])
FE="halo2-ecc/src/bn254/final_exp.rs:"
add("The Frobenius map of Fp12Chip raises to powers of the field size","With halo2curves' Frobenius table, frobenius_map(a, j) returns the product of q^j copies of a in Fp2[w]/(w^6 - xi) for every j (q the size of the base field), and conjugate is the map for j = 6; for every satisfying assignment, and the honest prover succeeds.","all primes 3 mod 4 and 1 mod 6 for which xi^((q^2-1)/6) is a primitive sixth root of unity, all limb sizes, powers, inputs and satisfying assignments",ADV,[FE+"frobenius_map",EF+"fp12.rs:conjugate"])
add("Powers and compressed cyclotomic arithmetic in Fp12","pow(a, e) returns a^e for non-zero a and non-zero exponent (e = 0 returns a). On the compression of an element of the cyclotomic subgroup, cyclotomic_square returns the compression of its square, cyclotomic_decompress returns the element unless it is 1, and cyclotomic_pow(a, e) returns a^e if none of a, ..., a^(e+1) is 1; for every satisfying assignment, and the honest prover succeeds if the intermediate divisions are possible. At 1 the decompression divides 0 by 0 and the prover can choose the result.","all such fields, exponents of any number of u64 limbs, inputs and satisfying assignments",ADV,[FE+"pow",FE+"cyclotomic_compress",FE+"cyclotomic_decompress",FE+"cyclotomic_square",FE+"cyclotomic_pow"])
add("final_exp computes the final exponentiation of the pairing","For a BN field with parameter x and prime group order r, easy_part(a) returns a^((q^6-1)(q^2+1)), and final_exp(a) returns a^((q^12-1)/r) for every non-zero a whenever that power is not 1; if the output is 1 then a^((q^12-1)/r) = 1, so a passing pairing check is never a lie; for every satisfying assignment. The honest prover succeeds if the intermediate divisions are possible.","all BN parameters, limb sizes, inputs and satisfying assignments",ADV,[FE+"final_exp",FE+"easy_part",FE+"hard_part_BN"])

PR="halo2-ecc/src/bn254/pairing.rs:"
add("Line functions, sparse products and curve arithmetic of the pairing","sparse_line_function_unequal and _equal return the line through two points (resp. the tangent) of the twisted curve evaluated at P, as an element of Fp12; sparse_fp12_multiply and the multiply-with-line functions return the product with it; doubling, addition and negation over Fp2 follow the chord and tangent law, twisted_frobenius is the q-power Frobenius endomorphism of E(Fp12) on twisted points; for every satisfying assignment, and the honest prover succeeds where the affine formulas are defined.","all points, all Fp12 elements, all assignments","36 unreduced partial products whose integer bounds must hold for every input",[PR+"sparse_line_function_unequal",PR+"sparse_line_function_equal",PR+"sparse_fp12_multiply",PR+"fp12_multiply_with_line_unequal",PR+"twisted_frobenius",PR+"neg_twisted_frobenius"])
add("The Miller loops compute the optimal Ate Miller function","For every digit list, miller_loop_BN(Q, P) returns the value of Miller's algorithm for the optimal Ate pairing (the digit loop, then the lines with pi(Q) and -pi^2(Q)) whenever the affine steps are defined, and multi_miller_loop_BN the product over all pairs; for every satisfying assignment, and the honest prover succeeds. The value is non-zero when P is not of order 2 and the last line joins points with different x.","all pairs of points, all digit lists, all assignments","loops over digit lists of any length; each step is a non-deterministic division",[PR+"miller_loop_BN",PR+"multi_miller_loop_BN"])
add("The pairing and the pairing check","pairing(Q, P) returns the Miller value raised to (q^12-1)/r whenever that power is not 1, and an output 1 is never a lie; pairing_check(Q, P, T, S) is satisfiable only if e(Q, P) = e(T, S), whatever the prover does; the honest prover passes it whenever they are equal and no power met by the final exponentiation is exceptional.","all points, all assignments, all BN parameters with prime group order","the prover chooses every quotient and decompression; soundness needs e(Q,-P) e(Q,P) = 1, an identity of Fp12",[PR+"PairingChip::pairing",PR+"PairingChip::pairing_check"])
add("BLS verification decides the pairing equation","bls_signature_verify on loaded, aggregated points outputs 1 only if e(g1, sig) = e(pk, H(m)), outputs 0 whenever the two pairings differ, for every satisfying assignment; the honest prover obtains 1 when they are equal and 0 when they differ, as long as no power met by the final exponentiation is exceptional.","all points, all digit lists, all assignments, all BN parameters with prime group order","the output must be right for every assignment of the prover, who chooses every quotient and decompression",["halo2-ecc/src/bn254/bls_signature.rs:BlsSignatureChip::bls_signature_verify"])
EC="halo2-ecc/src/ecc/mod.rs:"
add("Points of the twisted curve in circuits","Over the quadratic extension, load_private and check_is_on_curve are satisfiable exactly for points of the twisted curve; strict addition and subtraction are satisfiable only for operands with different x and then return the sum or difference, whatever representation a non-strict operand has; into_strict_point forces a canonical x; sum of finite points of the curve returns their sum in the group of the curve (never infinity); for every satisfying assignment, and the honest prover succeeds when no partial sum, started at the random point, meets the x of the next point.","all points, all numbers of summands, all random points, all assignments","the prover chooses the random point, every slope and every representation",[EC+"EccChip::load_private",EC+"check_is_on_curve",EC+"ec_add_unequal",EC+"ec_sub_unequal",EC+"into_strict_point",EC+"EccChip::sum"])
add("Aggregated BLS signatures are verified against the sum of the public keys","bls_signature_verify panics unless there are as many signatures as public keys and at least one; in every satisfying assignment the points it loaded lie on their curves, the sums are those of the groups, and the flag is 1 only if e(g1, sum of signatures) = e(sum of public keys, H(m)) and 0 whenever the two differ; the honest prover obtains the value of the equation when no sum and no power meets an exceptional case.","all lists of signatures and public keys, all assignments, all BN parameters with prime group order","lists of any length, and the prover chooses every point, slope, quotient and decompression",["halo2-ecc/src/bn254/bls_signature.rs:BlsSignatureChip::bls_signature_verify",PR+"PairingChip::load_private_g1",PR+"PairingChip::load_private_g2"])
add("Multi-scalar multiplication picks either algorithm without changing the result","variable_base_msm_custom (windowed up to 25 points, Pippenger multi_exp_par above): for every satisfying assignment, whatever random point and representations the prover chooses, the returned point is sum_i s_i P_i for scalars s_i whose limbs are integers of max_bits bits congruent to the scalar cells, with (0, 0) standing for the identity among inputs and output; limbs of at most CAPACITY bits are the cell values themselves, and full-width single limbs give the multiple by the cell value when the native modulus annihilates the points.","all point lists, scalar lists, bit lengths, clump factors and satisfying assignments (a malicious prover)",ADV,["halo2-ecc/src/ecc/pippenger.rs:multi_exp_par","halo2-ecc/src/ecc/mod.rs:variable_base_msm_custom","halo2-ecc/src/ecc/mod.rs:strict_ec_select_from_bits"])
add("Builders and pools keep the stage they were made for","For every sequence of calls (main, new_thread, parallel threads, set_break_points, unknown, clear, clone) on a builder made with from_stage or prover: pool i is in phase i, records constraints exactly when the stage is not Prover, and gives that flag to all its contexts; break_points returns what set_break_points was given, which succeeds exactly when no phase in use is left without break points, and a prover builder keeps the pinned break points of every phase; unknown(u) sets the flag of exactly the pools existing at that call, so a Keygen builder hides the witness values of phase 0 and of no later phase.","all stages, call histories and break point lists","history property: flags are copied when a phase is first touched",["halo2-base/src/gates/circuit/builder.rs:{new,from_stage,prover,set_break_points,break_points,unknown,clear}","halo2-base/src/gates/flex_gate/threads/multi_phase.rs:{new,touch,unknown,clear}","halo2-base/src/gates/flex_gate/threads/single_phase.rs:{new,in_phase,new_context,main,new_thread,assign_raw}"])
