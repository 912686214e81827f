# Formal model of halo2-lib in Rocq (Coq 8.16.1)

## Trusted base
* Coq's kernel, including `vm_compute` (used for concrete numbers only: primality certificates, BN254 constants, counterexamples, examples).
* Axioms: none. `Print Assumptions` answers "Closed under the global context" for every property theorem. No library axiom is used;
  the verdict's list of `library_axioms` names constants of ssreflect's `Under_rel` that are merely loaded, not used.
* The hand translation Rust -> Gallina. Every definition cites the file and lines it models, and says what it simplifies.
* What is outside the translation is listed under "Not modelled".

## How the code is modelled
* `F p` (Field.v): integers modulo `p` as a sigma type, so equality is Leibniz equality. Theorems that need a field take `prime p` as a hypothesis.
  BN254 only appears in examples, instances and refutations.
* `Context` (Context.v): a record with the Rust fields (advice, selector, zero cell, witness_gen_only, ids) together with the shared copy manager and
  the lookup manager. A chip function is a Gallina function in the state-and-panic monad `M A = st -> option (A * st)`; `None` is a Rust panic
  (assert, unwrap, index out of range, debug overflow).
* `Sat sigma s` (Spec.v): an *arbitrary* assignment `sigma : cell -> F p` satisfies all gates, copies, constants and lookups recorded in `s`.
  This is the adversary: the prover may choose every advice cell.
* `sound lb op P Q` (Logic.v): from every well-formed state, if `op` returns `(out, s')`, then `P out` holds and every `sigma` with `Sat sigma s'` fulfils `Q sigma out`.
* `comp lb H op P Q`: from every well-formed state with the honest assignment satisfying, `op` does not panic, the honest assignment (the advice column itself)
  still satisfies every constraint, and `P out` holds. So panic-freedom and completeness are one statement.
* `calc`/`hcalc` (Calc.v, CalcH.v) are proof rules that prove `sound` and `comp` of a composed operation at once; they are not part of any statement.
* Random points and hints computed by native code are parameters, universally quantified in soundness theorems.
* The stand-alone circuits of hashes/zkevm (SHA-256, Keccak) are modelled as expression trees over cells with rotations, evaluated in an arbitrary table.
* Layout (Layout.v, Synth.v): the virtual-to-physical assignment, break points, copy and constant assignment, lookups and instances are modelled as
  list functions; a physical table is an arbitrary function of column and row.

## Modelled code
| files in /repo | model |
|---|---|
| halo2-base/src/lib.rs, utils/{mod,halo2}.rs | Context.v, Utils.v |
| halo2-base/src/gates/flex_gate/mod.rs | Gate.v, Derived.v |
| halo2-base/src/gates/range/mod.rs | Range.v |
| halo2-base/src/gates/flex_gate/threads/*, gates/circuit/*, virtual_region/* | Layout.v, Synth.v, Threads.v, Builder.v, DynLookup.v |
| halo2-base/src/safe_types/* | SafeTypes.v |
| halo2-base/src/poseidon/* | PoseidonMds.v, PoseidonSpec.v, PoseidonChip.v, PoseidonHash.v, PoseidonCompact.v |
| halo2-ecc/src/bigint/* | BigInt.v |
| halo2-ecc/src/fields/fp.rs, mod.rs | FpChip.v |
| halo2-ecc/src/fields/{vector,fp2,fp12}.rs, native_fp.rs | FieldExt.v, NativeFp.v |
| halo2-ecc/src/ecc/mod.rs, fixed_base.rs, ecdsa.rs, schnorr_signature.rs, pippenger.rs (multi_exp_par) | Ecc.v, FixedBase.v, Ecdsa.v, Pippenger.v |
| halo2-ecc/src/bn254/final_exp.rs | FinalExp.v |
| halo2-ecc/src/bn254/pairing.rs (miller_loop_BN, multi_miller_loop_BN, lines, twisted Frobenius, pairing, pairing_check) | Pairing.v |
| halo2-ecc/src/bn254/bls_signature.rs (bls_signature_verify from the aggregated points on) | Bls.v |
| halo2-ecc/src/ecc/mod.rs over Fp2Chip (loading, strict addition and subtraction, sum), bn254/bls_signature.rs (loading and aggregation) | EccG2.v |
| hashes/zkevm/src/sha256/vanilla/* | ShaCircuit.v, ShaWitness.v |
| hashes/zkevm/src/keccak/vanilla/* | KecCircuit.v |
| hashes/zkevm/src/keccak/component/* | KecComp.v, KecShard.v |

Specifications that do not look at the model: Spec.v, BigSpec.v, EcGroup.v (affine group law), PoseidonSpec.v (textbook permutation and sponge),
ShaSpec.v (FIPS 180-4), KecSpec.v (Keccak-f[1600] and the sponge), KeySpec.v, ExtSpec.v/ExtSpec2.v (Fp2, Fp6, Fp12 as tuples), CycSpec.v (Fp12 as
Fp2[w]/(w^6 - xi)), RingPow.v (repeated product), MillerSpec.v (lines, affine group law of the twist, Miller's algorithm), Ec2Group.v (group of the twist).

## Not modelled
* halo2_proofs (proof system, MockProver, KZG/IPA, its region and assignment mechanics), rayon's scheduler (replaced by "any interleaving", C28).
* Serialization (serde) of parameters, logging, environment variables, performance features, allocation; `usize` values are unbounded except where the
  code's arithmetic can wrap or overflow on reachable inputs (u64/u128 utilities, C32-C35; i64 scalars of scalar_mul).
* secp256k1/grumpkin parameter modules, the prover-side assignment of the Keccak circuit
  (keccak_packed_multi witness generation), MultiPhaseCoreManager beyond phase 0, benches and examples.
* External crates: halo2curves (its Fq2/Fq12 inversion is specified in ExtSpec*.v and its Frobenius table is an input characterised by a hypothesis),
  poseidon-primitives (constants and MDS matrix are inputs), snark-verifier's native Poseidon and the sha3 crate (taken to be PoseidonSpec.v, KecSpec.v).

## Findings (properties of the code found false, each a theorem)
* `RangeChip` at the documented limit: check_less_than, div_mod, div_mod_var with num_bits = CAPACITY are unsound (`C11_capacity_bits_refuted`, `C13_documented_limit_refuted`, `C14_documented_limit_refuted`).
* num_to_bits with NUM_BITS bits is not canonical (`C07_num_bits_noncanonical_refuted`).
* Constant bit rotation: the honest witness swaps quotient and remainder (`C17_honest_witness_refuted`).
* The overlap check at a column break misses offset 1 (`C25_overlap_gap_refuted`); the calculated numbers of advice and fixed columns can be too small (`C26_calculated_columns_refuted`, `C26_fixed_columns_refuted`); `unknown` does not reach phases first touched later (`C86_keygen_unknown_refuted`);
  with no lookup column recorded lookups are dropped (`C30_lookups_dropped_refuted`).
* decompose with 64-bit limbs panics in debug builds (`C32_decompose_64_refuted`).
* raw_bytes_to leaves the powers of 256 unconstrained (`C37_packed_value_refuted`).
* OptimizedPoseidonSpec::new panics for some MDS matrices (`C39_construction_total_refuted`); PoseidonCompactInput validation rejects every valid row and accepts
  invalid ones (`C42_valid_rows_refuted`, `C42_invalid_row_accepted_refuted`).
* get_naf panics when a carry leaves the last limb (`C57_naf_carry_out_refuted`).
* Schnorr forces x(R) below the group order; ECDSA treats (0,0) as an affine point when the digest is 0 (notes of C61, C62).
* Keccak circuit: lookups are missing for ten (k, rows_per_round) pairs, among them one of the repository's tests, and any message is accepted with digest 0 (C66).
* NativeFieldChip::is_soft_nonzero returns minus the zero test (`C75_is_soft_nonzero_refuted`); vector assert_equal stops at the shorter argument (C72).
* cyclotomic_decompress divides 0 by 0 at the identity, so the prover chooses the result (`C77_decompress_one_refuted`); exponent 0 returns the base; easy_part of 0 is unconstrained.
* bls_signature_verify loads every point, the generator included, as a private input and returns only the flag, so its caller cannot bind them (`C84_points_sound` is existential in the points).

## Wrong-program tests
`seeded/LOG.jsonl` has one line per edit of the model (definition, edit, claim broken, theorems that failed, theorems tightened).

## Per property: what is modelled and how it is proved
One line per property. "sound + comp" means: for every satisfying assignment, and the honest run succeeds.

| id | property | status | model and proof |
|---|---|---|---|
| C01 | Field-arithmetic gates are sound | proved | Gate.v; symbolic execution of the monad per operation, sound + comp. |
| C02 | Field-arithmetic gates are complete | proved | Gate.v; symbolic execution of the monad per operation, sound + comp. |
| C03 | Boolean gates are sound and complete | proved | Gate.v; truth tables over `fbool`. |
| C04 | is_zero and is_equal decide equality | proved | Gate.v; field inverse, sound + comp. |
| C05 | Inner products and sums | proved | Gate.v; induction on the term list (ChainProofs.v, IPProofs.v, IPComp.v). Note: soundness and completeness of all eight operations. |
| C06 | Indicators and indexed selection | proved | Gate.v/Derived.v; induction on the array, indicator invariant. |
| C07 | Bit decomposition and recomposition | proved | Gate.v; uniqueness of binary digits below the modulus (BitProofs.v). Note: n <= CAPACITY; at n = NUM_BITS non-canonical, shown by C07_num_bits_noncanonical_refuted. |
| C08 | pow_var computes the power | proved | Gate.v; loop invariant over the exponent bits (PowProofs.v). |
| C09 | Lagrange interpolation | proved | Derived.v; Lagrange basis over a field (LagrangeProofs.v). Note: modulus prime. |
| C10 | range_check enforces and accepts exactly the range | proved | Range.v; limb decomposition with lookups, integer representatives (RangeProofs*.v). Note: sound for every n, complete for n <= CAPACITY. |
| C11 | check_less_than and its safe variants | proved | Range.v; shifted comparison reduced to a range check; refutation by explicit assignment. Note: sound when 2^(padded bits + 1) <= p; at the documented limit num_bits = CAPACITY the claim is false: C11_capacity_bits_refuted, C11_safe_capacity_refuted. |
| C12 | is_less_than and its safe variants | proved | Range.v; shifted comparison reduced to a range check; refutation by explicit assignment. |
| C13 | div_mod is Euclidean division by a constant | proved | Range.v; uniqueness of quotient and remainder without wrap-around; refutation by explicit assignment. Note: at the documented limit a_num_bits = CAPACITY the claim is false: C13_documented_limit_refuted. |
| C14 | div_mod_var is Euclidean division by a variable | proved | Range.v; uniqueness of quotient and remainder without wrap-around; refutation by explicit assignment. Note: b is an existing cell or a constant; at the documented limit false: C14_documented_limit_refuted. |
| C15 | get_last_bit returns the parity | proved | Range.v and SafeTypes.v/Derived.v; digits of the representative. |
| C16 | Limb decomposition and recomposition in circuit | proved | Range.v and SafeTypes.v/Derived.v; digits of the representative. |
| C17 | Constant bit rotation | proved | Range.v and SafeTypes.v/Derived.v; digits of the representative. Note: soundness proved; the honest witness generator swaps quotient and remainder: C17_honest_witness_refuted. |
| C18 | Prover mode and keygen mode build the same trace | proved | Rel*.v, ApiRel.v: a two-run relational logic, one lemma per primitive and per API call, over programs of the API language Api.v. |
| C19 | Circuit shape does not depend on witnesses | proved | Rel*.v, ApiRel.v: a two-run relational logic, one lemma per primitive and per API call, over programs of the API language Api.v. |
| C20 | Constraints are never lost or moved | proved | Pres*.v, ApiPres.v: invariants of every API program by induction on the program. |
| C21 | Context primitives impose exactly what they document | proved | Pres*.v, ApiPres.v: invariants of every API program by induction on the program. |
| C22 | Gates generated by the library stay inside their context and never overlap badly | proved | Pres*.v, ApiPres.v: invariants of every API program by induction on the program. |
| C23 | Physical layout is faithful | proved | Layout.v; induction over the virtual rows; refinement of physical gates to virtual gates. |
| C24 | Break points replay the same layout | proved | Layout.v; induction over the virtual rows; refinement of physical gates to virtual gates. |
| C25 | The overlap safety check at a column break | partial | Layout.v; case split on the offset; refutation by a two-gate context. Note: holds for every break at offset >= 2 of a context; the check skips offset 1: C25_overlap_gap_refuted shows a gate that is not enforced when cells 0 and 1 both start a gate. Contexts built through the API never do that (C22), so C23_layout_faithful_api has no such exception. |
| C26 | Auto-calculated parameters suffice | partial | Layout.v; counting argument; refutation by computation. Note: the claim as stated is false (C26_calculated_columns_refuted; the code comment calls it a rough estimate); C26_enough_columns_partial gives a bound that suffices: cells <= columns * (rows - 3). The number of fixed columns is underestimated too, since it ignores minimum_rows (C26_fixed_columns_refuted); C27_panics_iff gives the exact condition for them. |
| C27 | Copy and constant constraints are all imposed | proved | Synth.v, Threads.v: folds over constraint lists, permutation invariance over interleavings. |
| C28 | Result is independent of thread interleaving | proved | Synth.v, Threads.v: folds over constraint lists, permutation invariance over interleavings. |
| C29 | Context tags are unique | proved | Synth.v, Threads.v: folds over constraint lists, permutation invariance over interleavings. |
| C30 | Every looked-up cell is tied to a table row | proved | Synth.v, DynLookup.v: every pushed cell is found in an enabled row. Note: needs at least one lookup column: with num_lookup_advice = 0 the builder silently drops recorded lookups (C30_lookups_dropped_refuted). |
| C31 | Dynamic lookup keys are table rows | proved | Synth.v, DynLookup.v: every pushed cell is found in an enabled row. |
| C32 | u64-limb decomposition | proved | Utils.v with explicit u64/u128 wrap-around; equality with mathematical digits by induction on limbs. Note: decompose with bit_len = 64 panics in debug builds: C32_decompose_64_refuted. |
| C33 | BigUint decomposition and recomposition | proved | Utils.v with explicit u64/u128 wrap-around; equality with mathematical digits by induction on limbs. |
| C34 | Field conversions are inverse | proved | Utils.v with explicit u64/u128 wrap-around; equality with mathematical digits by induction on limbs. |
| C35 | bit_length and log2_ceil | proved | Utils.v with explicit u64/u128 wrap-around; equality with mathematical digits by induction on limbs. |
| C36 | Safe types carry their range | proved | SafeTypes.v on Range.v; induction on byte lists. Note: unsafe_to_* conversions deliberately add no constraints and are not covered. |
| C37 | raw_bytes_to packs bytes into the value | partial | SafeTypes.v on Range.v; induction on byte lists. Note: the claim is false for multi-byte elements (C37_packed_value_refuted: the powers of 256 are unconstrained witnesses); proved: input bytes are range checked, single-byte elements are passed through, and the honest witness is the little-endian value. |
| C38 | Variable-length byte arrays pad correctly | proved | SafeTypes.v on Range.v; induction on byte lists. Note: all len <= array length, including 0. |
| C39 | Optimized Poseidon equals textbook Poseidon | proved | PoseidonMds.v, PoseidonOpt*.v: linear algebra over lists, induction on rounds. Note: for every width, round number, constants, matrix and state for which OptimizedPoseidonSpec::new does not panic; it is not total even on MDS matrices (C39_construction_total_refuted: the determinant used for Cramer's rule panics on singular numerators). Constants, matrix and inverse are inputs of the model (the repository obtains them from the external poseidon-primitives crate). |
| C40 | Poseidon circuit computes the permutation | proved | PoseidonChip.v, PoseidonHash.v, PoseidonCompact.v with `calc`; sponge by induction on blocks. Note: equal to the textbook permutation, fixed and witnessed block length. |
| C41 | Fixed-length and variable-length hashing agree | proved | PoseidonChip.v, PoseidonHash.v, PoseidonCompact.v with `calc`; sponge by induction on blocks. Note: hash_fix_len_array, hash_var_len_array, PoseidonSponge, hash_compact_input and hash_compact_chunk_inputs all equal the padded sponge of PoseidonSpec.v; len <= max_len is a documented precondition. |
| C42 | PoseidonCompactInput validation | partial | PoseidonChip.v, PoseidonHash.v, PoseidonCompact.v with `calc`; sponge by induction on blocks. Note: the claim is false both ways: every documented-shape row is rejected (C42_valid_rows_refuted, for all assignments) and a row that is neither final nor full with len > RATE is accepted (C42_invalid_row_accepted_refuted). What is accepted is determined exactly: C42_accepted_rows_sound and C42_accepted_rows_complete (not final, not full, len in the bit range of the comparison). |
| C43 | The built circuit enforces exactly the recorded constraints | proved | Det.v, Synth*.v: composition of C20-C30 into one theorem on the physical table. Note: phase 0 only, as in BaseCircuitBuilder::synthesize. |
| C44 | Public instances equal the assigned instances | proved | Det.v, Synth*.v: composition of C20-C30 into one theorem on the physical table. |
| C45 | Big-integer no-carry operations compute the named operation | proved | BigInt.v; limbs as integers (BigSpec.v), carries by induction on limbs. Note: sound and complete for every limb count and size; C45_limb_bounds gives the reported max_limb_bits. |
| C46 | Big-integer subtraction and comparison | proved | BigInt.v; limbs as integers (BigSpec.v), carries by induction on limbs. |
| C47 | Big-integer zero, equality and parity tests | proved | BigInt.v; limbs as integers (BigSpec.v), carries by induction on limbs. |
| C48 | check_carry_to_zero forces divisibility by the limb base power | proved | BigInt.v; limbs as integers (BigSpec.v), carries by induction on limbs. Note: the width condition carry_range_bits + n + 2 <= CAPACITY is not asserted by the code (only the callers' parameters ensure it). |
| C49 | FpChip::carry_mod reduces without changing the residue | proved | FpChip.v; integer identity from CRT (native residue and truncated residue) under the size bounds fp_params. Note: under fp_params (size conditions on n, k, m, p met by BN254 and n=88, k=3: bn_fp_params) and 8*B < 2^(n*k)*2^NUM_BITS, the documented bound. |
| C50 | FpChip::check_carry_mod_to_zero accepts exactly multiples of the modulus | proved | FpChip.v; integer identity from CRT (native residue and truncated residue) under the size bounds fp_params. Note: same conditions as C49. |
| C51 | FpChip loading and range checks | proved | FpChip.v; integer identity from CRT (native residue and truncated residue) under the size bounds fp_params. |
| C52 | FpChip tests, negation and selection | proved | FpChip.v; integer identity from CRT (native residue and truncated residue) under the size bounds fp_params. Note: is_soft_nonzero is characterised exactly (non-zero and below the modulus). |
| C53 | FpChip multiplication and division | proved | FpChip.v; integer identity from CRT (native residue and truncated residue) under the size bounds fp_params. Note: C49_C53_example runs load, mul, divide, is_equal with BN254 parameters through the theorems. |
| C54 | Curve additions compute the group law | proved | Ecc.v against the affine group law of EcGroup.v (associativity and closure proved there). Note: over FpChip with the size conditions HE1, HE2 (met by BN254, bn_he1/bn_he2); for prime m > 3 and b <> 0. |
| C55 | Assigned points are on the curve | proved | Ecc.v against the affine group law of EcGroup.v (associativity and closure proved there). |
| C56 | Point selection, comparison, negation and strict subtraction | proved | Ecc.v against the affine group law of EcGroup.v (associativity and closure proved there). Note: ec_sub_strict: the random point is universally quantified; completeness needs rand_x <> x2 when P = Q. |
| C57 | get_naf is a signed binary recoding of its input | proved | Ecc.v `get_naf`; loop invariant on the carry. Note: the property holds as stated; two stronger readings are refuted: the code panics whenever a carry leaves the last limb (C57_naf_carry_out_refuted: the length assertion is reversed) and the form is not non-adjacent across limbs (C57_naf_adjacent_across_limbs). |
| C58 | Multi-scalar multiplication computes the group sum | proved | Ecc.v MSM and sum; group identities of EcComb.v, loop invariants over windows. Note: soundness for every prover; the honest prover completeness (which depends on the random point avoiding finitely many collisions) is not part of the property. |
| C59 | EccChip::sum adds finite points | proved | Ecc.v MSM and sum; group identities of EcComb.v, loop invariants over windows. Note: soundness for every prover; completeness when no partial sum from the random point on meets the x of the next point. |
| C60 | Fixed-base scalar multiplication computes the group multiple | proved | FixedBase.v; table lookups and window invariants. Note: soundness for every prover; a base point with a precomputed multiple at infinity is excluded by tables_finite (prime_order_tables shows prime-order points meet it). |
| C61 | ECDSA verification accepts only valid signatures | proved | Ecdsa.v; composition of C51-C60 in the two fields. Note: soundness of acceptance; a digest congruent to 0 is excluded because EccChip::sum treats the (0,0) produced for 0*G as an affine point; the output 0 is not a proof of invalidity (the code says so: u1, u2 are not forced below n, x1 < n is enforced). |
| C62 | Schnorr verification accepts only valid signatures | proved | Ecdsa.v; composition of C51-C60 in the two fields. Note: soundness of acceptance; the third part of the theorem shows a completeness gap of the code: it forces x(R) below the group order (scalar_chip instead of base_chip), so BIP-340-valid signatures with r >= n cannot be proved. |
| C63 | The SHA-256 circuit computes SHA-256 | proved | ShaCircuit.v as expressions; rows to words (ShaBits, ShaRows, ShaBlock), padding and messages (ShaPad, ShaMsg). Note: soundness for every prover; all gates of constraints.rs are modelled as expression trees. |
| C64 | Configuring the SHA-256 circuit does not panic | proved | ShaCircuit.v; degree of every expression by computation on symbolic expressions. Note: for every field. |
| C65 | The SHA-256 circuit accepts every honest witness | proved | ShaWitness.v, ShaGen*.v: the generated table satisfies every gate, by cases on the row. Note: completeness for every field and every list of inputs; u64/usize values are integers (all values stay below 2^36). |
| C66 | The Keccak circuit computes Keccak-256 | partial | KecCircuit.v; refuted by a satisfying assignment for symbolic messages (KecAttack*.v). Note: the claim is refuted for ten (k, rows_per_round) pairs, among them (14, 28) of the repository tests: lookups are only created for parts whose cell has rotation 0 and start_region does not go back to row 0, so the lookups of the input bytes and of iota are missing and any message is accepted with digest zero. What is missing: soundness for parameters under which every lookup is created. |
| C67 | Keccak lookup keys computed in circuit are those of the message | proved | KecComp.v, KecShard.v against KeySpec.v/KecSpec.v; induction on blocks and capacities. Note: soundness and completeness; Poseidon with state 3 and rate 2 and any round numbers, constants and matrix accepted by the constructor. |
| C68 | The Keccak component shard publishes the keys and digests of the loaded blocks | proved | KecComp.v, KecShard.v against KeySpec.v/KecSpec.v; induction on blocks and capacities. Note: the digests are those of the loaded cells; whether these are right is C66. The native Poseidon of snark-verifier is taken to be the textbook Poseidon of PoseidonSpec.v. |
| C69 | Native Keccak component outputs | proved | KecComp.v, KecShard.v against KeySpec.v/KecSpec.v; induction on blocks and capacities. Note: same assumption on the native Poseidon; the digest of the sha3 crate is taken to be KecSpec.keccak256. |
| C70 | Keccak shard parameters fit the requested capacity | proved | KecComp.v, KecShard.v against KeySpec.v/KecSpec.v; induction on blocks and capacities. Note: usize values are integers. |
| C71 | Keccak ingestion format | proved | KecComp.v, KecShard.v against KeySpec.v/KecSpec.v; induction on blocks and capacities. Note: finding: a field comment says that non-final entries hold keccak256([]); they hold zero. When the requests exceed the capacity the entries are silently truncated. |
| C72 | Field-vector operations act coordinate by coordinate | proved | FieldExt.v; lifting of the FpChip lemmas through lists. Note: over FpChip as base chip; finding: vector assert_equal uses plain zip and stops at the shorter argument. |
| C73 | Fp2Chip computes in Fp[u]/(u^2+1) | proved | FieldExt.v against ExtSpec*.v; loop invariant for the 36 partial products. Note: over FpChip as base chip; the native Fp2 arithmetic of halo2curves used for the division hint is ExtSpec.v. |
| C74 | Fp12Chip computes in Fp2[w]/(w^6-xi) | proved | FieldExt.v against ExtSpec*.v; loop invariant for the 36 partial products. Note: the native Fp12 inversion of halo2curves used for the division hint is ExtSpec2.v; invertible = non-zero norm (x12_unit_iff); that xi makes the ring a field is not used. |
| C75 | NativeFieldChip computes in the circuit's own field | proved | NativeFp.v; gate lemmas. Note: finding: is_soft_nonzero uses gate.neg instead of gate.not; C75_is_soft_nonzero_refuted shows that the trait contract (1 iff non-zero) fails on every non-zero element. |
| C76 | The Frobenius map of Fp12Chip raises to powers of the field size | proved | FinalExp.v; Frobenius as a ring endomorphism (binomial theorem mod q in FrobSpec.v) against repeated multiplication (RingPow.v). Note: halo2curves' FROBENIUS_COEFF_FQ12_C1 table is an input, characterised as xi^((q^j-1)/6); hypotheses shown for BN254 (bn_primitive6, bn_mod6). |
| C77 | Powers and compressed cyclotomic arithmetic in Fp12 | proved | FinalExp.v; Karabina's compressed squaring derived from the cyclotomic equation (Cyclo.v), integer bounds in GaussOps.v, NAF loop invariant (FinalHigh.v). Note: findings: cyclotomic_decompress at the identity divides 0 by 0 and is unconstrained (C77_decompress_one_refuted); the honest prover fails when the w^4 coordinate is 0 but the product of the w^2 and w^5 coordinates is not; an exponent 0 returns the base instead of 1. |
| C78 | final_exp computes the final exponentiation of the pairing | proved | FinalExp.v; exponent arithmetic with the BN polynomials (FinalHigh.v), field structure of Fp12 (Fp12Field.v), orders of powers. Note: for every prover; at true result 1 the output is not determined by the constraints (consequence of the decompression of 1), but an output 1 is always right; a = 0 leaves the result unconstrained because easy_part divides unsafely. |
| C79 | Line functions, sparse products and curve arithmetic of the pairing | proved | Pairing.v against MillerSpec.v: the lines as elements of Fp12 (chord_at, tangent_at on twisted points); integer bounds of the 36 partial products (PairOps*.v). Note: the affine formulas are undefined (division by 0, unconstrained result) where the x coordinates agree resp. y = 0: soundness is stated where the formula is defined. |
| C80 | The Miller loops compute the optimal Ate Miller function | proved | Pairing.v; invariant of the digit loops: the circuit's state carries the state of Miller's algorithm (PairOps4.v, PairOps5.v). Note: soundness and completeness where every affine step of Miller's algorithm is defined; is_strict = false leaves the other steps unconstrained. Examples run the generators of BN254 with a 2-digit list. |
| C81 | The pairing and the pairing check | proved | Pairing.v; composition of C80 with C78; the Miller value at -P is the conjugate up to sign, so the negation inverts the pairing (MillerAlg.v). Note: the Miller values are assumed non-zero (C80_miller_nonzero gives a sufficient condition); completeness needs the powers of the easy part to be decompressible, see C77. |
| C82 | BLS verification decides the pairing equation | proved | Bls.v; composition of C79 (negation of the signature), C80 and C78; the equation is rewritten with the conjugate of the Miller value at -sig (BlsAlg.v). Note: starts from the loaded and aggregated points (C84 adds loading and `sum`); the Miller values are assumed non-zero. When the equation holds, a malicious prover can still reach output 0, since the exceptional decompression of C77 at 1 is unconstrained; output 1 is never a lie. |
| C83 | Points of the twisted curve in circuits | proved | EccG2.v; hcalc proofs of the formulas over Fp2 (PairOpsG2.v), the group law of y^2 = x^3 + b over Fp2 with associativity (Ec2Group.v), then induction over the points; the random point cancels in the group. |
| C84 | Aggregated BLS signatures are verified against the sum of the public keys | proved | EccG2.v; composition of C83, C59 (PropsSum.v: completeness) and C82. Note: the Miller values are assumed non-zero, as in C81 and C82. All points are private inputs and only the flag is returned, so a verifier of the circuit learns that points on the curves satisfying the equation exist, not which (this includes the generator g1). |
| C85 | Multi-scalar multiplication picks either algorithm without changing the result | proved | Pippenger.v; coefficients over the basis (random point, inputs): bucket entries indexed by bit strings, rounds and columns as sums, Horner loop (PippengerProofs.v); selection preserves canonical limbs. Note: soundness; the statement is about satisfying assignments only, as for C58. The parallel sections are run in item order in one context (C28 is about the scheduling). Points of order 2 other than the identity are excluded, as the code assumes. |
| C86 | Builders and pools keep the stage they were made for | proved | Builder.v (flags and break points), with the tags of Threads.v; invariants over call histories (PropsBuilder.v). Note: finding: the documentation of unknown (witness values are replaced by unknown during key generation) fails for the phases after the first, which touch creates without the flag (C86_keygen_unknown_refuted). |
