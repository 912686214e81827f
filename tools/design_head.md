# Formal model of halo2-lib in Rocq (Coq 8.16.1)

## Trusted base
* Coq's kernel, including `vm_compute` (used for concrete numbers only: primality certificates, BN254 constants, counterexamples, examples).
* Axioms: none. `Print Assumptions` answers "Closed under the global context" for every property theorem. No library axiom is used;
  the verdict's list of `library_axioms` names constants of ssreflect's `Under_rel` that are merely loaded, not used.
* The hand translation Rust -> Gallina. Every definition cites the file and lines it models, and says what it simplifies.
* What is outside the translation is listed under "Not modelled".

## How the code is modelled
* `F p` (Field.v): integers modulo `p` as a sigma type, so equality is Leibniz equality. Theorems that need a field take `prime p` as a hypothesis.
  BN254 only appears in examples, instances and refutations.
* `Context` (Context.v): a record with the Rust fields (advice, selector, zero cell, witness_gen_only, ids) together with the shared copy manager and
  the lookup manager. A chip function is a Gallina function in the state-and-panic monad `M A = st -> option (A * st)`; `None` is a Rust panic
  (assert, unwrap, index out of range, debug overflow).
* `Sat sigma s` (Spec.v): an *arbitrary* assignment `sigma : cell -> F p` satisfies all gates, copies, constants and lookups recorded in `s`.
  This is the adversary: the prover may choose every advice cell.
* `sound lb op P Q` (Logic.v): from every well-formed state, if `op` returns `(out, s')`, then `P out` holds and every `sigma` with `Sat sigma s'` fulfils `Q sigma out`.
* `comp lb H op P Q`: from every well-formed state with the honest assignment satisfying, `op` does not panic, the honest assignment (the advice column itself)
  still satisfies every constraint, and `P out` holds. So panic-freedom and completeness are one statement.
* `calc`/`hcalc` (Calc.v, CalcH.v) are proof rules that prove `sound` and `comp` of a composed operation at once; they are not part of any statement.
* Random points and hints computed by native code are parameters, universally quantified in soundness theorems.
* The stand-alone circuits of hashes/zkevm (SHA-256, Keccak) are modelled as expression trees over cells with rotations, evaluated in an arbitrary table.
* Layout (Layout.v, Synth.v): the virtual-to-physical assignment, break points, copy and constant assignment, lookups and instances are modelled as
  list functions; a physical table is an arbitrary function of column and row.

## Modelled code
| files in /repo | model |
|---|---|
| halo2-base/src/lib.rs, utils/{mod,halo2}.rs | Context.v, Utils.v |
| halo2-base/src/gates/flex_gate/mod.rs | Gate.v, Derived.v |
| halo2-base/src/gates/range/mod.rs | Range.v |
| halo2-base/src/gates/flex_gate/threads/*, gates/circuit/*, virtual_region/* | Layout.v, Synth.v, Threads.v, Builder.v, DynLookup.v |
| halo2-base/src/safe_types/* | SafeTypes.v |
| halo2-base/src/poseidon/* | PoseidonMds.v, PoseidonSpec.v, PoseidonChip.v, PoseidonHash.v, PoseidonCompact.v |
| halo2-ecc/src/bigint/* | BigInt.v |
| halo2-ecc/src/fields/fp.rs, mod.rs | FpChip.v |
| halo2-ecc/src/fields/{vector,fp2,fp12}.rs, native_fp.rs | FieldExt.v, NativeFp.v |
| halo2-ecc/src/ecc/mod.rs, fixed_base.rs, ecdsa.rs, schnorr_signature.rs, pippenger.rs (multi_exp_par) | Ecc.v, FixedBase.v, Ecdsa.v, Pippenger.v |
| halo2-ecc/src/bn254/final_exp.rs | FinalExp.v |
@EXTRA_ROWS@| hashes/zkevm/src/sha256/vanilla/* | ShaCircuit.v, ShaWitness.v |
| hashes/zkevm/src/keccak/vanilla/* | KecCircuit.v |
| hashes/zkevm/src/keccak/component/* | KecComp.v, KecShard.v |

Specifications that do not look at the model: Spec.v, BigSpec.v, EcGroup.v (affine group law), PoseidonSpec.v (textbook permutation and sponge),
ShaSpec.v (FIPS 180-4), KecSpec.v (Keccak-f[1600] and the sponge), KeySpec.v, ExtSpec.v/ExtSpec2.v (Fp2, Fp6, Fp12 as tuples), CycSpec.v (Fp12 as
Fp2[w]/(w^6 - xi)), RingPow.v (repeated product)@EXTRA_SPEC@.

## Not modelled
* halo2_proofs (proof system, MockProver, KZG/IPA, its region and assignment mechanics), rayon's scheduler (replaced by "any interleaving", C28).
* Serialization (serde) of parameters, logging, environment variables, performance features, allocation; `usize` values are unbounded except where the
  code's arithmetic can wrap or overflow on reachable inputs (u64/u128 utilities, C32-C35; i64 scalars of scalar_mul).
* secp256k1/grumpkin parameter modules, the prover-side assignment of the Keccak circuit
  (keccak_packed_multi witness generation), MultiPhaseCoreManager beyond phase 0, benches and examples.
* External crates: halo2curves (its Fq2/Fq12 inversion is specified in ExtSpec*.v and its Frobenius table is an input characterised by a hypothesis),
  poseidon-primitives (constants and MDS matrix are inputs), snark-verifier's native Poseidon and the sha3 crate (taken to be PoseidonSpec.v, KecSpec.v).

## Findings (properties of the code found false, each a theorem)
* `RangeChip` at the documented limit: check_less_than, div_mod, div_mod_var with num_bits = CAPACITY are unsound (`C11_capacity_bits_refuted`, `C13_documented_limit_refuted`, `C14_documented_limit_refuted`).
* num_to_bits with NUM_BITS bits is not canonical (`C07_num_bits_noncanonical_refuted`).
* Constant bit rotation: the honest witness swaps quotient and remainder (`C17_honest_witness_refuted`).
* The overlap check at a column break misses offset 1 (`C25_overlap_gap_refuted`); the calculated numbers of advice and fixed columns can be too small (`C26_calculated_columns_refuted`, `C26_fixed_columns_refuted`); `unknown` does not reach phases first touched later (`C86_keygen_unknown_refuted`);
  with no lookup column recorded lookups are dropped (`C30_lookups_dropped_refuted`).
* decompose with 64-bit limbs panics in debug builds (`C32_decompose_64_refuted`).
* raw_bytes_to leaves the powers of 256 unconstrained (`C37_packed_value_refuted`).
* OptimizedPoseidonSpec::new panics for some MDS matrices (`C39_construction_total_refuted`); PoseidonCompactInput validation rejects every valid row and accepts
  invalid ones (`C42_valid_rows_refuted`, `C42_invalid_row_accepted_refuted`).
* get_naf panics when a carry leaves the last limb (`C57_naf_carry_out_refuted`).
* Schnorr forces x(R) below the group order; ECDSA treats (0,0) as an affine point when the digest is 0 (notes of C61, C62).
* Keccak circuit: lookups are missing for ten (k, rows_per_round) pairs, among them one of the repository's tests, and any message is accepted with digest 0 (C66).
* NativeFieldChip::is_soft_nonzero returns minus the zero test (`C75_is_soft_nonzero_refuted`); vector assert_equal stops at the shorter argument (C72).
* cyclotomic_decompress divides 0 by 0 at the identity, so the prover chooses the result (`C77_decompress_one_refuted`); exponent 0 returns the base; easy_part of 0 is unconstrained.
* bls_signature_verify loads every point, the generator included, as a private input and returns only the flag, so its caller cannot bind them (`C84_points_sound` is existential in the points).

## Wrong-program tests
`seeded/LOG.jsonl` has one line per edit of the model (definition, edit, claim broken, theorems that failed, theorems tightened).

## Per property: what is modelled and how it is proved
One line per property. "sound + comp" means: for every satisfying assignment, and the honest run succeeds.
