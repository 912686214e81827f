{"id": "C01", "title": "Field-arithmetic gates are sound", "statement": "After GateChip add, sub, inc, dec, neg, mul, mul_add, sub_mul, mul_not or div_unsafe returns, every assignment of the advice cells that satisfies all constraints recorded in the context gives the returned cell the documented value (a+b, a-b, a+1, a-1, -a, ab, ab+c, a-bc, (1-a)b, and for div_unsafe the out with out*b = a), where a, b, c are the values the assignment gives to the argument cells (existing cells, constants, or freshly assigned witness cells).", "quantifier": "every prime field, every context history, every mix of Existing/Constant/Witness arguments, every satisfying assignment", "why_tests_cant": "a malicious prover may put any field element in any cell; a test exercises one honest assignment (or a few pranked cells), not all p^n assignments, and one field", "anchors": ["halo2-base/src/gates/flex_gate/mod.rs:GateInstructions::{add,inc,sub,dec,sub_mul,neg,mul,mul_add,mul_not,div_unsafe}"]}
{"id": "C02", "title": "Field-arithmetic gates are complete", "statement": "For the same operations, the call does not panic on evaluated inputs (div_unsafe: non-zero divisor), and the witness the library itself computes satisfies every newly recorded constraint whenever it satisfied the earlier ones, and the returned AssignedValue carries exactly the documented value.", "quantifier": "every prime field, every reachable context, every argument value", "why_tests_cant": "a missed constraint/witness mismatch can depend on a particular value or argument kind", "anchors": ["halo2-base/src/gates/flex_gate/mod.rs:GateInstructions"]}
{"id": "C03", "title": "Boolean gates are sound and complete", "statement": "assert_bit accepts exactly 0 and 1. For boolean arguments and, or, xor, not, or_and and select return exactly the boolean (resp. selected) result in every satisfying assignment, and the honest witness satisfies the constraints. select works for arbitrary field elements a, b.", "quantifier": "every prime field with p > 2, every context, every satisfying assignment", "why_tests_cant": "a malicious prover may put any field element in any cell; a test exercises one honest assignment (or a few pranked cells), not all p^n assignments, and one field", "anchors": ["halo2-base/src/gates/flex_gate/mod.rs:GateInstructions::{assert_bit,and,or,xor,not,select,or_and}"]}
{"id": "C04", "title": "is_zero and is_equal decide equality", "statement": "In every satisfying assignment is_zero(a) is 1 if a = 0 and 0 otherwise; is_equal(a,b) is 1 if a = b and 0 otherwise. The honest witness (including the fraction 1/a that is inverted later) satisfies the constraints.", "quantifier": "every prime field, context, argument kind and satisfying assignment", "why_tests_cant": "a malicious prover may put any field element in any cell; a test exercises one honest assignment (or a few pranked cells), not all p^n assignments, and one field", "anchors": ["halo2-base/src/gates/flex_gate/mod.rs:GateInstructions::{is_zero,is_equal}"]}
{"id": "C05", "title": "Inner products and sums", "statement": "inner_product, inner_product_left, inner_product_left_last, inner_product_with_sums, sum, partial_sums, accumulated_product and sum_products_with_coeff_and_var return cells that in every satisfying assignment equal the mathematical value for the assigned arguments (including all running sums and the re-assigned left vector), for vectors of any length, whether or not b starts with Constant(1); the honest witness satisfies the constraints.", "quantifier": "all lengths, all argument kinds, all satisfying assignments", "why_tests_cant": "vector length and the leading-one optimisation are unbounded parameters", "anchors": ["halo2-base/src/gates/flex_gate/mod.rs:GateChip::inner_product_simple", "halo2-base/src/gates/flex_gate/mod.rs:GateInstructions::{inner_product*,sum,partial_sums,accumulated_product,sum_products_with_coeff_and_var}"]}
{"id": "C06", "title": "Indicators and indexed selection", "statement": "In every satisfying assignment bits_to_indicator(bits) has a 1 exactly at the little-endian value of the bits (bits boolean); idx_to_indicator(idx,len) has a 1 exactly at idx if idx < len and is all zero otherwise; select_from_idx(cells, idx) returns cells[idx] if idx < len and 0 otherwise; select_by_indicator is the inner product with the indicator and select_array_by_indicator applies it columnwise.", "quantifier": "all lengths below the field size, all satisfying assignments", "why_tests_cant": "a malicious prover may put any field element in any cell; a test exercises one honest assignment (or a few pranked cells), not all p^n assignments, and one field", "anchors": ["halo2-base/src/gates/flex_gate/mod.rs:GateInstructions::{bits_to_indicator,idx_to_indicator,select_by_indicator,select_from_idx,select_array_by_indicator}"]}
{"id": "C07", "title": "Bit decomposition and recomposition", "statement": "num_to_bits(a,n) constrains its n outputs to be bits whose little-endian value is congruent to a modulo p, hence for n <= CAPACITY it forces a < 2^n and the outputs are exactly the bits of a; bits_to_num returns the little-endian value. For n = NUM_BITS the decomposition is not unique (a witness exists), so canonicity must not be relied on there.", "quantifier": "all n, all a, all satisfying assignments", "why_tests_cant": "a malicious prover may put any field element in any cell; a test exercises one honest assignment (or a few pranked cells), not all p^n assignments, and one field", "anchors": ["halo2-base/src/gates/flex_gate/mod.rs:GateChip::{num_to_bits,bits_to_num}"]}
{"id": "C08", "title": "pow_var computes the power", "statement": "pow_var(a, exp, max_bits) constrains exp < 2^max_bits and returns a^exp in the field in every satisfying assignment, and the honest witness satisfies the constraints.", "quantifier": "all a, exp, max_bits <= CAPACITY, all satisfying assignments", "why_tests_cant": "a malicious prover may put any field element in any cell; a test exercises one honest assignment (or a few pranked cells), not all p^n assignments, and one field", "anchors": ["halo2-base/src/gates/flex_gate/mod.rs:GateChip::pow_var"]}
{"id": "C09", "title": "Lagrange interpolation", "statement": "lagrange_and_eval(coords, x): in every satisfying assignment the x_i are pairwise distinct and different from x, the second output is Prod(x - x_i) and the first output is f(x) for every polynomial f of degree < n with f(x_i) = y_i for all i.", "quantifier": "all numbers of points, all values, all satisfying assignments", "why_tests_cant": "a malicious prover may put any field element in any cell; a test exercises one honest assignment (or a few pranked cells), not all p^n assignments, and one field", "anchors": ["halo2-base/src/gates/flex_gate/mod.rs:GateInstructions::lagrange_and_eval"]}
{"id": "C10", "title": "range_check enforces and accepts exactly the range", "statement": "In every satisfying assignment range_check(a, n) implies 0 <= a < 2^n (as an integer representative) and conversely, for every a < 2^n the honest witness satisfies all constraints, for every n with ceil(n/lookup_bits)*lookup_bits <= CAPACITY, every lookup table size and including n = 0 and n not a multiple of lookup_bits.", "quantifier": "all fields, lookup_bits, n, a and satisfying assignments", "why_tests_cant": "a malicious prover may put any field element in any cell; a test exercises one honest assignment (or a few pranked cells), not all p^n assignments, and one field", "anchors": ["halo2-base/src/gates/range/mod.rs:RangeChip::{_range_check,range_check,new}"]}
{"id": "C11", "title": "check_less_than and its safe variants", "statement": "If a and b are known to fit in num_bits bits and 2^(num_bits+1) <= p, check_less_than(a,b,num_bits) is satisfiable exactly when a < b. check_less_than_safe and check_big_less_than_safe need no assumption on a. At the documented limit num_bits = CAPACITY the check is unsound: on the BN254 scalar field there is a satisfying assignment with a >= b.", "quantifier": "all a, b, num_bits, lookup_bits, all satisfying assignments", "why_tests_cant": "a malicious prover may put any field element in any cell; a test exercises one honest assignment (or a few pranked cells), not all p^n assignments, and one field", "anchors": ["halo2-base/src/gates/range/mod.rs:RangeInstructions::{check_less_than_safe,check_big_less_than_safe}", "halo2-base/src/gates/range/mod.rs:RangeChip::check_less_than"]}
{"id": "C12", "title": "is_less_than and its safe variants", "statement": "For a,b of at most num_bits bits with (ceil(num_bits/lookup_bits)+1)*lookup_bits <= CAPACITY, is_less_than returns 1 if a < b and 0 otherwise in every satisfying assignment and the honest witness satisfies the constraints; the safe variants additionally range check a.", "quantifier": "all a, b, num_bits, lookup_bits, all satisfying assignments", "why_tests_cant": "a malicious prover may put any field element in any cell; a test exercises one honest assignment (or a few pranked cells), not all p^n assignments, and one field", "anchors": ["halo2-base/src/gates/range/mod.rs:RangeChip::is_less_than", "halo2-base/src/gates/range/mod.rs:RangeInstructions::{is_less_than_safe,is_big_less_than_safe}"]}
{"id": "C13", "title": "div_mod is Euclidean division by a constant", "statement": "div_mod(a,b,n): in every satisfying assignment, if a < 2^n and 2^n + b <= p (and the internal comparisons fit), the outputs are exactly floor(a/b) and a mod b. At the documented limit n <= CAPACITY without the relation between b and p the result is not unique: a satisfying assignment with a wrong quotient exists on BN254.", "quantifier": "all a, b, n, lookup_bits, all satisfying assignments", "why_tests_cant": "a malicious prover may put any field element in any cell; a test exercises one honest assignment (or a few pranked cells), not all p^n assignments, and one field", "anchors": ["halo2-base/src/gates/range/mod.rs:RangeInstructions::div_mod"]}
{"id": "C14", "title": "div_mod_var is Euclidean division by a variable", "statement": "div_mod_var(a,b,a_bits,b_bits): in every satisfying assignment, if a < 2^a_bits, b < 2^b_bits and the intermediate product b*div_lo+rem cannot wrap modulo p, the outputs are exactly floor(a/b) and a mod b (in particular b = 0 is unsatisfiable). Within the documented assumptions alone (a_bits, b_bits <= CAPACITY) it is unsound.", "quantifier": "all a, b, bit lengths, all satisfying assignments", "why_tests_cant": "a malicious prover may put any field element in any cell; a test exercises one honest assignment (or a few pranked cells), not all p^n assignments, and one field", "anchors": ["halo2-base/src/gates/range/mod.rs:RangeInstructions::div_mod_var"]}
{"id": "C15", "title": "get_last_bit returns the parity", "statement": "If a < 2^limb_bits and 2^limb_bits <= p then get_last_bit(a, limb_bits) is a mod 2 in every satisfying assignment and the honest witness satisfies the constraints.", "quantifier": "all a, limb_bits, all satisfying assignments", "why_tests_cant": "a malicious prover may put any field element in any cell; a test exercises one honest assignment (or a few pranked cells), not all p^n assignments, and one field", "anchors": ["halo2-base/src/gates/range/mod.rs:RangeInstructions::get_last_bit"]}
{"id": "C16", "title": "Limb decomposition and recomposition in circuit", "statement": "decompose_le(num, limb_bits, k) returns k cells each < 2^limb_bits whose base-2^limb_bits value is congruent to num, hence is the unique limb decomposition when 2^(k*limb_bits) <= p, and is unsatisfiable if num does not fit; limbs_to_num inverts it.", "quantifier": "all num, limb_bits, k, all satisfying assignments", "why_tests_cant": "a malicious prover may put any field element in any cell; a test exercises one honest assignment (or a few pranked cells), not all p^n assignments, and one field", "anchors": ["halo2-base/src/gates/range/mod.rs:RangeInstructions::{decompose_le,limbs_to_num}"]}
{"id": "C17", "title": "Constant bit rotation", "statement": "const_left_rotate / const_right_rotate of an NUM_BITS-bit value return the rotated value in every satisfying assignment, and every NUM_BITS-bit input has a satisfying honest witness.", "quantifier": "all BIT, NUM_BITS, inputs, satisfying assignments", "why_tests_cant": "a malicious prover may put any field element in any cell; a test exercises one honest assignment (or a few pranked cells), not all p^n assignments, and one field; the test file for rotation is not compiled (absent from gates/tests/mod.rs)", "anchors": ["halo2-base/src/gates/range/mod.rs:RangeChip::{const_right_rotate_internal,const_right_rotate,const_left_rotate}"]}
{"id": "C18", "title": "Prover mode and keygen mode build the same trace", "statement": "For every sequence of chip operations, running in witness-generation-only mode produces exactly the same advice values, in the same order, the same looked-up values and the same returned values as running in keygen mode, and records no constraints.", "quantifier": "all programs over the chip API, all inputs", "why_tests_cant": "the two modes take different code paths in every operation; only sampled programs are tested", "anchors": ["halo2-base/src/lib.rs:Context::{assign_cell,assign_region,assign_region_smart,last,get,assign_witnesses,load_witness,load_constant,load_zero}", "halo2-base/src/gates/flex_gate/mod.rs", "halo2-base/src/gates/range/mod.rs"]}
{"id": "C19", "title": "Circuit shape does not depend on witnesses", "statement": "For every sequence of chip operations, two runs whose inputs differ only in witness values (same cells, same constants, same lengths) record identical selectors, copy constraints, constant constraints and lookups, unless one of them panics; so the verifying key generated with dummy witnesses is the one for every proof.", "quantifier": "all programs, all pairs of witness inputs", "why_tests_cant": "relational property over all pairs of inputs", "anchors": ["halo2-base/src/lib.rs:Context", "halo2-base/src/gates/flex_gate/mod.rs", "halo2-base/src/gates/range/mod.rs"]}
{"id": "C20", "title": "Constraints are never lost or moved", "statement": "No operation removes or alters a previously assigned advice value, an enabled gate, an equality, a constant constraint or a lookup; a satisfying assignment of a later context satisfies every earlier one.", "quantifier": "all operation sequences", "why_tests_cant": "must hold for every history of calls", "anchors": ["halo2-base/src/lib.rs:Context"]}
{"id": "C21", "title": "Context primitives impose exactly what they document", "statement": "assign_region constrains Existing inputs equal to their source cell and Constant inputs to the constant and turns on exactly the requested gates; load_constant/load_zero return a cell pinned to the constant, load_zero returns the same cell when called again; get accepts negative offsets and panics out of range; constrain_equal / assert_is_const restrict assignments exactly to equality.", "quantifier": "all contexts, inputs and offsets, all assignments", "why_tests_cant": "a malicious prover may put any field element in any cell; a test exercises one honest assignment (or a few pranked cells), not all p^n assignments, and one field", "anchors": ["halo2-base/src/lib.rs:Context::{assign_cell,assign_region,assign_region_last,assign_region_smart,get,last,load_constant,load_zero,constrain_equal}", "halo2-base/src/gates/flex_gate/mod.rs:assert_is_const"]}
{"id": "C22", "title": "Gates generated by the library stay inside their context and never overlap badly", "statement": "After any sequence of gate/range chip calls, every enabled gate starting at offset i has i+3 < len(advice) in the same context and no two enabled gates start at distance 1 or 2, which is what column breaking relies on.", "quantifier": "all programs over the chip API", "why_tests_cant": "needs an invariant over all call sequences; a violation only shows at an unlucky column break", "anchors": ["halo2-base/src/gates/flex_gate/threads/single_phase.rs:assign_with_constraints", "halo2-base/src/gates/flex_gate/mod.rs", "halo2-base/src/gates/range/mod.rs"]}
{"id": "C23", "title": "Physical layout is faithful", "statement": "assign_with_constraints places the virtual cells of all contexts into physical columns such that an assignment of the physical cells satisfies the enabled physical gates and recorded copies iff the induced assignment of virtual cells satisfies every virtual gate, for any number of columns, row budget and column breaks, provided gates lie inside their context and do not overlap at distance 1 or 2; each virtual cell gets exactly one physical cell and distinct virtual cells get distinct physical cells.", "quantifier": "all context lists, all max_rows, all assignments", "why_tests_cant": "column breaks happen at data-dependent positions; tests use one k", "anchors": ["halo2-base/src/gates/flex_gate/threads/single_phase.rs:assign_with_constraints"]}
{"id": "C24", "title": "Break points replay the same layout", "statement": "assign_witnesses run with the break points returned by assign_with_constraints writes every advice value to exactly the physical cells the keygen pass used (including duplicated cells at breaks), for every list of contexts.", "quantifier": "all contexts, values and row budgets", "why_tests_cant": "two independently written loops must agree on all inputs", "anchors": ["halo2-base/src/gates/flex_gate/threads/single_phase.rs:assign_witnesses", "halo2-base/src/gates/flex_gate/threads/single_phase.rs:assign_with_constraints"]}
{"id": "C25", "title": "The overlap safety check at a column break", "statement": "A column break never separates two rows of an enabled gate: if the layout pass returns, then for every break position no gate starting 1 or 2 cells before the break is enabled.", "quantifier": "all selector patterns", "why_tests_cant": "only violated for gates near the start of a context placed near the end of a column", "anchors": ["halo2-base/src/gates/flex_gate/threads/single_phase.rs:assign_with_constraints (safety check)"]}
{"id": "C26", "title": "Auto-calculated parameters suffice", "statement": "With the column counts returned by calculate_params for k and minimum_rows, the layout pass does not run out of advice columns.", "quantifier": "all contexts and k", "why_tests_cant": "off-by-duplicates at column breaks only show for particular sizes", "anchors": ["halo2-base/src/gates/flex_gate/threads/multi_phase.rs:calculate_params", "halo2-base/src/gates/flex_gate/threads/single_phase.rs:assign_with_constraints"]}
{"id": "C27", "title": "Copy and constant constraints are all imposed", "statement": "Assigning the copy manager gives every distinct constant its own fixed cell holding that constant, and imposes every recorded advice equality and constant equality on the physical cells of its two ends; running it twice gives the same result; num_distinct_constants is the number of fixed cells used; it panics if an end was never assigned.", "quantifier": "all lists of equalities, all numbers of fixed columns", "why_tests_cant": "list lengths and column counts are unbounded", "anchors": ["halo2-base/src/virtual_region/copy_constraints.rs:assign_raw", "halo2-base/src/virtual_region/copy_constraints.rs:num_distinct_constants"]}
{"id": "C28", "title": "Result is independent of thread interleaving", "statement": "For every interleaving of the pushes that CPU threads make to the shared copy manager and lookup manager, the assigned constants, the ordered list of copy constraints and the ordered list of looked-up cells are the same.", "quantifier": "all interleavings of any number of threads", "why_tests_cant": "schedules cannot be enumerated by tests", "anchors": ["halo2-base/src/virtual_region/copy_constraints.rs:assign_raw (sort)", "halo2-base/src/virtual_region/lookups.rs:add_lookup", "halo2-base/src/gates/flex_gate/threads/parallelize.rs:parallelize_core"]}
{"id": "C29", "title": "Context tags are unique", "statement": "For every sequence of main/new_thread/parallelize/touch calls over several phases, no two contexts share the same (type id, context id) and within a phase the context id equals its position.", "quantifier": "all call sequences", "why_tests_cant": "history property", "anchors": ["halo2-base/src/gates/flex_gate/threads/single_phase.rs:{main,new_thread,new_context,type_of}", "halo2-base/src/gates/flex_gate/threads/multi_phase.rs:{main,new_thread,touch}", "halo2-base/src/gates/flex_gate/threads/parallelize.rs"]}
{"id": "C30", "title": "Every looked-up cell is tied to a table row", "statement": "The lookup manager's assignment copies each registered tuple to one row of the lookup-enabled columns, constrained equal to the source cells, with no two tuples sharing a row and never exceeding num_advice_chunks columns of usable_rows rows; so physical satisfaction implies every registered cell lies in the table.", "quantifier": "all numbers of lookups, columns, rows", "why_tests_cant": "boundary at full columns", "anchors": ["halo2-base/src/virtual_region/lookups.rs:assign_raw", "halo2-base/src/virtual_region/lookups.rs:num_advice_chunks"]}
{"id": "C31", "title": "Dynamic lookup keys are table rows", "statement": "With BasicDynLookupConfig, in every satisfying assignment each enabled key equals a key of an enabled table row (the all-zero padding row and blinded rows cannot satisfy an enabled lookup), and honest assignments with keys in the table are satisfiable.", "quantifier": "all key/table lists", "why_tests_cant": "a malicious prover may put any field element in any cell; a test exercises one honest assignment (or a few pranked cells), not all p^n assignments, and one field", "anchors": ["halo2-base/src/virtual_region/lookups/basic.rs"]}
{"id": "C32", "title": "u64-limb decomposition", "statement": "decompose_u64_digits_to_limbs / decompose_fe_to_u64_limbs return num_limbs limbs, each below 2^bit_len, equal to the base-2^bit_len digits of the value truncated to num_limbs, for every 1 <= bit_len < 64 and every number of digits.", "quantifier": "all values, bit_len < 64, limb counts", "why_tests_cant": "bit boundaries between 64-bit words", "anchors": ["halo2-base/src/utils/mod.rs:decompose_u64_digits_to_limbs", "halo2-base/src/utils/mod.rs:ScalarField::to_u64_limbs"]}
{"id": "C33", "title": "BigUint decomposition and recomposition", "statement": "decompose_biguint(e,k,b) for 64 <= b < 128 returns the base-2^b digits of e; compose(decompose(...)) returns the value; decompose_bigint does so for signed values; decompose is correct for every documented bit_len.", "quantifier": "all e, k, b", "why_tests_cant": "carry between 128-bit windows depends on b and the value; documented bit_len = 64 falls on the u64 path", "anchors": ["halo2-base/src/utils/mod.rs:{decompose,decompose_biguint,decompose_bigint,compose}"]}
{"id": "C34", "title": "Field conversions are inverse", "statement": "fe_to_biguint/biguint_to_fe, fe_to_bigint/bigint_to_fe, to_bytes_le/from_bytes_le, get_lower_32/64/128 are the canonical representative conversions: round trips are the identity (mod p), and modulus() is p.", "quantifier": "all field elements and integers", "why_tests_cant": "p is about 2^254", "anchors": ["halo2-base/src/utils/mod.rs:{modulus,biguint_to_fe,bigint_to_fe,fe_to_biguint,fe_to_bigint,power_of_two}", "halo2-base/src/utils/mod.rs:ScalarField::{get_lower_32,get_lower_64,to_bytes_le}"]}
{"id": "C35", "title": "bit_length and log2_ceil", "statement": "bit_length(x) is the least n with x < 2^n and log2_ceil(x) is the least n with x <= 2^n, for all u64 x.", "quantifier": "all u64", "why_tests_cant": "2^64 inputs", "anchors": ["halo2-base/src/utils/mod.rs:bit_length", "halo2-base/src/utils/mod.rs:log2_ceil"]}
{"id": "C36", "title": "Safe types carry their range", "statement": "load_bool/assert_bool, load_byte and raw-bytes loaders of SafeTypeChip only return values which in every satisfying assignment lie in the type's range (bool: {0,1}; byte: < 256; array lengths: within bounds) and accept every in-range honest value.", "quantifier": "all inputs, all satisfying assignments", "why_tests_cant": "a malicious prover may put any field element in any cell; a test exercises one honest assignment (or a few pranked cells), not all p^n assignments, and one field", "anchors": ["halo2-base/src/safe_types/mod.rs", "halo2-base/src/safe_types/bytes.rs", "halo2-base/src/safe_types/primitives.rs"]}
{"id": "C37", "title": "raw_bytes_to packs bytes into the value", "statement": "SafeTypeChip::raw_bytes_to / raw_to_* return compressed field elements equal to the little-endian value of the checked bytes in every satisfying assignment.", "quantifier": "all byte strings, all satisfying assignments", "why_tests_cant": "a malicious prover may put any field element in any cell; a test exercises one honest assignment (or a few pranked cells), not all p^n assignments, and one field", "anchors": ["halo2-base/src/safe_types/mod.rs:raw_bytes_to"]}
{"id": "C38", "title": "Variable-length byte arrays pad correctly", "statement": "left_pad_var_array_to_fixed returns, in every satisfying assignment, the array shifted right by max_len - len with zeros on the left, and ensure_0_padding zeroes everything from len on, for every len in range.", "quantifier": "all lengths 0..=MAX_LEN, all contents, all satisfying assignments", "why_tests_cant": "a malicious prover may put any field element in any cell; a test exercises one honest assignment (or a few pranked cells), not all p^n assignments, and one field", "anchors": ["halo2-base/src/safe_types/bytes.rs:left_pad_var_array_to_fixed", "halo2-base/src/safe_types/bytes.rs:VarLenBytesVec::ensure_0_padding"]}
{"id": "C39", "title": "Optimized Poseidon equals textbook Poseidon", "statement": "The permutation computed with the optimized round constants and sparse MDS factorisation equals the textbook permutation (add constants, S-box, MDS in every round) for the same constants and MDS matrix, for every width, round numbers and state for which the factorisation exists.", "quantifier": "all states, all parameters", "why_tests_cant": "algebraic identity over all states and parameters", "anchors": ["halo2-base/src/poseidon/hasher/spec.rs", "halo2-base/src/poseidon/hasher/mds.rs", "halo2-base/src/poseidon/hasher/state.rs:permutation"]}
{"id": "C40", "title": "Poseidon circuit computes the permutation", "statement": "In every satisfying assignment the in-circuit permutation maps the input state cells to the value of the native permutation, and the honest witness satisfies the constraints.", "quantifier": "all states, parameters, satisfying assignments", "why_tests_cant": "a malicious prover may put any field element in any cell; a test exercises one honest assignment (or a few pranked cells), not all p^n assignments, and one field", "anchors": ["halo2-base/src/poseidon/hasher/state.rs"]}
{"id": "C41", "title": "Fixed-length and variable-length hashing agree", "statement": "hash_var_len_array(inputs, len) equals hash_fix_len_array(inputs[..len]) in every satisfying assignment with len <= inputs.len(), including lengths that are multiples of the rate and zero; and both equal sponge update/squeeze.", "quantifier": "all input lengths and len values", "why_tests_cant": "chunk-boundary cases for every rate", "anchors": ["halo2-base/src/poseidon/hasher/mod.rs:PoseidonHasher"]}
{"id": "C42", "title": "PoseidonCompactInput validation", "statement": "add_validation_constraints accepts exactly chunks whose is_final flag is boolean, whose len <= RATE, and which are full unless final.", "quantifier": "all chunks, all satisfying assignments", "why_tests_cant": "a malicious prover may put any field element in any cell; a test exercises one honest assignment (or a few pranked cells), not all p^n assignments, and one field", "anchors": ["halo2-base/src/poseidon/hasher/mod.rs:PoseidonCompactInput"]}
{"id": "C43", "title": "The built circuit enforces exactly the recorded constraints", "statement": "For every family of contexts built through the public API with one shared copy manager and lookup manager, if building the circuit with range lookups enabled does not panic, then every physical assignment that satisfies the gates, copy constraints, fixed constants and lookups gives a virtual assignment satisfying every gate, equality, constant and range lookup recorded by every context; conversely every satisfying virtual assignment extends to a physical one. Building does not panic when the stated numbers of columns suffice.", "quantifier": "all API programs, all families of contexts, all orders of recording, all physical assignments", "why_tests_cant": "a malicious prover may put any field element in any cell; a test exercises one honest assignment (or a few pranked cells), not all p^n assignments, and one field", "anchors": ["halo2-base/src/gates/circuit/mod.rs:synthesize", "halo2-base/src/gates/circuit/builder.rs:assign_lookups_in_phase"]}
{"id": "C44", "title": "Public instances equal the assigned instances", "statement": "In every satisfying assignment, row j of instance column i has the value of the j-th cell of assigned_instances[i]; a different number of instance columns is a panic.", "quantifier": "all instance lists, all satisfying assignments", "why_tests_cant": "a malicious prover may put any field element in any cell; a test exercises one honest assignment (or a few pranked cells), not all p^n assignments, and one field", "anchors": ["halo2-base/src/gates/circuit/builder.rs:assign_instances"]}
{"id": "C45", "title": "Big-integer no-carry operations compute the named operation", "statement": "For every CRT integer built in a context, add/sub/mul/scalar_mul/scalar_mul_and_add_no_carry and the constant variants return limbs and a native cell that, under every satisfying assignment, represent exactly the sum, difference, product or multiple of what the inputs represent modulo 2^(n*k) and modulo the native prime; the honest prover never gets stuck and the tracked BigInt equals that integer; the reported max_limb_bits bounds the absolute value of every limb.", "quantifier": "all limb counts, limb sizes, cell values and integers", "why_tests_cant": "an adversarial prover may choose any cell values; tests only run the honest prover on sampled integers", "anchors": ["halo2-ecc/src/bigint/add_no_carry.rs", "halo2-ecc/src/bigint/sub_no_carry.rs", "halo2-ecc/src/bigint/mul_no_carry.rs", "halo2-ecc/src/bigint/scalar_mul_no_carry.rs", "halo2-ecc/src/bigint/scalar_mul_and_add_no_carry.rs"]}
{"id": "C46", "title": "Big-integer subtraction and comparison", "statement": "For integers with proper limbs, sub returns 1 exactly when a < b and otherwise proper limbs of a - b; big_less_than returns 1 exactly when a < b; for every satisfying assignment, and the honest prover succeeds.", "quantifier": "all proper limb vectors of equal length and all satisfying assignments", "why_tests_cant": "an adversarial prover may choose any cell values; tests only run the honest prover on sampled integers", "anchors": ["halo2-ecc/src/bigint/sub.rs", "halo2-ecc/src/bigint/big_less_than.rs"]}
{"id": "C47", "title": "Big-integer zero, equality and parity tests", "statement": "For proper limbs, big_is_zero / is_equal / is_even output 1 exactly when the integer is zero / the integers are equal / the integer is even, else 0, under every satisfying assignment.", "quantifier": "all proper limb vectors, all satisfying assignments", "why_tests_cant": "an adversarial prover may choose any cell values; tests only run the honest prover on sampled integers", "anchors": ["halo2-ecc/src/bigint/big_is_zero.rs", "halo2-ecc/src/bigint/big_is_equal.rs", "halo2-ecc/src/bigint/big_is_even.rs"]}
{"id": "C48", "title": "check_carry_to_zero forces divisibility by the limb base power", "statement": "If the limbs hold signed integers bounded by 2^max_limb_bits and the stated width condition holds, a satisfying assignment of check_carry_to_zero exists only if the integer spelled by the limbs is 0 modulo 2^(n*k); and the honest prover succeeds whenever it is.", "quantifier": "all limb vectors and widths, all satisfying assignments", "why_tests_cant": "an adversarial prover may choose any cell values; tests only run the honest prover on sampled integers", "anchors": ["halo2-ecc/src/bigint/check_carry_to_zero.rs"]}
{"id": "C49", "title": "FpChip::carry_mod reduces without changing the residue", "statement": "For every overflowed CRT integer within the documented size bound, carry_mod returns proper n-bit limbs of a number with at most as many bits as the modulus that is congruent to the input modulo the foreign prime, for every satisfying assignment; the honest prover succeeds and obtains the canonical residue.", "quantifier": "all overflowed integers in range, all cell values", "why_tests_cant": "an adversarial prover may choose any cell values; tests only run the honest prover on sampled integers", "anchors": ["halo2-ecc/src/bigint/carry_mod.rs", "halo2-ecc/src/fields/fp.rs:carry_mod"]}
{"id": "C50", "title": "FpChip::check_carry_mod_to_zero accepts exactly multiples of the modulus", "statement": "For every overflowed CRT integer within the size bound, the constraints are satisfiable only if the integer is 0 modulo the foreign prime, and the honest prover succeeds if it is.", "quantifier": "all overflowed integers in range, all cell values", "why_tests_cant": "an adversarial prover may choose any cell values; tests only run the honest prover on sampled integers", "anchors": ["halo2-ecc/src/bigint/check_carry_mod_to_zero.rs", "halo2-ecc/src/fields/fp.rs:check_carry_mod_to_zero"]}
{"id": "C51", "title": "FpChip loading and range checks", "statement": "load_private gives proper limbs with at most modulus-many bits, load_private_reduced and enforce_less_than force a canonical residue, load_constant forces the given constant, range_check forces the bit bound, is_less_than_p and is_even compute their predicate; the honest prover succeeds on every field element.", "quantifier": "all field elements, all satisfying assignments", "why_tests_cant": "an adversarial prover may choose any cell values; tests only run the honest prover on sampled integers", "anchors": ["halo2-ecc/src/fields/fp.rs:load_private", "halo2-ecc/src/fields/fp.rs:range_check", "halo2-ecc/src/fields/fp.rs:enforce_less_than", "halo2-ecc/src/fields/mod.rs:load_private_reduced"]}
{"id": "C52", "title": "FpChip tests, negation and selection", "statement": "is_zero, is_equal and assert_equal are exact on carried inputs (and force them to be canonical); the unchecked is_soft_zero and is_equal_unenforced are exact on canonical inputs; negate computes the additive inverse; select and select_by_indicator return exactly the chosen input.", "quantifier": "all carried inputs, all satisfying assignments", "why_tests_cant": "an adversarial prover may choose any cell values; tests only run the honest prover on sampled integers", "anchors": ["halo2-ecc/src/fields/fp.rs", "halo2-ecc/src/fields/mod.rs", "halo2-ecc/src/bigint/select.rs", "halo2-ecc/src/bigint/select_by_indicator.rs"]}
{"id": "C53", "title": "FpChip multiplication and division", "statement": "mul returns the product modulo the foreign prime; divide and neg_divide force the divisor to be non-zero and return u/v and -u/v; the unsafe variants return a w with w*v = u (resp. -u), which is the quotient whenever v is non-zero; for every satisfying assignment within the size bound, and the honest prover succeeds.", "quantifier": "all inputs within the size bound, all satisfying assignments", "why_tests_cant": "an adversarial prover may choose any cell values; tests only run the honest prover on sampled integers", "anchors": ["halo2-ecc/src/fields/mod.rs:mul", "halo2-ecc/src/fields/mod.rs:divide", "halo2-ecc/src/fields/mod.rs:divide_unsafe", "halo2-ecc/src/fields/mod.rs:neg_divide"]}
{"id": "C54", "title": "Curve additions compute the group law", "statement": "For curve points represented in the circuit, a satisfying assignment of ec_add_unequal / ec_sub_unequal / ec_double / ec_double_and_add_unequal yields a point equal to P+Q, P-Q, 2P, 2P+Q of the elliptic-curve group; with is_strict the operands are forced to have different x-coordinates, and doubling excludes points of order two; the honest prover succeeds exactly on the documented inputs.", "quantifier": "all points, all satisfying assignments, both strictness modes", "why_tests_cant": "an adversarial prover may choose any cell values; tests only run the honest prover on sampled integers", "anchors": ["halo2-ecc/src/ecc/mod.rs:ec_add_unequal", "halo2-ecc/src/ecc/mod.rs:ec_sub_unequal", "halo2-ecc/src/ecc/mod.rs:ec_double", "halo2-ecc/src/ecc/mod.rs:ec_double_and_add_unequal"]}
{"id": "C55", "title": "Assigned points are on the curve", "statement": "load_private, load_random_point and check_is_on_curve accept exactly points of the curve; assign_point accepts exactly points of the curve and (0,0); is_on_curve_or_infinity outputs 1 exactly for those; assign_constant_point forces the given coordinates.", "quantifier": "all coordinates, all satisfying assignments", "why_tests_cant": "an adversarial prover may choose any cell values; tests only run the honest prover on sampled integers", "anchors": ["halo2-ecc/src/ecc/mod.rs:check_is_on_curve", "halo2-ecc/src/ecc/mod.rs:load_private", "halo2-ecc/src/ecc/mod.rs:is_on_curve_or_infinity", "halo2-ecc/src/ecc/mod.rs:assign_point"]}
{"id": "C56", "title": "Point selection, comparison, negation and strict subtraction", "statement": "ec_select and ec_select_from_bits return exactly the selected point; is_equal is 1 exactly for equal coordinates and assert_equal forces it; negate returns (x,-y); ec_sub_strict returns P-Q, with (0,0) when P = Q, and rejects P = -Q.", "quantifier": "all points, selectors and satisfying assignments", "why_tests_cant": "an adversarial prover may choose any cell values; tests only run the honest prover on sampled integers", "anchors": ["halo2-ecc/src/ecc/mod.rs:ec_select", "halo2-ecc/src/ecc/mod.rs:ec_select_from_bits", "halo2-ecc/src/ecc/mod.rs:is_equal", "halo2-ecc/src/ecc/mod.rs:negate", "halo2-ecc/src/ecc/mod.rs:ec_sub_strict"]}
{"id": "C57", "title": "get_naf is a signed binary recoding of its input", "statement": "For every vector of 64-bit limbs, if get_naf returns then its digits are in {-1,0,1}, their signed binary value is the value of the limbs, and inside each 64-digit block no two neighbours are non-zero; it returns for every value up to half of the capacity.", "quantifier": "all limb vectors of all lengths", "why_tests_cant": "there are infinitely many exponents; carries across limbs are rare in samples", "anchors": ["halo2-ecc/src/ecc/mod.rs:get_naf"]}
{"id": "C58", "title": "Multi-scalar multiplication computes the group sum", "statement": "For points on the curve with y != 0, or (0,0) for the identity, and scalars given as equally many limbs, every satisfying assignment of multi_scalar_multiply / scalar_multiply yields sum_i t_i*P_i (with (0,0) for the identity), where t_i is the integer spelled by limbs of at most max_bits bits equal to the scalar cells in the native field; the integers are exactly the cell values when 2^max_bits does not exceed the native modulus, and the result is exact for full-width scalars when the native modulus annihilates the points. The accumulator's random point cannot influence the result.", "quantifier": "all points, scalars, limb counts, max_bits, window sizes, random points and satisfying assignments", "why_tests_cant": "an adversarial prover may choose any cell values; tests only run the honest prover on sampled integers", "anchors": ["halo2-ecc/src/ecc/mod.rs:multi_scalar_multiply", "halo2-ecc/src/ecc/mod.rs:scalar_multiply"]}
{"id": "C59", "title": "EccChip::sum adds finite points", "statement": "For points of the curve (none at infinity), every satisfying assignment of sum yields exactly the group sum, which is then finite, whatever random point the prover uses.", "quantifier": "all lists of points, all random points, all satisfying assignments", "why_tests_cant": "an adversarial prover may choose any cell values; tests only run the honest prover on sampled integers", "anchors": ["halo2-ecc/src/ecc/mod.rs:EccChip::sum"]}
{"id": "C60", "title": "Fixed-base scalar multiplication computes the group multiple", "statement": "For a constant finite base point g of the curve none of whose precomputed multiples is the identity (in particular a point of prime order above 2^window_bits), every satisfying assignment of fixed_base::scalar_multiply yields t*g, with (0,0) for the identity, where t is spelled by limbs of at most max_bits bits equal to the scalar cells in the native field; for the identity as base point the result is (0,0). The random point cannot influence the result.", "quantifier": "all constant base points, scalars, limb counts, max_bits, window sizes, random points and satisfying assignments", "why_tests_cant": "an adversarial prover may choose any cell values; tests only run the honest prover on sampled integers", "anchors": ["halo2-ecc/src/ecc/fixed_base.rs:scalar_multiply"]}
{"id": "C61", "title": "ECDSA verification accepts only valid signatures", "statement": "For a public key and generator of prime order n (n at most the base modulus), numbers r, s and digest in proper limbs of at most as many bits as n, and a digest not divisible by n: in every satisfying assignment of ecdsa_verify_no_pubkey_check the output is a bit, and if it is 1 the signature satisfies the textbook verification equation (1 <= r,s < n, R = (h/s)G + (r/s)PK finite, x(R) mod n = r).", "quantifier": "all keys, signatures, digests, window sizes, random points and satisfying assignments (a malicious prover)", "why_tests_cant": "an adversarial prover may choose any cell values; tests only run the honest prover on sampled integers", "anchors": ["halo2-ecc/src/ecc/ecdsa.rs:ecdsa_verify_no_pubkey_check"]}
{"id": "C62", "title": "Schnorr verification accepts only valid signatures", "statement": "For a public key and generator of prime order n and numbers in proper limbs: in every satisfying assignment of schnorr_verify_no_pubkey_check the output is a bit, and if it is 1 the signature satisfies BIP-340's equation (r < p, s, e < n, R = sG - eP finite, y(R) even, x(R) = r).", "quantifier": "all keys, signatures, challenges, window sizes, random points and satisfying assignments (a malicious prover)", "why_tests_cant": "an adversarial prover may choose any cell values; tests only run the honest prover on sampled integers", "anchors": ["halo2-ecc/src/ecc/schnorr_signature.rs:schnorr_verify_no_pubkey_check"]}
{"id": "C63", "title": "The SHA-256 circuit computes SHA-256", "statement": "For every assignment of the advice cells that satisfies all gates of Sha256CircuitConfig (fixed columns as multi_sha256 assigns them), in any number of blocks: each block's is_final cell is 0 or 1, and for each maximal run of blocks ending in a final block there is a byte string shorter than 2^29 bytes whose length is the length cell, whose little-endian words (zero-filled) are the word_values cells of those blocks, that needs exactly that many blocks, and whose FIPS 180-4 SHA-256 digest is the output (hi, lo). Hence the digest is the one of any byte string matching the length and word cells.", "quantifier": "all tables, block counts, input lengths and satisfying assignments (a malicious prover)", "why_tests_cant": "an adversarial prover may choose any cell values; tests only run the honest prover on sampled integers", "anchors": ["hashes/zkevm/src/sha256/vanilla/constraints.rs:Sha256CircuitConfig::new", "hashes/zkevm/src/sha256/vanilla/witness.rs:multi_sha256", "hashes/zkevm/src/sha256/vanilla/witness.rs:AssignedSha256Block"]}
{"id": "C64", "title": "Configuring the SHA-256 circuit does not panic", "statement": "Every constraint created by Sha256CircuitConfig::new has degree at most the maximal degree 4, so the degree assertion of the constraint builder never fires.", "quantifier": "all fields", "why_tests_cant": "the assertion is checked on expressions built once per field; a proof covers every field and every constraint", "anchors": ["hashes/zkevm/src/sha256/vanilla/constraints.rs:Sha256CircuitConfig::new", "hashes/zkevm/src/util/constraint_builder.rs:validate_degree"]}
{"id": "C65", "title": "The SHA-256 circuit accepts every honest witness", "statement": "For every list of byte strings shorter than 2^29 bytes and every capacity, generate_witnesses_multi_sha256 panics exactly when the inputs need more blocks than the capacity; otherwise the assigned table has exactly 72 rows per block of the capacity, satisfies every gate whatever the remaining cells hold, and for each input, at the block offset given by the earlier inputs, the returned cells hold its length, words and SHA-256 digest. get_num_sha2_blocks counts exactly the blocks of an input and get_sha2_capacity is the largest capacity that fits the rows.", "quantifier": "all fields, lists of inputs, capacities and tables", "why_tests_cant": "padding boundaries, empty inputs, capacity boundaries and combinations of inputs are unboundedly many", "anchors": ["hashes/zkevm/src/sha256/vanilla/witness.rs:generate_witnesses_multi_sha256", "hashes/zkevm/src/sha256/vanilla/witness.rs:multi_sha256", "hashes/zkevm/src/sha256/vanilla/util.rs:get_num_sha2_blocks", "hashes/zkevm/src/sha256/vanilla/util.rs:get_sha2_capacity"]}
{"id": "C66", "title": "The Keccak circuit computes Keccak-256", "statement": "In every accepted assignment of the Keccak circuit (fixed columns as assigned by KeccakCircuitConfig::assign, all gates and lookups satisfied), consecutive blocks whose loaded cells declare a byte string (bytes_left, little-endian words, is_final) carry in hash_lo, hash_hi the Keccak-256 digest of that byte string, whatever k and rows_per_round are.", "quantifier": "all k, rows_per_round, byte strings, block counts and satisfying assignments (a malicious prover)", "why_tests_cant": "an adversarial prover may choose any cell values; tests only run the honest prover on sampled integers", "anchors": ["hashes/zkevm/src/keccak/vanilla/mod.rs:KeccakCircuitConfig::new", "hashes/zkevm/src/keccak/vanilla/keccak_packed_multi.rs:transform_to", "hashes/zkevm/src/keccak/vanilla/cell_manager.rs:CellManager::start_region", "hashes/zkevm/src/keccak/vanilla/mod.rs:KeccakCircuitConfig::assign"]}
{"id": "C67", "title": "Keccak lookup keys computed in circuit are those of the message", "statement": "For every satisfying assignment with an initialised hasher, encode_fix_len_bytes_vec returns the Poseidon key of the byte string spelled by the cells, and encode_var_len_bytes_vec that of the first len bytes, whatever the later cells hold; honest runs succeed.", "quantifier": "all fields whose words-per-element divide 18, all byte vectors, lengths up to the maximum, Poseidon parameters and satisfying assignments", "why_tests_cant": "an adversarial prover may choose any cell values; tests only run the honest prover on sampled integers", "anchors": ["hashes/zkevm/src/keccak/component/encode.rs:encode_fix_len_bytes_vec", "hashes/zkevm/src/keccak/component/encode.rs:encode_var_len_bytes_vec", "hashes/zkevm/src/keccak/component/encode.rs:format_input"]}
{"id": "C68", "title": "The Keccak component shard publishes the keys and digests of the loaded blocks", "statement": "For every satisfying assignment, if the loaded keccak_f cells declare a sequence of messages with digests, the published instances (raw columns or commitment) are, per message, the dummy output for every block but the last and then its key and declared digest; with the right digests and trailing empty messages they equal the natively computed instances; honest runs succeed.", "quantifier": "all capacities, message lists, block layouts, publish modes and satisfying assignments", "why_tests_cant": "an adversarial prover may choose any cell values; tests only run the honest prover on sampled integers", "anchors": ["hashes/zkevm/src/keccak/component/circuit/shard.rs:generate_base_circuit_witnesses", "hashes/zkevm/src/keccak/component/circuit/shard.rs:generate_circuit_final_outputs", "hashes/zkevm/src/keccak/component/circuit/shard.rs:publish_outputs", "hashes/zkevm/src/keccak/component/circuit/shard.rs:pack_inputs_from_keccak_fs", "hashes/zkevm/src/keccak/component/output.rs:multi_inputs_to_circuit_outputs"]}
{"id": "C69", "title": "Native Keccak component outputs", "statement": "encode_native_input is the specified key; the elements hashed into it determine the message; multi_inputs_to_circuit_outputs lists, per input, the dummy output for each block but the last and its key and Keccak-256 digest, filled with dummy outputs to the capacity, and panics exactly when the inputs need more blocks than the capacity.", "quantifier": "all lists of byte strings and capacities", "why_tests_cant": "block boundaries, empty inputs and collisions of the packing are unboundedly many", "anchors": ["hashes/zkevm/src/keccak/component/encode.rs:encode_native_input", "hashes/zkevm/src/keccak/component/output.rs:multi_inputs_to_circuit_outputs", "hashes/zkevm/src/keccak/component/output.rs:input_to_circuit_outputs"]}
{"id": "C70", "title": "Keccak shard parameters fit the requested capacity", "statement": "KeccakComponentShardCircuitParams::new chooses the largest rows_per_round with which the capacity fits in the usable rows, the Keccak circuit then has at least that capacity, and it panics exactly when none fits.", "quantifier": "all k, unusable rows and capacities", "why_tests_cant": "rounding boundaries", "anchors": ["hashes/zkevm/src/keccak/component/circuit/shard.rs:KeccakComponentShardCircuitParams::new", "hashes/zkevm/src/keccak/vanilla/keccak_packed_multi.rs:get_keccak_capacity"]}
{"id": "C71", "title": "Keccak ingestion format", "statement": "format_requests_for_ingestion returns the blocks of all requests in order (zero-filled bytes, length in the first block, final flag and digest in the last, zero digest elsewhere), cut or completed with empty messages to the capacity, and the number of blocks needed; each entry holds exactly the words of its part of the key.", "quantifier": "all lists of requests, given or missing digests, capacities", "why_tests_cant": "block boundaries and combinations of requests are unboundedly many", "anchors": ["hashes/zkevm/src/keccak/component/ingestion.rs:format_requests_for_ingestion"]}
{"id": "C72", "title": "Field-vector operations act coordinate by coordinate", "statement": "On vectors of CRT integers, the no-carry operations, carry_mod, negate, select, load_* compute the named operation in every coordinate; is_zero, is_equal, assert_equal, enforce_less_than are exact on carried inputs and force canonical coordinates, is_soft_zero and is_equal_unenforced are exact on canonical inputs, is_soft_nonzero is 1 exactly when some coordinate is non-zero and below the modulus; for every satisfying assignment, and the honest prover succeeds. Arguments of different lengths are a panic except for assert_equal, which compares up to the end of the shorter one.", "quantifier": "all lengths, limb sizes, values and satisfying assignments", "why_tests_cant": "an adversarial prover may choose any cell values; tests only run the honest prover on sampled integers", "anchors": ["halo2-ecc/src/fields/vector.rs:FieldVectorChip"]}
{"id": "C73", "title": "Fp2Chip computes in Fp[u]/(u^2+1)", "statement": "mul_no_carry, mul, conjugate, neg_conjugate and multiplication by xi0 + u compute the named operation of Fp[u]/(u^2+1); divide and neg_divide force a non-zero divisor and return the quotient; the unsafe variants return some w with w*y = x (resp. -x), the quotient when y is non-zero; for every satisfying assignment within the size bound, and the honest prover succeeds (division: for non-zero divisors).", "quantifier": "all primes 3 mod 4, limb sizes, inputs and satisfying assignments", "why_tests_cant": "an adversarial prover may choose any cell values; tests only run the honest prover on sampled integers", "anchors": ["halo2-ecc/src/fields/fp2.rs:Fp2Chip", "halo2-ecc/src/fields/fp12.rs:mul_no_carry_w6", "halo2-ecc/src/fields/mod.rs:divide", "halo2-ecc/src/fields/mod.rs:neg_divide"]}
{"id": "C74", "title": "Fp12Chip computes in Fp2[w]/(w^6-xi)", "statement": "mul_no_carry and mul compute the product in Fp2[w]/(w^6 - (xi0 + u)), which is the product of the tower Fq2, Fq6, Fq12 under the coordinate conversions of the FieldExtConstructor; fp2_mul_no_carry scales by an Fp2 element; conjugate is w -> -w; divide forces a divisor with some non-zero coordinate and a w with w*v = u, which is u*v^-1 whenever v is invertible; for every satisfying assignment within the size bound, and the honest prover succeeds (division: for invertible divisors).", "quantifier": "all primes 3 mod 4, xi0, limb sizes, inputs and satisfying assignments", "why_tests_cant": "an adversarial prover may choose any cell values; tests only run the honest prover on sampled integers", "anchors": ["halo2-ecc/src/fields/fp12.rs:Fp12Chip", "halo2-ecc/src/fields/mod.rs:divide"]}
{"id": "C75", "title": "NativeFieldChip computes in the circuit's own field", "statement": "Additions, subtraction, negation, multiplications, scalar multiples, selection, is_zero, is_equal, assert_equal, check_carry_mod_to_zero, range_check compute or enforce the named operation of the native field, divide and neg_divide force a non-zero divisor and return the quotient; for every satisfying assignment, and the honest prover succeeds. The exception is is_soft_nonzero, which returns minus the zero test: 0 for every non-zero element and -1 for 0.", "quantifier": "all fields, values and satisfying assignments", "why_tests_cant": "an adversarial prover may choose any cell values; tests only run the honest prover on sampled integers", "anchors": ["halo2-ecc/src/fields/native_fp.rs:NativeFieldChip", "halo2-ecc/src/fields/mod.rs:divide"]}
{"id": "C76", "title": "The Frobenius map of Fp12Chip raises to powers of the field size", "statement": "With halo2curves' Frobenius table, frobenius_map(a, j) returns the product of q^j copies of a in Fp2[w]/(w^6 - xi) for every j (q the size of the base field), and conjugate is the map for j = 6; for every satisfying assignment, and the honest prover succeeds.", "quantifier": "all primes 3 mod 4 and 1 mod 6 for which xi^((q^2-1)/6) is a primitive sixth root of unity, all limb sizes, powers, inputs and satisfying assignments", "why_tests_cant": "an adversarial prover may choose any cell values; tests only run the honest prover on sampled integers", "anchors": ["halo2-ecc/src/bn254/final_exp.rs:frobenius_map", "halo2-ecc/src/fields/fp12.rs:conjugate"]}
{"id": "C77", "title": "Powers and compressed cyclotomic arithmetic in Fp12", "statement": "pow(a, e) returns a^e for non-zero a and non-zero exponent (e = 0 returns a). On the compression of an element of the cyclotomic subgroup, cyclotomic_square returns the compression of its square, cyclotomic_decompress returns the element unless it is 1, and cyclotomic_pow(a, e) returns a^e if none of a, ..., a^(e+1) is 1; for every satisfying assignment, and the honest prover succeeds if the intermediate divisions are possible. At 1 the decompression divides 0 by 0 and the prover can choose the result.", "quantifier": "all such fields, exponents of any number of u64 limbs, inputs and satisfying assignments", "why_tests_cant": "an adversarial prover may choose any cell values; tests only run the honest prover on sampled integers", "anchors": ["halo2-ecc/src/bn254/final_exp.rs:pow", "halo2-ecc/src/bn254/final_exp.rs:cyclotomic_compress", "halo2-ecc/src/bn254/final_exp.rs:cyclotomic_decompress", "halo2-ecc/src/bn254/final_exp.rs:cyclotomic_square", "halo2-ecc/src/bn254/final_exp.rs:cyclotomic_pow"]}
{"id": "C78", "title": "final_exp computes the final exponentiation of the pairing", "statement": "For a BN field with parameter x and prime group order r, easy_part(a) returns a^((q^6-1)(q^2+1)), and final_exp(a) returns a^((q^12-1)/r) for every non-zero a whenever that power is not 1; if the output is 1 then a^((q^12-1)/r) = 1, so a passing pairing check is never a lie; for every satisfying assignment. The honest prover succeeds if the intermediate divisions are possible.", "quantifier": "all BN parameters, limb sizes, inputs and satisfying assignments", "why_tests_cant": "an adversarial prover may choose any cell values; tests only run the honest prover on sampled integers", "anchors": ["halo2-ecc/src/bn254/final_exp.rs:final_exp", "halo2-ecc/src/bn254/final_exp.rs:easy_part", "halo2-ecc/src/bn254/final_exp.rs:hard_part_BN"]}
{"id": "C79", "title": "Line functions, sparse products and curve arithmetic of the pairing", "statement": "sparse_line_function_unequal and _equal return the line through two points (resp. the tangent) of the twisted curve evaluated at P, as an element of Fp12; sparse_fp12_multiply and the multiply-with-line functions return the product with it; doubling, addition and negation over Fp2 follow the chord and tangent law, twisted_frobenius is the q-power Frobenius endomorphism of E(Fp12) on twisted points; for every satisfying assignment, and the honest prover succeeds where the affine formulas are defined.", "quantifier": "all points, all Fp12 elements, all assignments", "why_tests_cant": "36 unreduced partial products whose integer bounds must hold for every input", "anchors": ["halo2-ecc/src/bn254/pairing.rs:sparse_line_function_unequal", "halo2-ecc/src/bn254/pairing.rs:sparse_line_function_equal", "halo2-ecc/src/bn254/pairing.rs:sparse_fp12_multiply", "halo2-ecc/src/bn254/pairing.rs:fp12_multiply_with_line_unequal", "halo2-ecc/src/bn254/pairing.rs:twisted_frobenius", "halo2-ecc/src/bn254/pairing.rs:neg_twisted_frobenius"]}
{"id": "C80", "title": "The Miller loops compute the optimal Ate Miller function", "statement": "For every digit list, miller_loop_BN(Q, P) returns the value of Miller's algorithm for the optimal Ate pairing (the digit loop, then the lines with pi(Q) and -pi^2(Q)) whenever the affine steps are defined, and multi_miller_loop_BN the product over all pairs; for every satisfying assignment, and the honest prover succeeds. The value is non-zero when P is not of order 2 and the last line joins points with different x.", "quantifier": "all pairs of points, all digit lists, all assignments", "why_tests_cant": "loops over digit lists of any length; each step is a non-deterministic division", "anchors": ["halo2-ecc/src/bn254/pairing.rs:miller_loop_BN", "halo2-ecc/src/bn254/pairing.rs:multi_miller_loop_BN"]}
{"id": "C81", "title": "The pairing and the pairing check", "statement": "pairing(Q, P) returns the Miller value raised to (q^12-1)/r whenever that power is not 1, and an output 1 is never a lie; pairing_check(Q, P, T, S) is satisfiable only if e(Q, P) = e(T, S), whatever the prover does; the honest prover passes it whenever they are equal and no power met by the final exponentiation is exceptional.", "quantifier": "all points, all assignments, all BN parameters with prime group order", "why_tests_cant": "the prover chooses every quotient and decompression; soundness needs e(Q,-P) e(Q,P) = 1, an identity of Fp12", "anchors": ["halo2-ecc/src/bn254/pairing.rs:PairingChip::pairing", "halo2-ecc/src/bn254/pairing.rs:PairingChip::pairing_check"]}
{"id": "C82", "title": "BLS verification decides the pairing equation", "statement": "bls_signature_verify on loaded, aggregated points outputs 1 only if e(g1, sig) = e(pk, H(m)), outputs 0 whenever the two pairings differ, for every satisfying assignment; the honest prover obtains 1 when they are equal and 0 when they differ, as long as no power met by the final exponentiation is exceptional.", "quantifier": "all points, all digit lists, all assignments, all BN parameters with prime group order", "why_tests_cant": "the output must be right for every assignment of the prover, who chooses every quotient and decompression", "anchors": ["halo2-ecc/src/bn254/bls_signature.rs:BlsSignatureChip::bls_signature_verify"]}
{"id": "C83", "title": "Points of the twisted curve in circuits", "statement": "Over the quadratic extension, load_private and check_is_on_curve are satisfiable exactly for points of the twisted curve; strict addition and subtraction are satisfiable only for operands with different x and then return the sum or difference, whatever representation a non-strict operand has; into_strict_point forces a canonical x; sum of finite points of the curve returns their sum in the group of the curve (never infinity); for every satisfying assignment, and the honest prover succeeds when no partial sum, started at the random point, meets the x of the next point.", "quantifier": "all points, all numbers of summands, all random points, all assignments", "why_tests_cant": "the prover chooses the random point, every slope and every representation", "anchors": ["halo2-ecc/src/ecc/mod.rs:EccChip::load_private", "halo2-ecc/src/ecc/mod.rs:check_is_on_curve", "halo2-ecc/src/ecc/mod.rs:ec_add_unequal", "halo2-ecc/src/ecc/mod.rs:ec_sub_unequal", "halo2-ecc/src/ecc/mod.rs:into_strict_point", "halo2-ecc/src/ecc/mod.rs:EccChip::sum"]}
{"id": "C84", "title": "Aggregated BLS signatures are verified against the sum of the public keys", "statement": "bls_signature_verify panics unless there are as many signatures as public keys and at least one; in every satisfying assignment the points it loaded lie on their curves, the sums are those of the groups, and the flag is 1 only if e(g1, sum of signatures) = e(sum of public keys, H(m)) and 0 whenever the two differ; the honest prover obtains the value of the equation when no sum and no power meets an exceptional case.", "quantifier": "all lists of signatures and public keys, all assignments, all BN parameters with prime group order", "why_tests_cant": "lists of any length, and the prover chooses every point, slope, quotient and decompression", "anchors": ["halo2-ecc/src/bn254/bls_signature.rs:BlsSignatureChip::bls_signature_verify", "halo2-ecc/src/bn254/pairing.rs:PairingChip::load_private_g1", "halo2-ecc/src/bn254/pairing.rs:PairingChip::load_private_g2"]}
{"id": "C85", "title": "Multi-scalar multiplication picks either algorithm without changing the result", "statement": "variable_base_msm_custom (windowed up to 25 points, Pippenger multi_exp_par above): for every satisfying assignment, whatever random point and representations the prover chooses, the returned point is sum_i s_i P_i for scalars s_i whose limbs are integers of max_bits bits congruent to the scalar cells, with (0, 0) standing for the identity among inputs and output; limbs of at most CAPACITY bits are the cell values themselves, and full-width single limbs give the multiple by the cell value when the native modulus annihilates the points.", "quantifier": "all point lists, scalar lists, bit lengths, clump factors and satisfying assignments (a malicious prover)", "why_tests_cant": "an adversarial prover may choose any cell values; tests only run the honest prover on sampled integers", "anchors": ["halo2-ecc/src/ecc/pippenger.rs:multi_exp_par", "halo2-ecc/src/ecc/mod.rs:variable_base_msm_custom", "halo2-ecc/src/ecc/mod.rs:strict_ec_select_from_bits"]}
{"id": "C86", "title": "Builders and pools keep the stage they were made for", "statement": "For every sequence of calls (main, new_thread, parallel threads, set_break_points, unknown, clear, clone) on a builder made with from_stage or prover: pool i is in phase i, records constraints exactly when the stage is not Prover, and gives that flag to all its contexts; break_points returns what set_break_points was given, which succeeds exactly when no phase in use is left without break points, and a prover builder keeps the pinned break points of every phase; unknown(u) sets the flag of exactly the pools existing at that call, so a Keygen builder hides the witness values of phase 0 and of no later phase.", "quantifier": "all stages, call histories and break point lists", "why_tests_cant": "history property: flags are copied when a phase is first touched", "anchors": ["halo2-base/src/gates/circuit/builder.rs:{new,from_stage,prover,set_break_points,break_points,unknown,clear}", "halo2-base/src/gates/flex_gate/threads/multi_phase.rs:{new,touch,unknown,clear}", "halo2-base/src/gates/flex_gate/threads/single_phase.rs:{new,in_phase,new_context,main,new_thread,assign_raw}"]}
