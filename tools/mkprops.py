#!/usr/bin/env python3
# regenerates /verif/properties.jsonl ; each entry: title, statement, quantifier, why_tests_cant, anchors
import json
B="halo2-base/src/"
G=B+"gates/flex_gate/mod.rs"; R=B+"gates/range/mod.rs"; L=B+"lib.rs"
SP=B+"gates/flex_gate/threads/single_phase.rs"; MP=B+"gates/flex_gate/threads/multi_phase.rs"
CC=B+"virtual_region/copy_constraints.rs"; LK=B+"virtual_region/lookups.rs"; LB=B+"virtual_region/lookups/basic.rs"
U=B+"utils/mod.rs"; ST=B+"safe_types/mod.rs"; BY=B+"safe_types/bytes.rs"; PO=B+"poseidon/hasher/"
MAL="a malicious prover may put any field element in any cell; a test exercises one honest assignment (or a few pranked cells), not all p^n assignments, and one field"
P=[]
def add(title,statement,quant,why,anchors):
    P.append(dict(id="C%02d"%(len(P)+1),title=title,statement=statement,quantifier=quant,why_tests_cant=why,anchors=anchors))
add("Field-arithmetic gates are sound","After GateChip add, sub, inc, dec, neg, mul, mul_add, sub_mul, mul_not or div_unsafe returns, every assignment of the advice cells that satisfies all constraints recorded in the context gives the returned cell the documented value (a+b, a-b, a+1, a-1, -a, ab, ab+c, a-bc, (1-a)b, and for div_unsafe the out with out*b = a), where a, b, c are the values the assignment gives to the argument cells (existing cells, constants, or freshly assigned witness cells).","every prime field, every context history, every mix of Existing/Constant/Witness arguments, every satisfying assignment",MAL,[G+":GateInstructions::{add,inc,sub,dec,sub_mul,neg,mul,mul_add,mul_not,div_unsafe}"])
add("Field-arithmetic gates are complete","For the same operations, the call does not panic on evaluated inputs (div_unsafe: non-zero divisor), and the witness the library itself computes satisfies every newly recorded constraint whenever it satisfied the earlier ones, and the returned AssignedValue carries exactly the documented value.","every prime field, every reachable context, every argument value","a missed constraint/witness mismatch can depend on a particular value or argument kind",[G+":GateInstructions"])
add("Boolean gates are sound and complete","assert_bit accepts exactly 0 and 1. For boolean arguments and, or, xor, not, or_and and select return exactly the boolean (resp. selected) result in every satisfying assignment, and the honest witness satisfies the constraints. select works for arbitrary field elements a, b.","every prime field with p > 2, every context, every satisfying assignment",MAL,[G+":GateInstructions::{assert_bit,and,or,xor,not,select,or_and}"])
add("is_zero and is_equal decide equality","In every satisfying assignment is_zero(a) is 1 if a = 0 and 0 otherwise; is_equal(a,b) is 1 if a = b and 0 otherwise. The honest witness (including the fraction 1/a that is inverted later) satisfies the constraints.","every prime field, context, argument kind and satisfying assignment",MAL,[G+":GateInstructions::{is_zero,is_equal}"])
add("Inner products and sums","inner_product, inner_product_left, inner_product_left_last, inner_product_with_sums, sum, partial_sums, accumulated_product and sum_products_with_coeff_and_var return cells that in every satisfying assignment equal the mathematical value for the assigned arguments (including all running sums and the re-assigned left vector), for vectors of any length, whether or not b starts with Constant(1); the honest witness satisfies the constraints.","all lengths, all argument kinds, all satisfying assignments","vector length and the leading-one optimisation are unbounded parameters",[G+":GateChip::inner_product_simple",G+":GateInstructions::{inner_product*,sum,partial_sums,accumulated_product,sum_products_with_coeff_and_var}"])
add("Indicators and indexed selection","In every satisfying assignment bits_to_indicator(bits) has a 1 exactly at the little-endian value of the bits (bits boolean); idx_to_indicator(idx,len) has a 1 exactly at idx if idx < len and is all zero otherwise; select_from_idx(cells, idx) returns cells[idx] if idx < len and 0 otherwise; select_by_indicator is the inner product with the indicator and select_array_by_indicator applies it columnwise.","all lengths below the field size, all satisfying assignments",MAL,[G+":GateInstructions::{bits_to_indicator,idx_to_indicator,select_by_indicator,select_from_idx,select_array_by_indicator}"])
add("Bit decomposition and recomposition","num_to_bits(a,n) constrains its n outputs to be bits whose little-endian value is congruent to a modulo p, hence for n <= CAPACITY it forces a < 2^n and the outputs are exactly the bits of a; bits_to_num returns the little-endian value. For n = NUM_BITS the decomposition is not unique (a witness exists), so canonicity must not be relied on there.","all n, all a, all satisfying assignments",MAL,[G+":GateChip::{num_to_bits,bits_to_num}"])
add("pow_var computes the power","pow_var(a, exp, max_bits) constrains exp < 2^max_bits and returns a^exp in the field in every satisfying assignment, and the honest witness satisfies the constraints.","all a, exp, max_bits <= CAPACITY, all satisfying assignments",MAL,[G+":GateChip::pow_var"])
add("Lagrange interpolation","lagrange_and_eval(coords, x): in every satisfying assignment the x_i are pairwise distinct and different from x, the second output is Prod(x - x_i) and the first output is f(x) for every polynomial f of degree < n with f(x_i) = y_i for all i.","all numbers of points, all values, all satisfying assignments",MAL,[G+":GateInstructions::lagrange_and_eval"])
add("range_check enforces and accepts exactly the range","In every satisfying assignment range_check(a, n) implies 0 <= a < 2^n (as an integer representative) and conversely, for every a < 2^n the honest witness satisfies all constraints, for every n with ceil(n/lookup_bits)*lookup_bits <= CAPACITY, every lookup table size and including n = 0 and n not a multiple of lookup_bits.","all fields, lookup_bits, n, a and satisfying assignments",MAL,[R+":RangeChip::{_range_check,range_check,new}"])
add("check_less_than and its safe variants","If a and b are known to fit in num_bits bits and 2^(num_bits+1) <= p, check_less_than(a,b,num_bits) is satisfiable exactly when a < b. check_less_than_safe and check_big_less_than_safe need no assumption on a. At the documented limit num_bits = CAPACITY the check is unsound: on the BN254 scalar field there is a satisfying assignment with a >= b.","all a, b, num_bits, lookup_bits, all satisfying assignments",MAL,[R+":RangeInstructions::{check_less_than_safe,check_big_less_than_safe}",R+":RangeChip::check_less_than"])
add("is_less_than and its safe variants","For a,b of at most num_bits bits with (ceil(num_bits/lookup_bits)+1)*lookup_bits <= CAPACITY, is_less_than returns 1 if a < b and 0 otherwise in every satisfying assignment and the honest witness satisfies the constraints; the safe variants additionally range check a.","all a, b, num_bits, lookup_bits, all satisfying assignments",MAL,[R+":RangeChip::is_less_than",R+":RangeInstructions::{is_less_than_safe,is_big_less_than_safe}"])
add("div_mod is Euclidean division by a constant","div_mod(a,b,n): in every satisfying assignment, if a < 2^n and 2^n + b <= p (and the internal comparisons fit), the outputs are exactly floor(a/b) and a mod b. At the documented limit n <= CAPACITY without the relation between b and p the result is not unique: a satisfying assignment with a wrong quotient exists on BN254.","all a, b, n, lookup_bits, all satisfying assignments",MAL,[R+":RangeInstructions::div_mod"])
add("div_mod_var is Euclidean division by a variable","div_mod_var(a,b,a_bits,b_bits): in every satisfying assignment, if a < 2^a_bits, b < 2^b_bits and the intermediate product b*div_lo+rem cannot wrap modulo p, the outputs are exactly floor(a/b) and a mod b (in particular b = 0 is unsatisfiable). Within the documented assumptions alone (a_bits, b_bits <= CAPACITY) it is unsound.","all a, b, bit lengths, all satisfying assignments",MAL,[R+":RangeInstructions::div_mod_var"])
add("get_last_bit returns the parity","If a < 2^limb_bits and 2^limb_bits <= p then get_last_bit(a, limb_bits) is a mod 2 in every satisfying assignment and the honest witness satisfies the constraints.","all a, limb_bits, all satisfying assignments",MAL,[R+":RangeInstructions::get_last_bit"])
add("Limb decomposition and recomposition in circuit","decompose_le(num, limb_bits, k) returns k cells each < 2^limb_bits whose base-2^limb_bits value is congruent to num, hence is the unique limb decomposition when 2^(k*limb_bits) <= p, and is unsatisfiable if num does not fit; limbs_to_num inverts it.","all num, limb_bits, k, all satisfying assignments",MAL,[R+":RangeInstructions::{decompose_le,limbs_to_num}"])
add("Constant bit rotation","const_left_rotate / const_right_rotate of an NUM_BITS-bit value return the rotated value in every satisfying assignment, and every NUM_BITS-bit input has a satisfying honest witness.","all BIT, NUM_BITS, inputs, satisfying assignments",MAL+"; the test file for rotation is not compiled (absent from gates/tests/mod.rs)",[R+":RangeChip::{const_right_rotate_internal,const_right_rotate,const_left_rotate}"])
add("Prover mode and keygen mode build the same trace","For every sequence of chip operations, running in witness-generation-only mode produces exactly the same advice values, in the same order, the same looked-up values and the same returned values as running in keygen mode, and records no constraints.","all programs over the chip API, all inputs","the two modes take different code paths in every operation; only sampled programs are tested",[L+":Context::{assign_cell,assign_region,assign_region_smart,last,get,assign_witnesses,load_witness,load_constant,load_zero}",G,R])
add("Circuit shape does not depend on witnesses","For every sequence of chip operations, two runs whose inputs differ only in witness values (same cells, same constants, same lengths) record identical selectors, copy constraints, constant constraints and lookups, unless one of them panics; so the verifying key generated with dummy witnesses is the one for every proof.","all programs, all pairs of witness inputs","relational property over all pairs of inputs",[L+":Context",G,R])
add("Constraints are never lost or moved","No operation removes or alters a previously assigned advice value, an enabled gate, an equality, a constant constraint or a lookup; a satisfying assignment of a later context satisfies every earlier one.","all operation sequences","must hold for every history of calls",[L+":Context"])
add("Context primitives impose exactly what they document","assign_region constrains Existing inputs equal to their source cell and Constant inputs to the constant and turns on exactly the requested gates; load_constant/load_zero return a cell pinned to the constant, load_zero returns the same cell when called again; get accepts negative offsets and panics out of range; constrain_equal / assert_is_const restrict assignments exactly to equality.","all contexts, inputs and offsets, all assignments",MAL,[L+":Context::{assign_cell,assign_region,assign_region_last,assign_region_smart,get,last,load_constant,load_zero,constrain_equal}",G+":assert_is_const"])
add("Gates generated by the library stay inside their context and never overlap badly","After any sequence of gate/range chip calls, every enabled gate starting at offset i has i+3 < len(advice) in the same context and no two enabled gates start at distance 1 or 2, which is what column breaking relies on.","all programs over the chip API","needs an invariant over all call sequences; a violation only shows at an unlucky column break",[SP+":assign_with_constraints",G,R])
add("Physical layout is faithful","assign_with_constraints places the virtual cells of all contexts into physical columns such that an assignment of the physical cells satisfies the enabled physical gates and recorded copies iff the induced assignment of virtual cells satisfies every virtual gate, for any number of columns, row budget and column breaks, provided gates lie inside their context and do not overlap at distance 1 or 2; each virtual cell gets exactly one physical cell and distinct virtual cells get distinct physical cells.","all context lists, all max_rows, all assignments","column breaks happen at data-dependent positions; tests use one k",[SP+":assign_with_constraints"])
add("Break points replay the same layout","assign_witnesses run with the break points returned by assign_with_constraints writes every advice value to exactly the physical cells the keygen pass used (including duplicated cells at breaks), for every list of contexts.","all contexts, values and row budgets","two independently written loops must agree on all inputs",[SP+":assign_witnesses",SP+":assign_with_constraints"])
add("The overlap safety check at a column break","A column break never separates two rows of an enabled gate: if the layout pass returns, then for every break position no gate starting 1 or 2 cells before the break is enabled.","all selector patterns","only violated for gates near the start of a context placed near the end of a column",[SP+":assign_with_constraints (safety check)"])
add("Auto-calculated parameters suffice","With the column counts returned by calculate_params for k and minimum_rows, the layout pass does not run out of advice columns.","all contexts and k","off-by-duplicates at column breaks only show for particular sizes",[MP+":calculate_params",SP+":assign_with_constraints"])
add("Copy and constant constraints are all imposed","Assigning the copy manager gives every distinct constant its own fixed cell holding that constant, and imposes every recorded advice equality and constant equality on the physical cells of its two ends; running it twice gives the same result; num_distinct_constants is the number of fixed cells used; it panics if an end was never assigned.","all lists of equalities, all numbers of fixed columns","list lengths and column counts are unbounded",[CC+":assign_raw",CC+":num_distinct_constants"])
add("Result is independent of thread interleaving","For every interleaving of the pushes that CPU threads make to the shared copy manager and lookup manager, the assigned constants, the ordered list of copy constraints and the ordered list of looked-up cells are the same.","all interleavings of any number of threads","schedules cannot be enumerated by tests",[CC+":assign_raw (sort)",LK+":add_lookup","halo2-base/src/gates/flex_gate/threads/parallelize.rs:parallelize_core"])
add("Context tags are unique","For every sequence of main/new_thread/parallelize/touch calls over several phases, no two contexts share the same (type id, context id) and within a phase the context id equals its position.","all call sequences","history property",[SP+":{main,new_thread,new_context,type_of}",MP+":{main,new_thread,touch}","halo2-base/src/gates/flex_gate/threads/parallelize.rs"])
add("Every looked-up cell is tied to a table row","The lookup manager's assignment copies each registered tuple to one row of the lookup-enabled columns, constrained equal to the source cells, with no two tuples sharing a row and never exceeding num_advice_chunks columns of usable_rows rows; so physical satisfaction implies every registered cell lies in the table.","all numbers of lookups, columns, rows","boundary at full columns",[LK+":assign_raw",LK+":num_advice_chunks"])
add("Dynamic lookup keys are table rows","With BasicDynLookupConfig, in every satisfying assignment each enabled key equals a key of an enabled table row (the all-zero padding row and blinded rows cannot satisfy an enabled lookup), and honest assignments with keys in the table are satisfiable.","all key/table lists",MAL,[LB])
add("u64-limb decomposition","decompose_u64_digits_to_limbs / decompose_fe_to_u64_limbs return num_limbs limbs, each below 2^bit_len, equal to the base-2^bit_len digits of the value truncated to num_limbs, for every 1 <= bit_len < 64 and every number of digits.","all values, bit_len < 64, limb counts","bit boundaries between 64-bit words",[U+":decompose_u64_digits_to_limbs",U+":ScalarField::to_u64_limbs"])
add("BigUint decomposition and recomposition","decompose_biguint(e,k,b) for 64 <= b < 128 returns the base-2^b digits of e; compose(decompose(...)) returns the value; decompose_bigint does so for signed values; decompose is correct for every documented bit_len.","all e, k, b","carry between 128-bit windows depends on b and the value; documented bit_len = 64 falls on the u64 path",[U+":{decompose,decompose_biguint,decompose_bigint,compose}"])
add("Field conversions are inverse","fe_to_biguint/biguint_to_fe, fe_to_bigint/bigint_to_fe, to_bytes_le/from_bytes_le, get_lower_32/64/128 are the canonical representative conversions: round trips are the identity (mod p), and modulus() is p.","all field elements and integers","p is about 2^254",[U+":{modulus,biguint_to_fe,bigint_to_fe,fe_to_biguint,fe_to_bigint,power_of_two}",U+":ScalarField::{get_lower_32,get_lower_64,to_bytes_le}"])
add("bit_length and log2_ceil","bit_length(x) is the least n with x < 2^n and log2_ceil(x) is the least n with x <= 2^n, for all u64 x.","all u64","2^64 inputs",[U+":bit_length",U+":log2_ceil"])
add("Safe types carry their range","load_bool/assert_bool, load_byte and raw-bytes loaders of SafeTypeChip only return values which in every satisfying assignment lie in the type's range (bool: {0,1}; byte: < 256; array lengths: within bounds) and accept every in-range honest value.","all inputs, all satisfying assignments",MAL,[ST,BY,B+"safe_types/primitives.rs"])
add("raw_bytes_to packs bytes into the value","SafeTypeChip::raw_bytes_to / raw_to_* return compressed field elements equal to the little-endian value of the checked bytes in every satisfying assignment.","all byte strings, all satisfying assignments",MAL,[ST+":raw_bytes_to"])
add("Variable-length byte arrays pad correctly","left_pad_var_array_to_fixed returns, in every satisfying assignment, the array shifted right by max_len - len with zeros on the left, and ensure_0_padding zeroes everything from len on, for every len in range.","all lengths 0..=MAX_LEN, all contents, all satisfying assignments",MAL,[BY+":left_pad_var_array_to_fixed",BY+":VarLenBytesVec::ensure_0_padding"])
add("Optimized Poseidon equals textbook Poseidon","The permutation computed with the optimized round constants and sparse MDS factorisation equals the textbook permutation (add constants, S-box, MDS in every round) for the same constants and MDS matrix, for every width, round numbers and state for which the factorisation exists.","all states, all parameters","algebraic identity over all states and parameters",[PO+"spec.rs",PO+"mds.rs",PO+"state.rs:permutation"])
add("Poseidon circuit computes the permutation","In every satisfying assignment the in-circuit permutation maps the input state cells to the value of the native permutation, and the honest witness satisfies the constraints.","all states, parameters, satisfying assignments",MAL,[PO+"state.rs"])
add("Fixed-length and variable-length hashing agree","hash_var_len_array(inputs, len) equals hash_fix_len_array(inputs[..len]) in every satisfying assignment with len <= inputs.len(), including lengths that are multiples of the rate and zero; and both equal sponge update/squeeze.","all input lengths and len values","chunk-boundary cases for every rate",[PO+"mod.rs:PoseidonHasher"])
add("PoseidonCompactInput validation","add_validation_constraints accepts exactly chunks whose is_final flag is boolean, whose len <= RATE, and which are full unless final.","all chunks, all satisfying assignments",MAL,[PO+"mod.rs:PoseidonCompactInput"])
out=open("/verif/properties.jsonl","w")
try:
    exec(open("/verif/tools/props_more.py").read())
except FileNotFoundError: pass
for x in P: out.write(json.dumps(x)+"\n")
out.close(); print(len(P))
