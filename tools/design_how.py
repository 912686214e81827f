extra_rows="| halo2-ecc/src/bn254/pairing.rs (miller_loop_BN, multi_miller_loop_BN, lines, twisted Frobenius, pairing, pairing_check) | Pairing.v |\n| halo2-ecc/src/bn254/bls_signature.rs (bls_signature_verify from the aggregated points on) | Bls.v |\n| halo2-ecc/src/ecc/mod.rs over Fp2Chip (loading, strict addition and subtraction, sum), bn254/bls_signature.rs (loading and aggregation) | EccG2.v |\n"
extra_spec=", MillerSpec.v (lines, affine group law of the twist, Miller's algorithm), Ec2Group.v (group of the twist)"
how={}
def h(ids,t):
    for i in ids: how['C%02d'%i]=t
h([1,2],"Gate.v; symbolic execution of the monad per operation, sound + comp.")
h([3],"Gate.v; truth tables over `fbool`.")
h([4],"Gate.v; field inverse, sound + comp.")
h([5],"Gate.v; induction on the term list (ChainProofs.v, IPProofs.v, IPComp.v).")
h([6],"Gate.v/Derived.v; induction on the array, indicator invariant.")
h([7],"Gate.v; uniqueness of binary digits below the modulus (BitProofs.v).")
h([8],"Gate.v; loop invariant over the exponent bits (PowProofs.v).")
h([9],"Derived.v; Lagrange basis over a field (LagrangeProofs.v).")
h([10],"Range.v; limb decomposition with lookups, integer representatives (RangeProofs*.v).")
h([11,12],"Range.v; shifted comparison reduced to a range check; refutation by explicit assignment.")
h([13,14],"Range.v; uniqueness of quotient and remainder without wrap-around; refutation by explicit assignment.")
h([15,16,17],"Range.v and SafeTypes.v/Derived.v; digits of the representative.")
h([18,19],"Rel*.v, ApiRel.v: a two-run relational logic, one lemma per primitive and per API call, over programs of the API language Api.v.")
h([20,21,22],"Pres*.v, ApiPres.v: invariants of every API program by induction on the program.")
h([23,24],"Layout.v; induction over the virtual rows; refinement of physical gates to virtual gates.")
h([25],"Layout.v; case split on the offset; refutation by a two-gate context.")
h([26],"Layout.v; counting argument; refutation by computation.")
h([27,28,29],"Synth.v, Threads.v: folds over constraint lists, permutation invariance over interleavings.")
h([30,31],"Synth.v, DynLookup.v: every pushed cell is found in an enabled row.")
h([32,33,34,35],"Utils.v with explicit u64/u128 wrap-around; equality with mathematical digits by induction on limbs.")
h([36,37,38],"SafeTypes.v on Range.v; induction on byte lists.")
h([39],"PoseidonMds.v, PoseidonOpt*.v: linear algebra over lists, induction on rounds.")
h([40,41,42],"PoseidonChip.v, PoseidonHash.v, PoseidonCompact.v with `calc`; sponge by induction on blocks.")
h([43,44],"Det.v, Synth*.v: composition of C20-C30 into one theorem on the physical table.")
h([45,46,47,48],"BigInt.v; limbs as integers (BigSpec.v), carries by induction on limbs.")
h([49,50,51,52,53],"FpChip.v; integer identity from CRT (native residue and truncated residue) under the size bounds fp_params.")
h([54,55,56],"Ecc.v against the affine group law of EcGroup.v (associativity and closure proved there).")
h([57],"Ecc.v `get_naf`; loop invariant on the carry.")
h([58,59],"Ecc.v MSM and sum; group identities of EcComb.v, loop invariants over windows.")
h([60],"FixedBase.v; table lookups and window invariants.")
h([61,62],"Ecdsa.v; composition of C51-C60 in the two fields.")
h([63],"ShaCircuit.v as expressions; rows to words (ShaBits, ShaRows, ShaBlock), padding and messages (ShaPad, ShaMsg).")
h([64],"ShaCircuit.v; degree of every expression by computation on symbolic expressions.")
h([65],"ShaWitness.v, ShaGen*.v: the generated table satisfies every gate, by cases on the row.")
h([66],"KecCircuit.v; refuted by a satisfying assignment for symbolic messages (KecAttack*.v).")
h([67,68,69,70,71],"KecComp.v, KecShard.v against KeySpec.v/KecSpec.v; induction on blocks and capacities.")
h([72],"FieldExt.v; lifting of the FpChip lemmas through lists.")
h([73,74],"FieldExt.v against ExtSpec*.v; loop invariant for the 36 partial products.")
h([75],"NativeFp.v; gate lemmas.")
h([76],"FinalExp.v; Frobenius as a ring endomorphism (binomial theorem mod q in FrobSpec.v) against repeated multiplication (RingPow.v).")
h([77],"FinalExp.v; Karabina's compressed squaring derived from the cyclotomic equation (Cyclo.v), integer bounds in GaussOps.v, NAF loop invariant (FinalHigh.v).")
h([78],"FinalExp.v; exponent arithmetic with the BN polynomials (FinalHigh.v), field structure of Fp12 (Fp12Field.v), orders of powers.")
h([79],"Pairing.v against MillerSpec.v: the lines as elements of Fp12 (chord_at, tangent_at on twisted points); integer bounds of the 36 partial products (PairOps*.v).")
h([80],"Pairing.v; invariant of the digit loops: the circuit's state carries the state of Miller's algorithm (PairOps4.v, PairOps5.v).")
h([81],"Pairing.v; composition of C80 with C78; the Miller value at -P is the conjugate up to sign, so the negation inverts the pairing (MillerAlg.v).")
h([82],"Bls.v; composition of C79 (negation of the signature), C80 and C78; the equation is rewritten with the conjugate of the Miller value at -sig (BlsAlg.v).")
h([83],"EccG2.v; hcalc proofs of the formulas over Fp2 (PairOpsG2.v), the group law of y^2 = x^3 + b over Fp2 with associativity (Ec2Group.v), then induction over the points; the random point cancels in the group.")
h([84],"EccG2.v; composition of C83, C59 (PropsSum.v: completeness) and C82.")
h([85],"Pippenger.v; coefficients over the basis (random point, inputs): bucket entries indexed by bit strings, rounds and columns as sums, Horner loop (PippengerProofs.v); selection preserves canonical limbs.")
h([86],"Builder.v (flags and break points), with the tags of Threads.v; invariants over call histories (PropsBuilder.v).")
