-Q theories Verif
theories/Field.v
theories/Spec.v
theories/Context.v
theories/ContextProofs.v
theories/Utils.v
theories/Logic.v
theories/Gate.v
theories/GateProofs.v
theories/ChainProofs.v
theories/IPProofs.v
theories/BitProofs.v
theories/PowProofs.v
theories/SatCheck.v
theories/PropsGate.v
theories/Range.v
theories/RangeProofs.v
theories/RegionGets.v
theories/RangeProofs2.v
theories/RangeProofs3.v
theories/PropsUtils.v
theories/PropsRange.v
theories/Rel.v
theories/RelGate.v
theories/RelRange.v
theories/Api.v
theories/ApiRel.v
theories/Pres.v
theories/PresGate.v
theories/PresRange.v
theories/ApiPres.v
theories/PropsContext.v
theories/Layout.v
theories/LayoutProofs.v
theories/LayoutProofs2.v
theories/LayoutProofs3.v
theories/PropsLayout.v
theories/Synth.v
theories/SynthProofs.v
theories/SynthProofs2.v
theories/SynthProofs3.v
theories/Threads.v
theories/DynLookup.v
theories/PropsSynth.v
theories/Derived.v
theories/IPComp.v
theories/LagrangeProofs.v
theories/PropsGate2.v
theories/SafeTypes.v
theories/SafeProofs.v
theories/SafeProofs2.v
theories/PropsSafe.v
theories/Det.v
theories/PoseidonMds.v
theories/PoseidonSpec.v
theories/PoseidonOpt.v
theories/PoseidonOpt2.v
theories/Calc.v
theories/PoseidonChip.v
theories/PoseidonChipProofs.v
theories/PoseidonChipProofs2.v
theories/PoseidonChipProofs3.v
theories/PoseidonHash.v
theories/PoseidonCompact.v
theories/PropsPoseidon.v
theories/BigInt.v
theories/FpChip.v
theories/CalcH.v
theories/BigNum.v
theories/RegionPrev.v
theories/RegionLast.v
theories/BigPrims.v
theories/BigSpec.v
theories/BigOps.v
theories/BigSel.v
theories/BigCmp.v
theories/BigSub.v
theories/BigCarry.v
theories/BigMod.v
theories/BigCrtNum.v
theories/BigCrt.v
theories/FpProofs.v
theories/FpProofs2.v
theories/FpProofs3.v
theories/Pocklington.v
theories/Bn254Primes.v
theories/FpField.v
theories/FpField2.v
theories/FpField3.v
theories/PropsBigInt.v
theories/PropsFp.v
theories/EcGroup.v
theories/EccFacts.v
theories/Ecc.v
theories/EccProofs.v
theories/EccProofs2.v
theories/EccProofs3.v
theories/PropsEcc.v
theories/PropsNaf.v
theories/EcComb.v
theories/MsmProofs.v
theories/MsmProofs2.v
theories/PropsMsm.v
theories/FixedBase.v
theories/FixedProofs.v
theories/PropsFixed.v
theories/Ecdsa.v
theories/Bn254Order.v
theories/PropsSig.v
theories/ShaSpec.v
theories/ShaCircuit.v
theories/ShaBits.v
theories/ShaEval.v
theories/ShaRows.v
theories/ShaBlock.v
theories/ShaPad.v
theories/ShaMsg.v
theories/PropsSha.v
theories/ShaWitness.v
theories/ShaGen.v
theories/ShaComp.v
theories/ShaGen2.v
theories/ShaOut.v
theories/PropsSha2.v
theories/KecSpec.v
theories/KecCircuit.v
theories/KecClaim.v
theories/KecAttack.v
theories/KecAttack2.v
theories/PropsKeccak.v
theories/KeySpec.v
theories/KecComp.v
theories/KecCompPure.v
theories/KecCompProofs.v
theories/KecShard.v
theories/KecKeyInj.v
theories/PropsKecComp.v
theories/FieldExt.v
theories/ExtSpec.v
theories/ExtSpec2.v
theories/ExtProofs.v
theories/ExtProofs2.v
theories/ExtProofs3.v
theories/ExtProofs4.v
theories/ExtProofs5.v
theories/NativeFp.v
theories/PropsExt.v
theories/PropsExt2.v
theories/PropsNative.v
theories/RingPow.v
theories/CycSpec.v
theories/FrobSpec.v
theories/Cyclo.v
theories/Fp12Field.v
theories/FinalExp.v
theories/GaussOps.v
theories/FinalProofs.v
theories/FinalProofs2.v
theories/FinalProofs3.v
theories/FinalHigh.v
theories/PropsFinal.v
theories/PropsFinal2.v
theories/PropsFinal3.v
theories/MillerSpec.v
theories/MillerAlg.v
theories/Pairing.v
theories/Bls.v
theories/EccG2.v
theories/Ec2Group.v
theories/PairOps.v
theories/PairOps2.v
theories/PairOps3.v
theories/PairOps4.v
theories/PairOps5.v
theories/BlsAlg.v
theories/PropsPairing.v
theories/PropsPairing2.v
theories/PairOpsG2.v
theories/PropsSum.v
theories/PropsG2.v
theories/PropsG22.v
theories/Pippenger.v
theories/PippengerProofs.v
theories/PropsPipp.v
theories/Builder.v
theories/PropsBuilder.v
