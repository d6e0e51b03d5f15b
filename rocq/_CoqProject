-Q theories Verif
theories/Base/Algebra.v
theories/Base/Array.v
theories/Base/Gmp.v
theories/Base/Outcome.v
theories/Base/Slots.v
theories/Model/CalcParser.v
theories/Model/CalcScanner.v
theories/Model/Calculator.v
theories/Model/Curve.v
theories/Model/CurveCodec.v
theories/Model/CurveGen.v
theories/Model/Darray.v
theories/Model/DefaultPP.v
theories/Model/Dlog.v
theories/Model/ElementText.v
theories/Model/EllNet.v
theories/Model/EtaT3.v
theories/Model/Examples.v
theories/Model/FastFp.v
theories/Model/FasterFp.v
theories/Model/FieldInt.v
theories/Model/FpMachine.v
theories/Model/GF3Tower.v
theories/Model/GF3m.v
theories/Model/GT.v
theories/Model/GenLists.v
theories/Model/GenTools.v
theories/Model/GenToolsD.v
theories/Model/GenToolsG.v
theories/Model/GenericPow.v
theories/Model/Hilbert.v
theories/Model/IntText.v
theories/Model/Lucas.v
theories/Model/Memory.v
theories/Model/Miller.v
theories/Model/Mnt.v
theories/Model/MontFp.v
theories/Model/Mpc.v
theories/Model/Multiz.v
theories/Model/MultizBytes.v
theories/Model/MultizHeap.v
theories/Model/NaiveFp.v
theories/Model/Pairing.v
theories/Model/PairingA.v
theories/Model/PairingA1.v
theories/Model/PairingD.v
theories/Model/PairingE.v
theories/Model/PairingF.v
theories/Model/PairingI.v
theories/Model/PairingOptions.v
theories/Model/Param.v
theories/Model/ParamGen.v
theories/Model/Poly.v
theories/Model/PolyTests.v
theories/Model/Polymod.v
theories/Model/Printf.v
theories/Model/Quadratic.v
theories/Model/Random.v
theories/Model/SetMultiz.v
theories/Model/Singular.v
theories/Model/Storage.v
theories/Model/StorageGen.v
theories/Model/Symtab.v
theories/Model/TinyFp.v
theories/Model/Tonelli.v
theories/Model/TowerCodec.v
theories/Model/ZRing.v
theories/Spec/CMCurves.v
theories/Spec/CalcSyntax.v
theories/Spec/Calculator.v
theories/Spec/ClassPolynomial.v
theories/Spec/Curve.v
theories/Spec/CurveCalls.v
theories/Spec/CurveChoice.v
theories/Spec/ElementText.v
theories/Spec/EtaT.v
theories/Spec/Extension.v
theories/Spec/ExtensionRuns.v
theories/Spec/FieldCalls.v
theories/Spec/FiniteField.v
theories/Spec/GF3mElement.v
theories/Spec/GenLists.v
theories/Spec/GenTools.v
theories/Spec/HashToCurve.v
theories/Spec/Integers.v
theories/Spec/Multiz.v
theories/Spec/MultizHeap.v
theories/Spec/NodalCubic.v
theories/Spec/Numerals.v
theories/Spec/Options.v
theories/Spec/PairingValue.v
theories/Spec/PairingValueD.v
theories/Spec/PairingValueE.v
theories/Spec/PairingValueF.v
theories/Spec/ParamEqs.v
theories/Spec/ParamText.v
theories/Spec/PolynomialCalls.v
theories/Spec/Polynomials.v
theories/Spec/PrimeField.v
theories/Spec/Printf.v
theories/Spec/Quadratic.v
theories/Spec/QuadraticRuns.v
theories/Spec/Roots.v
theories/Spec/Sequences.v
theories/Spec/SetMultiz.v
theories/Spec/Storage.v
theories/Spec/StorageGen.v
theories/Spec/Tate.v
theories/Spec/Ternary.v
theories/Spec/TernaryPoints.v
theories/Spec/TernaryTower.v
theories/Spec/TernaryValues.v
theories/Spec/Twist.v
theories/Spec/Uniform.v
theories/Proofs/ArrayFacts.v
theories/Proofs/Bilinear.v
theories/Proofs/BilinearZ.v
theories/Proofs/BytesFacts.v
theories/Proofs/CalcParserComplete.v
theories/Proofs/CalcParserFacts.v
theories/Proofs/CalcParserWrite.v
theories/Proofs/CalcScannerFacts.v
theories/Proofs/CalcScannerWitness.v
theories/Proofs/CalculatorFacts.v
theories/Proofs/CalculatorUse.v
theories/Proofs/CalculatorWitness.v
theories/Proofs/CodecFacts.v
theories/Proofs/Conj.v
theories/Proofs/ContainerWitness.v
theories/Proofs/CurveAlgebra.v
theories/Proofs/CurveBatch.v
theories/Proofs/CurveCases1.v
theories/Proofs/CurveCases2.v
theories/Proofs/CurveFacts.v
theories/Proofs/CurveGenCases.v
theories/Proofs/CurveGenF.v
theories/Proofs/CurveGenFacts.v
theories/Proofs/CurveGenMain.v
theories/Proofs/CurveGenOrders.v
theories/Proofs/CurveGenWitness.v
theories/Proofs/CurveGroup.v
theories/Proofs/CurveOrder.v
theories/Proofs/CurvePublic.v
theories/Proofs/CurveWitness.v
theories/Proofs/DFinal.v
theories/Proofs/DarrayFacts.v
theories/Proofs/DegenerateWitness.v
theories/Proofs/DlogFacts.v
theories/Proofs/ElementTextFacts.v
theories/Proofs/Embed.v
theories/Proofs/EtaBilinear.v
theories/Proofs/EtaFinal.v
theories/Proofs/EtaInst.v
theories/Proofs/EtaLoop.v
theories/Proofs/EtaMain.v
theories/Proofs/ExampleA1.v
theories/Proofs/ExampleBls.v
theories/Proofs/ExampleFacts.v
theories/Proofs/ExampleMain.v
theories/Proofs/ExampleWitness.v
theories/Proofs/ExtFacts.v
theories/Proofs/ExtFrobenius.v
theories/Proofs/FieldChar.v
theories/Proofs/FieldFacts.v
theories/Proofs/FpBackends.v
theories/Proofs/FpCorollaries.v
theories/Proofs/FpRuns.v
theories/Proofs/FpWitness.v
theories/Proofs/Frobenius.v
theories/Proofs/GF3mBits.v
theories/Proofs/GF3mInvert.v
theories/Proofs/GF3mMain.v
theories/Proofs/GF3mPoly.v
theories/Proofs/GF3mRandom.v
theories/Proofs/GTFacts.v
theories/Proofs/GenListsFacts.v
theories/Proofs/GenToolsD.v
theories/Proofs/GenToolsE.v
theories/Proofs/GenToolsF.v
theories/Proofs/GenToolsFacts.v
theories/Proofs/GenToolsG.v
theories/Proofs/GenToolsOne.v
theories/Proofs/GmpFacts.v
theories/Proofs/HilbertForms.v
theories/Proofs/HilbertPoly.v
theories/Proofs/IntTextFacts.v
theories/Proofs/IntTextWitness.v
theories/Proofs/LimbFacts.v
theories/Proofs/LineAlgebra.v
theories/Proofs/LucasFacts.v
theories/Proofs/MillerFacts.v
theories/Proofs/MillerPoly.v
theories/Proofs/MntFacts.v
theories/Proofs/MntMain.v
theories/Proofs/ModFacts.v
theories/Proofs/MontBackend.v
theories/Proofs/MontMulFacts.v
theories/Proofs/MpcFacts.v
theories/Proofs/MultizBytesFacts.v
theories/Proofs/MultizFacts.v
theories/Proofs/MultizField.v
theories/Proofs/MultizHeapFacts.v
theories/Proofs/NetA.v
theories/Proofs/NetApi.v
theories/Proofs/NetE.v
theories/Proofs/NetEWitness.v
theories/Proofs/NetFacts.v
theories/Proofs/NetG.v
theories/Proofs/NetLoop.v
theories/Proofs/NetRefl.v
theories/Proofs/NetTwist.v
theories/Proofs/NonDegenA.v
theories/Proofs/NonDegenerate.v
theories/Proofs/OptionFacts.v
theories/Proofs/Outside.v
theories/Proofs/PairingA1Facts.v
theories/Proofs/PairingA1Witness.v
theories/Proofs/PairingAApi.v
theories/Proofs/PairingABatch.v
theories/Proofs/PairingAFacts.v
theories/Proofs/PairingAWitness.v
theories/Proofs/PairingDApi.v
theories/Proofs/PairingDFacts.v
theories/Proofs/PairingDWitness.v
theories/Proofs/PairingEApi.v
theories/Proofs/PairingEFacts.v
theories/Proofs/PairingEWitness.v
theories/Proofs/PairingFApi.v
theories/Proofs/PairingFMain.v
theories/Proofs/PairingIFacts.v
theories/Proofs/PairingIGen.v
theories/Proofs/PairingIMain.v
theories/Proofs/PairingIface.v
theories/Proofs/ParamFacts.v
theories/Proofs/ParamGenFacts.v
theories/Proofs/ParamMain.v
theories/Proofs/ParamWitness.v
theories/Proofs/PellFacts.v
theories/Proofs/PerfectA.v
theories/Proofs/PolyAlgebra.v
theories/Proofs/PolyBytes.v
theories/Proofs/PolyFacts.v
theories/Proofs/PolyQuintic.v
theories/Proofs/PolyRoots.v
theories/Proofs/PolyRuns.v
theories/Proofs/PolySearchWitness.v
theories/Proofs/PolySextic.v
theories/Proofs/PolySqrtFacts.v
theories/Proofs/PolyTestsFacts.v
theories/Proofs/PolyWitness.v
theories/Proofs/PolymodFacts.v
theories/Proofs/PolymodRuns.v
theories/Proofs/PolymodSmall.v
theories/Proofs/PowFacts.v
theories/Proofs/PowHom.v
theories/Proofs/PowRel.v
theories/Proofs/PowWitness.v
theories/Proofs/PrintfFacts.v
theories/Proofs/QuadFacts.v
theories/Proofs/QuadWitness.v
theories/Proofs/Rabin.v
theories/Proofs/RabinCompute.v
theories/Proofs/RabinField.v
theories/Proofs/RabinTable.v
theories/Proofs/RandomFacts.v
theories/Proofs/Rename.v
theories/Proofs/RootFacts.v
theories/Proofs/RootWitness.v
theories/Proofs/ScalarWitness.v
theories/Proofs/SetMultizFacts.v
theories/Proofs/SetMultizMain.v
theories/Proofs/SetMultizWitness.v
theories/Proofs/SexticExt.v
theories/Proofs/SexticFacts.v
theories/Proofs/SexticFive.v
theories/Proofs/SexticTower.v
theories/Proofs/SingularFacts.v
theories/Proofs/SingularWitness.v
theories/Proofs/SlotFacts.v
theories/Proofs/StorageClear.v
theories/Proofs/StorageFacts.v
theories/Proofs/StorageGenFacts.v
theories/Proofs/StorageNames.v
theories/Proofs/StoragePairing.v
theories/Proofs/StorageRun.v
theories/Proofs/StorageTables.v
theories/Proofs/Supersingular.v
theories/Proofs/Symbolic.v
theories/Proofs/TateFacts.v
theories/Proofs/TernaryCurve.v
theories/Proofs/TinyFacts.v
theories/Proofs/TinyWitness.v
theories/Proofs/TonelliFacts.v
theories/Proofs/TowerAlgebra.v
theories/Proofs/TowerCodecFacts.v
theories/Proofs/TowerFacts.v
theories/Proofs/TowerFields.v
theories/Proofs/TowerText.v
theories/Proofs/Twisted.v
theories/Proofs/TwistedValue.v
theories/Proofs/ZRingFacts.v
theories/Proofs/ZpField.v
theories/Properties/CMSearch.v
theories/Properties/CalcSyntax.v
theories/Properties/Calculator.v
theories/Properties/ClassPolynomials.v
theories/Properties/Containers.v
theories/Properties/Curve.v
theories/Properties/DiscreteLog.v
theories/Properties/ElementTexts.v
theories/Properties/EllNet.v
theories/Properties/EtaTPairing.v
theories/Properties/Examples.v
theories/Properties/Exponentiation.v
theories/Properties/GenLists.v
theories/Properties/GenTools.v
theories/Properties/GenToolsD.v
theories/Properties/GenToolsG.v
theories/Properties/GeneratedCurves.v
theories/Properties/GeneratedI.v
theories/Properties/IntegerText.v
theories/Properties/Integers.v
theories/Properties/Multiz.v
theories/Properties/MultizHeap.v
theories/Properties/NonDegeneracy.v
theories/Properties/PairingOptions.v
theories/Properties/Pairings.v
theories/Properties/PairingsA1.v
theories/Properties/PairingsD.v
theories/Properties/PairingsE.v
theories/Properties/PairingsF.v
theories/Properties/PairingsI.v
theories/Properties/ParamGeneration.v
theories/Properties/Parameters.v
theories/Properties/PolySearch.v
theories/Properties/Polynomials.v
theories/Properties/PrimeFields.v
theories/Properties/Printing.v
theories/Properties/Quadratic.v
theories/Properties/Roots.v
theories/Properties/SetMultiz.v
theories/Properties/Singular.v
theories/Properties/Storage.v
theories/Properties/StorageGen.v
theories/Properties/TernaryField.v
theories/Properties/TinyFields.v
theories/Properties/TowerCodes.v
