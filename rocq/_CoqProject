-Q theories Verif
theories/Cplx.v
theories/Py.v
theories/PyFacts.v
theories/Ndarray.v
theories/NdFacts.v
theories/NdPerm.v
theories/Spec.v
theories/OperatorUtils.v
theories/SpecFacts.v
theories/Deriv.v
theories/ApplyOperator.v
theories/ApplyFacts.v
theories/DmFacts.v
theories/ExpandFacts.v
theories/Matrices.v
theories/Noise.v
theories/Sparse.v
theories/Gates.v
theories/Apply.v
theories/Composite.v
theories/SparseTensor.v
theories/SparseSpec2.v
theories/Conversion.v
theories/Shots.v
theories/Gpsr.v
theories/Api.v
theories/GateSpec.v
theories/PropSpec.v
theories/NoiseSpec.v
theories/GateFacts.v
theories/CircuitFacts.v
theories/AlgebraFacts.v
theories/GroupFacts.v
theories/ApplyThm.v
theories/ApplyThm2.v
theories/TensorFacts.v
theories/TensorThm.v
theories/GateThm.v
theories/EvolThm.v
theories/EvolSpec.v
theories/KrausThm.v
theories/NoiseThm.v
theories/NoiseThm2.v
theories/SparseSpec.v
theories/SparseFacts.v
theories/SparseThm.v
theories/SampleSpec.v
theories/SampleThm.v
theories/SeqThm.v
theories/SubThm.v
theories/ExpectSpec.v
theories/ExpectThm.v
theories/ExpectThm2.v
theories/ShotsSpec.v
theories/ShotsThm.v
theories/ShotsThm2.v
theories/GpsrSpec.v
theories/GpsrFacts.v
theories/GroupThm.v
theories/GpsrThm.v
theories/GpsrThm2.v
theories/GpsrThm3.v
theories/GpsrSpec2.v
theories/GpsrThm4.v
theories/StructSpec.v
theories/StructThm.v
theories/StructThm2.v
theories/StructThm3.v
theories/StructThm4.v
theories/Examples.v
theories/EvolExamples.v
theories/PhysSpec.v
theories/GenThm.v
theories/PhysThm.v
theories/PhysThm2.v
theories/PhysThm3.v
theories/PhysThm4.v
theories/PhysThm5.v
theories/PhysThm6.v
theories/PhysThm7.v
theories/PhysThm8.v
theories/PhysThm9.v
theories/PropApply.v
theories/OwnTensorThm.v
theories/PropTensor.v
theories/PropGates.v
theories/KrausThm2.v
theories/PropNoise.v
theories/SparseThm2.v
theories/SparseThm3.v
theories/SparseThm4.v
theories/EvolThm2.v
theories/NoiseLawSpec.v
theories/NoiseLawThm.v
theories/CircuitLawSpec.v
theories/CircuitLawThm.v
theories/CircuitLawThm2.v
theories/PropEvol.v
theories/EvolThm3.v
theories/EvolExamples2.v
theories/PropEvol2.v
theories/NameSpec.v
theories/NameThm.v
theories/PropName.v
theories/InverseSpec.v
theories/InverseThm.v
theories/PropInverse.v
theories/HeisSpec.v
theories/HeisThm.v
theories/PropHeis.v
theories/IndepSpec.v
theories/IndepThm.v
theories/PropIndep.v
theories/StableSpec.v
theories/StableThm.v
theories/PropStable.v
theories/FreqSpec.v
theories/FreqThm.v
theories/PropFreq.v
theories/SignalSpec.v
theories/SignalThm.v
theories/PropSignal.v
theories/PropNoise2.v
theories/PropCircuitLaw.v
theories/TrigSpec.v
theories/TrigThm.v
theories/TrigThm2.v
theories/PropTrig.v
theories/PropSparse.v
theories/PropSample.v
theories/ExpectThm3.v
theories/PropExpect.v
theories/PropShots.v
theories/PropGpsr.v
theories/PropGpsr2.v
theories/PropStruct.v
theories/PropPhys.v
theories/GroupSpec.v
theories/GroupThm2.v
theories/GroupThm3.v
theories/SeparateThm.v
theories/PartialThm.v
theories/PropPartial.v
theories/GpsrSecond.v
theories/HessSpec.v
theories/HessThm.v
theories/PropHess.v
theories/HeaThm.v
theories/PropHea.v
theories/GpsrOrder.v
theories/OrderSpec.v
theories/OrderThm.v
theories/PropOrder.v
theories/VarSpec.v
theories/VarThm.v
theories/PropVar.v
theories/PauliSpec.v
theories/PauliThm.v
theories/PropPauli.v
theories/CtorSpec.v
theories/CtorThm.v
theories/PropCtor.v
theories/TextSpec.v
theories/TextThm.v
theories/PropText.v
theories/ShotGradSpec.v
theories/ShotGradThm.v
theories/ShotGradThm2.v
theories/PropShotGrad.v
theories/Signed.v
theories/SignedSpec.v
theories/SignedThm.v
theories/SignedThm2.v
theories/SignedThm3.v
theories/PropSigned.v
theories/InterpSpec.v
theories/InterpThm.v
theories/PropInterp.v
theories/ContractSpec.v
theories/ContractThm.v
theories/PropContract.v
theories/Repr.v
theories/ReprSpec.v
theories/ReprThm.v
theories/PropRepr.v
theories/RoundSpec.v
theories/RoundThm.v
theories/PropRound.v
theories/ReadSpec.v
theories/ReadThm.v
theories/PropRead.v
theories/PermThm.v
theories/PropPerm.v
theories/JacThm.v
theories/PropJac.v
theories/TangentSpec.v
theories/TangentThm.v
theories/PropTangent.v
theories/PuritySpec.v
theories/PurityThm.v
theories/PropPurity.v
theories/NoisePolySpec.v
theories/NoisePolyThm.v
theories/PropNoisePoly.v
theories/CliffordSpec.v
theories/CliffordThm.v
theories/CliffordThm2.v
theories/PropClifford.v
