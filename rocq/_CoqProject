-Q theories Verif
theories/Scalar.v
theories/ScalarFacts.v
theories/Instances.v
theories/RealInst.v
theories/Tensor.v
theories/TensorFacts.v
theories/Spec.v
theories/MpsModel.v
theories/RealModel.v
theories/Witness.v
theories/MpsFacts.v
theories/EnvFacts.v
theories/ExpectedFacts.v
theories/StateFacts.v
theories/StateFacts2.v
theories/MpsProps.v
theories/Properties_Mps.v
theories/Properties_State.v
theories/MpoSpec.v
theories/MpoModel.v
theories/MpoFacts.v
theories/MpoThread.v
theories/MpoAddFacts.v
theories/MpoAddFacts2.v
theories/MpoAddFacts3.v
theories/MpoMatrix.v
theories/HamSpec.v
theories/HamModel.v
theories/HamFacts.v
theories/HamConst.v
theories/MpoProps.v
theories/Properties_Mpo.v
theories/Properties_Ham.v
theories/RScal.v
theories/CanonSpec.v
theories/CanonModel.v
theories/TruncFacts.v
theories/SplitFacts.v
theories/CanonFacts.v
theories/CanonSweep.v
theories/CanonNorm.v
theories/CanonProps.v
theories/ApplyCanon.v
theories/SweepModel.v
theories/SweepSpec.v
theories/SweepFacts.v
theories/CanonTwo.v
theories/SvdExist.v
theories/Properties_Canon.v
theories/Properties_Trunc.v
theories/FormModel.v
theories/FormSpec.v
theories/LFormFacts.v
theories/LFormValue.v
theories/QFormFacts.v
theories/QFormInv.v
theories/QFormValue.v
theories/QFormMain.v
theories/Properties_Form.v
theories/LatticeModel.v
theories/LatticeSpec.v
theories/LatticeFacts.v
theories/LatticeHop.v
theories/LatticeApply.v
theories/Properties_Lattice.v
theories/DecompModel.v
theories/DecompFacts.v
theories/Properties_Decomp.v
theories/SparseSpec.v
theories/SparseModel.v
theories/SparseFacts.v
theories/Properties_Sparse.v
theories/QuantumSpec.v
theories/QuantumModel.v
theories/Properties_Quantum.v
theories/ToolsModel.v
theories/Properties_Tools.v
theories/TrotterSpec.v
theories/TrotterModel.v
theories/TrotterFacts.v
theories/TrotterApply.v
theories/TrotterRun.v
theories/TrotterLoop.v
theories/TrotterExec.v
theories/TrotterNorm.v
theories/TrotterExp.v
theories/Properties_Trotter.v
theories/OpSpec.v
theories/OpAlgebra.v
theories/OpExp.v
theories/TrotterError.v
theories/LayerExp.v
theories/Properties_Trotter2.v
theories/Properties_Trotter3.v
theories/SimplifySpec.v
theories/SimplifyModel.v
theories/EckartYoung.v
theories/SimplifyFacts.v
theories/SimplifyStep.v
theories/SimplifyPair.v
theories/SimplifyDouble.v
theories/SimplifySweep.v
theories/SimplifyLoop.v
theories/Properties_Simplify.v
theories/SimplifyManyModel.v
theories/ManyFacts.v
theories/ManyEnv.v
theories/ManySweep.v
theories/PairBest.v
theories/ManyPair.v
theories/ManyLoop.v
theories/OneSweep.v
theories/SvdEconomic.v
theories/Properties_SimplifyMany.v
theories/Properties_SimplifyTwo.v
theories/MinimizerModel.v
theories/MinLive.v
theories/MinimizeSpec.v
theories/MinLocal.v
theories/MinStep.v
theories/MinSweep.v
theories/MinLoop.v
theories/EigsExist.v
theories/Properties_Minimize.v
theories/ConstraintSpec.v
theories/MinConstrained.v
theories/MinConstrainedRun.v
theories/Properties_Constraint.v
theories/MinOrtho.v
theories/MinOrthoRun.v
theories/Properties_Ortho.v
theories/MinBoth.v
theories/MinBothRun.v
theories/Properties_Ortho3.v
theories/Properties_Ortho2.v
theories/SolveModel.v
theories/SolveSpec.v
theories/SolveLive.v
theories/SolveAlg.v
theories/SolveStep.v
theories/SolveMain.v
theories/SolveTwo.v
theories/Properties_Solve.v
theories/Properties_Solve2.v
theories/ITebdModel.v
theories/ITimeModel.v
theories/ITebdSpec.v
theories/ITebdFacts.v
theories/ITebdSlow.v
theories/Properties_ITebd.v
theories/Properties_ITebd2.v
theories/Properties_ITebd3.v
theories/ITebdSpec2.v
theories/ITebdGauge.v
theories/ITebdCanon.v
theories/ITebdCanon2.v
theories/ITebdEig.v
theories/SpectralExist.v
theories/Properties_ITebd4.v
theories/Properties_ITebd5.v
theories/ITebdApply.v
theories/ITebdApply2.v
theories/Properties_ITebd6.v
theories/Properties_ITebd7.v
theories/Properties_ITebd8.v
theories/Properties_ITebd9.v
theories/Properties_ITebd10.v
theories/Properties_ITebd11.v
theories/TrotterLong.v
theories/Properties_ITebd12.v
theories/ITebdTotal.v
theories/Properties_ITebd13.v
theories/Properties_ITebd14.v
theories/CanonError.v
theories/Properties_Canon2.v
theories/MpoSimplModel.v
theories/Properties_MpoSimpl.v
theories/ArnoldiSpec.v
theories/ArnoldiModel.v
theories/ArnoldiFacts.v
theories/MetricExp.v
theories/ArnoldiProj.v
theories/ArnoldiStep.v
theories/ArnoldiKrylov.v
theories/Properties_Arnoldi.v
theories/Properties_Arnoldi2.v
theories/Properties_Arnoldi3.v
theories/DmrgModel.v
theories/DmrgSplit.v
theories/DmrgBlocks.v
theories/DmrgLocal.v
theories/DmrgSpec.v
theories/DmrgFamily.v
theories/DmrgStep.v
theories/DmrgSim.v
theories/DmrgExist.v
theories/Properties_Dmrg.v
theories/Properties_SimplifyStop.v
theories/ITebdNewModel.v
theories/ITebdNewSpec.v
theories/ITebdNew.v
theories/ITebdNew2.v
theories/ITebdNew3.v
theories/Properties_ITebd15.v
theories/Properties_ITebd16.v
theories/Properties_ITebd17.v
theories/Properties_ITime.v
theories/BondBound.v
theories/TrotterObc.v
theories/Properties_TrotterObc.v
theories/Properties_TrotterLayers.v
theories/Properties_TrotterOrder.v
theories/PhaseExp.v
theories/Properties_Trotter4.v
theories/MixModel.v
theories/MixFacts.v
theories/Properties_Mix.v
theories/CanonPeriodic.v
theories/Properties_CanonPeriodic.v
theories/ObcBest.v
theories/Properties_SimplifyObc2.v
theories/Properties_Defaults.v
theories/StopSpec.v
theories/StopFacts.v
theories/Properties_Stop.v
theories/GrowthSpec.v
theories/GrowthFacts.v
theories/Properties_Growth.v
theories/DumpModel.v
theories/Properties_Dump.v
theories/Properties_Routes.v
