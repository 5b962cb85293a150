-Q theories Verif
theories/AlignProofs.v
theories/Ancestral.v
theories/AncestralProofs.v
theories/AncestralProofs2.v
theories/AncestralProofs3.v
theories/AncestralProofs4.v
theories/AncestralProofs5.v
theories/AnyPlate.v
theories/Arm.v
theories/ArmMean.v
theories/ArmProofs.v
theories/ArmProofs2.v
theories/Autograd.v
theories/AutogradProofs.v
theories/Base.v
theories/BiasProofs.v
theories/BiasProofs2.v
theories/BiasProofs3.v
theories/BroadcastProofs.v
theories/CallN.v
theories/CallProofs.v
theories/CallProofs2.v
theories/CallV.v
theories/CatProofs.v
theories/CatProofs2.v
theories/Construct.v
theories/ConstructProofs.v
theories/Context.v
theories/ContextProofs.v
theories/Curves.v
theories/DisarmProofs.v
theories/DisarmProofs2.v
theories/DistrProofs.v
theories/Dual.v
theories/Entmax.v
theories/Enumerate.v
theories/EnumerateHot.v
theories/EnumerateHotProofs.v
theories/EnumerateProofs.v
theories/EstimatorProofs.v
theories/EstimatorProofs2.v
theories/EstimatorProofs3.v
theories/Estimators.v
theories/ExactProofs.v
theories/ExpandAs.v
theories/ExpandAsProofs.v
theories/Expect.v
theories/Expect2.v
theories/ExpectMethod.v
theories/Finished.v
theories/FinishedProofs.v
theories/GetitemProofs.v
theories/Grad.v
theories/GradProofs.v
theories/Graph.v
theories/GraphProofs.v
theories/Gumbel.v
theories/GumbelProofs.v
theories/Hooks.v
theories/HooksProofs.v
theories/Importance.v
theories/ImportanceLoss.v
theories/ImportanceMethod.v
theories/ImportanceMethodProofs.v
theories/ImportanceProgram.v
theories/ImportanceProofs.v
theories/ImportanceWitness.v
theories/IndexLemmas.v
theories/IndexProofs.v
theories/Inference.v
theories/InferenceProofs.v
theories/InstallProofs.v
theories/LeakProofs.v
theories/ListLemmas.v
theories/Losses.v
theories/LossesProofs.v
theories/Matmul.v
theories/MatmulProofs.v
theories/MixedProofs.v
theories/MovingProofs.v
theories/Names.v
theories/NamesProofs.v
theories/OnePlate.v
theories/OpProofs.v
theories/OperatorProofs.v
theories/OrderPlates.v
theories/OrderProofs.v
theories/OutputProofs.v
theories/OwnProofs.v
theories/OwnProofs2.v
theories/OwnProofs3.v
theories/PlateEqProofs.v
theories/Plates.v
theories/PrintAll.v
theories/PrintGraph.v
theories/PrintProofs.v
theories/ProgramProofs.v
theories/ProgramProofs2.v
theories/ProgramProofs3.v
theories/ProgramProofs4.v
theories/ProgramProofs5.v
theories/ProgramWitness.v
theories/Prop_Ancestral.v
theories/Prop_Arm.v
theories/Prop_Autograd.v
theories/Prop_Construct.v
theories/Prop_Context.v
theories/Prop_Disarm.v
theories/Prop_Distr.v
theories/Prop_Enumerate.v
theories/Prop_Estimators.v
theories/Prop_Exact.v
theories/Prop_ExpandAs.v
theories/Prop_Finished.v
theories/Prop_Grad.v
theories/Prop_Graph.v
theories/Prop_Gumbel.v
theories/Prop_Importance.v
theories/Prop_ImportanceMethod.v
theories/Prop_Inference.v
theories/Prop_Install.v
theories/Prop_Leak.v
theories/Prop_Losses.v
theories/Prop_Matmul.v
theories/Prop_Mixed.v
theories/Prop_Names.v
theories/Prop_Order.v
theories/Prop_Own.v
theories/Prop_Print.v
theories/Prop_Program.v
theories/Prop_Query.v
theories/Prop_RaoBlackwell.v
theories/Prop_Rebar.v
theories/Prop_Reduce.v
theories/Prop_RelaxGrad.v
theories/Prop_RelaxTraining.v
theories/Prop_Relaxed.v
theories/Prop_RelaxedLaw.v
theories/Prop_Reparam.v
theories/Prop_Sampling.v
theories/Prop_ScoreWor.v
theories/Prop_Seq.v
theories/Prop_SeqPlates.v
theories/Prop_Setitem.v
theories/Prop_Shared.v
theories/Prop_SharedSampler.v
theories/Prop_Straight.v
theories/Prop_Surrogate.v
theories/Prop_Swor.v
theories/Prop_SworIw.v
theories/Prop_SworLaw.v
theories/Prop_Tensor.v
theories/Prop_TensorFns.v
theories/Prop_Training.v
theories/Prop_Unfinished.v
theories/Prop_Unique.v
theories/Prop_Unordered.v
theories/Prop_UnorderedEst.v
theories/Prop_Util.v
theories/Prop_Wrap.v
theories/Query.v
theories/QueryProofs.v
theories/RaoBatchProofs.v
theories/RaoBatchProofs2.v
theories/RaoBlackwell.v
theories/RaoBlackwellProofs.v
theories/RbSelect.v
theories/RebarProofs.v
theories/RebarSample.v
theories/Reduce.v
theories/ReduceProofs.v
theories/ReduceProofs2.v
theories/RejectProofs.v
theories/Relax.v
theories/RelaxDiff.v
theories/RelaxDual.v
theories/RelaxExpect.v
theories/RelaxGrad.v
theories/RelaxLoss.v
theories/RelaxRows.v
theories/RelaxSubst.v
theories/RelaxTraining.v
theories/RelaxTrainingProofs.v
theories/RelaxTrainingSlope.v
theories/RelaxUnbiased.v
theories/Relaxed.v
theories/RelaxedLaw.v
theories/RelaxedProofs.v
theories/Reparam.v
theories/ReparamDual.v
theories/ReparamLoss.v
theories/Sampling.v
theories/SamplingProofs.v
theories/Scalar.v
theories/ScoreWor.v
theories/ScoreWorProofs.v
theories/ScoreWorProofs2.v
theories/ScoreWorProofs3.v
theories/SeqMethod.v
theories/SeqMethodProofs.v
theories/SeqPlates.v
theories/SeqPlatesProofs.v
theories/Setitem.v
theories/SetitemProofs.v
theories/SetitemProofs2.v
theories/SharedProofs.v
theories/SharedSampler.v
theories/SharedSamplerProofs.v
theories/SpecAncestral.v
theories/SpecArm.v
theories/SpecAutograd.v
theories/SpecConstruct.v
theories/SpecContext.v
theories/SpecEnumerate.v
theories/SpecExact.v
theories/SpecExpect.v
theories/SpecFinished.v
theories/SpecGrad.v
theories/SpecGraph.v
theories/SpecHooks.v
theories/SpecImportance.v
theories/SpecImportanceMethod.v
theories/SpecIndex.v
theories/SpecInstall.v
theories/SpecLeak.v
theories/SpecLosses.v
theories/SpecMatmul.v
theories/SpecMixed.v
theories/SpecNames.v
theories/SpecOrder.v
theories/SpecOwn.v
theories/SpecPrint.v
theories/SpecProgram.v
theories/SpecQuery.v
theories/SpecRaoBlackwell.v
theories/SpecRebar.v
theories/SpecReduce.v
theories/SpecRelax.v
theories/SpecRelaxTraining.v
theories/SpecRelaxed.v
theories/SpecReparam.v
theories/SpecSample.v
theories/SpecSampling.v
theories/SpecScoreWor.v
theories/SpecSeq.v
theories/SpecSeqPlates.v
theories/SpecSharedSampler.v
theories/SpecStraight.v
theories/SpecSurrogate.v
theories/SpecSwor.v
theories/SpecTensor.v
theories/SpecTraining.v
theories/SpecUnique.v
theories/SpecUnordered.v
theories/SpecUtil.v
theories/SpecWrap.v
theories/Stochastic.v
theories/StochasticProofs.v
theories/Straight.v
theories/StraightBatch.v
theories/StraightCall.v
theories/StraightFns.v
theories/StraightLoss.v
theories/StraightMean.v
theories/StraightProofs.v
theories/StraightUnbiased.v
theories/StraightWitness.v
theories/StraightWitness2.v
theories/Surrogate.v
theories/SurrogateProofs.v
theories/SurrogateProofs2.v
theories/SurrogateProofs3.v
theories/SurrogateWitness.v
theories/Swor.v
theories/SworAgree.v
theories/SworEos.v
theories/SworIwProofs.v
theories/SworLaw.v
theories/SworProofs.v
theories/SworProofs2.v
theories/SworProofs3.v
theories/SworTotal.v
theories/SworWeights.v
theories/SworWeightsProofs.v
theories/TensorFns.v
theories/TopkRef.v
theories/TopoExact.v
theories/Torch.v
theories/Training.v
theories/TrainingProofs.v
theories/TwiceProofs.v
theories/Unfinished.v
theories/Unique.v
theories/UniqueProofs.v
theories/UniqueProofs2.v
theories/UniqueReduce.v
theories/UniqueReduceProofs.v
theories/Unordered.v
theories/UnorderedProofs.v
theories/UnorderedProofs2.v
theories/UnorderedWitness.v
theories/Util.v
theories/UtilProofs.v
theories/VarianceProofs.v
theories/Wrap.v
theories/WrapProofs.v
