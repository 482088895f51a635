-Q theories Verif
theories/Prelude.v
theories/Tree.v
theories/Perp.v
theories/Gamma.v
theories/RealOps.v
theories/Clf.v
theories/Reg.v
theories/Lists.v
theories/Spec.v
theories/PredictProofs.v
theories/FitProofs.v
theories/OptSpec.v
theories/OptProofs.v
theories/OptFit.v
theories/Transport.v
theories/ClfSpec.v
theories/ClfProofs.v
theories/RegSpec.v
theories/RegProofs.v
theories/StructProofs.v
theories/PruneProofs.v
theories/OptNodes.v
theories/Api.v
theories/ApiSpec.v
theories/ApiProofs.v
theories/NodeFacts.v
theories/SplitFacts.v
theories/Equiv.v
theories/Exec.v
theories/Witness.v
theories/RegWitness.v
theories/PropLemmas.v
theories/PropCases.v
theories/PropertiesPerp.v
theories/RawLeaf.v
theories/Importance.v
theories/ImportanceSpec.v
theories/ImportanceProofs.v
theories/StructPrior.v
theories/PathProofs.v
theories/PathWitness.v
theories/PropertiesPerp2.v
theories/Str.v
theories/StrSpec.v
theories/StrProofs.v
theories/StrWitness.v
theories/PropertiesStr.v
theories/Routing.v
theories/Sim.v
theories/FloatFeat.v
theories/FloatProofs.v
theories/IntFeat.v
theories/IntProofs.v
theories/LikExt.v
theories/IntFit.v
theories/NumApi.v
theories/NumLemmas.v
theories/NumWitness.v
theories/PropertiesNum.v
theories/Hyper.v
theories/HyperSpec.v
theories/HyperProofs.v
theories/HyperOpt.v
theories/HyperDist.v
theories/HyperApi.v
theories/HyperLemmas.v
theories/HyperExec.v
theories/HyperWitness.v
theories/PropertiesHyper.v
theories/Object.v
theories/ObjectSpec.v
theories/ObjectProofs.v
theories/ObjectFit.v
theories/Validate.v
theories/ValidateProofs.v
theories/Model.v
theories/ModelSpec.v
theories/ModelProofs.v
theories/ModelFit.v
theories/ModelLemmas.v
theories/ModelClasses.v
theories/ModelTargets.v
theories/ModelWitness.v
theories/ModelHyperWitness.v
theories/PropertiesApi.v
theories/Sparse.v
theories/SparseSpec.v
theories/SparseProofs.v
theories/SparseHyper.v
theories/SparseLemmas.v
theories/SparseWitness.v
theories/PropertiesSparse.v
theories/Sphere.v
theories/SphereProofs.v
theories/Optim.v
theories/OptimProofs.v
theories/OptimDescent.v
theories/OptimLemmas.v
theories/OptimPairs.v
theories/OptimFit.v
theories/OptimSpec.v
theories/OptimFitProofs.v
theories/OptimWitness.v
theories/PropertiesOptim.v
theories/CoarseSpec.v
theories/Coarse.v
theories/TrainSpec.v
theories/TrainProofs.v
theories/CoarseWitness.v
theories/PropertiesFit.v
theories/MonoSpec.v
theories/MonoProofs.v
theories/MonoWitness.v
theories/ColsSpec.v
theories/ColsProofs.v
theories/ColsWitness.v
theories/PropertiesFeat.v
theories/Nonfinite.v
theories/NonfiniteSpec.v
theories/NonfiniteProofs.v
theories/NonfiniteLemmas.v
theories/PropertiesTarget.v
theories/Phi.v
theories/PhiProofs.v
theories/PhiWitness.v
theories/PhiLemmas.v
theories/PropertiesQuasi.v
theories/MissingSpec.v
theories/MissingProofs.v
theories/MissingWitness.v
theories/MissingLemmas.v
theories/PropertiesMissing.v
theories/CastSpec.v
theories/CastProofs.v
theories/PropertiesCast.v
theories/NamesSpec.v
theories/NamesProofs.v
theories/PropertiesNames.v
theories/AnnealSpec.v
theories/AnnealProofs.v
theories/SequenceProofs.v
theories/PropertiesAnneal.v
theories/ConstSpec.v
theories/ConstMath.v
theories/ConstProofs.v
theories/ConstWitness.v
theories/PropertiesConst.v
theories/RedundantSpec.v
theories/RedundantProofs.v
theories/InfluenceSpec.v
theories/InfluenceProofs.v
theories/InfluenceWitness.v
theories/PropertiesInfluence.v
theories/StrTrees.v
theories/ReadSpec.v
theories/ReadProofs.v
theories/ReadModel.v
theories/PropertiesRead.v
theories/SimilarSpec.v
theories/SimilarProofs.v
theories/SimilarOptim.v
theories/SimilarWitness.v
theories/OppositeProofs.v
theories/OppositeWitness.v
theories/PropertiesSimilar.v
theories/HyperMoreSpec.v
theories/HyperMore.v
theories/OptimShift.v
theories/HyperSim.v
theories/HyperMoreCases.v
theories/PropertiesHyperMore.v
theories/FloatReg.v
theories/FloatRegProofs.v
theories/FloatSum.v
theories/FloatNG.v
theories/FitPrior.v
theories/FloatNGFit.v
theories/FloatClf.v
theories/FloatClfSum.v
theories/FloatClfProofs.v
theories/FloatClfFit.v
theories/FloatWitness.v
theories/PropertiesFloat.v
theories/Stable.v
theories/FloatClfErr.v
theories/FloatSame.v
theories/StableFit.v
theories/FloatOracle.v
theories/StableEx.v
theories/PropertiesStable.v
theories/FloatRegErr.v
theories/FloatRegScore.v
theories/StableGen.v
theories/FloatRegFit.v
theories/FloatRegEx.v
theories/PropertiesReg64.v
theories/FloatImp.v
theories/FloatImpSpec.v
theories/FloatImpProofs.v
theories/FloatImpFit.v
theories/FloatImpEx.v
theories/PropertiesImp64.v
theories/FloatPrune.v
theories/FloatPruneEx.v
theories/PropertiesPrune64.v
theories/FloatHyper.v
theories/FloatHyperDot.v
theories/FloatHyperFit.v
theories/FloatHyperEx.v
theories/PropertiesHyper64.v
theories/FloatHyperUnit.v
theories/FloatHyperChoice.v
theories/FloatHyperChoiceEx.v
theories/PropertiesChoice64.v
theories/Verbose.v
theories/VerboseProofs.v
theories/VerboseRows.v
theories/VerboseEx.v
theories/PropertiesVerbose.v
theories/FloatHyperHuge.v
theories/FloatHyperScale.v
theories/PropertiesHuge64.v
