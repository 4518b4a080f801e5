-Q theories Verif
theories/Prelude.v
theories/ParamModel.v
theories/ParamProofs.v
theories/ParamSpec.v
theories/ParamPropProofs.v
theories/InfoModel.v
theories/Props_Param.v
theories/FitModel.v
theories/FitSpec.v
theories/FitProofs.v
theories/FitPropProofs.v
theories/FitExamples.v
theories/Props_Fit.v
theories/AssembleModel.v
theories/AssembleSpec.v
theories/AssembleProofs.v
theories/AssembleHess.v
theories/AssembleNewton.v
theories/AssembleExamples.v
theories/Props_Assemble.v
theories/AnalyticSpec.v
theories/LikeModel.v
theories/LikeProofs.v
theories/LikeAgg.v
theories/Props_Like.v
theories/TennisModel.v
theories/TennisSpec.v
theories/TennisProofs.v
theories/Props_Tennis.v
theories/MarkovModel.v
theories/MarkovSpec.v
theories/MarkovProofs.v
theories/MarkovSweep.v
theories/MarkovDeriv.v
theories/Props_Markov.v
theories/CopulaModel.v
theories/CopulaSpec.v
theories/CopulaProofs.v
theories/CopulaFamilies.v
theories/Props_Copula.v
theories/SkellamModel.v
theories/SkellamSpec.v
theories/SkellamProofs.v
theories/SkellamRoots.v
theories/SkellamRoots2.v
theories/Props_Skellam.v
theories/PrepModel.v
theories/PrepSpec.v
theories/PrepProofs.v
theories/Props_Prep.v
theories/DenseModel.v
theories/DenseProofs.v
theories/FuncModel.v
theories/FuncSpec.v
theories/FuncLemmas.v
theories/FuncAffine.v
theories/FuncSum.v
theories/FuncWrapP.v
theories/FuncCompose.v
theories/FuncProduct.v
theories/FuncPrim.v
theories/FuncCollapse.v
theories/FlattenModel.v
theories/FlattenSpec.v
theories/FlattenProofs.v
theories/FlattenSum.v
theories/FlattenAdd.v
theories/FlattenTop.v
theories/FlattenTyped.v
theories/FlattenMain.v
theories/FuncBuilt.v
theories/FuncFindings.v
theories/Props_Func.v
theories/NDArray.v
theories/TensorModel.v
theories/TensorSpec.v
theories/NDProofs.v
theories/TensorLemmas.v
theories/TensorBasic.v
theories/TensorSum.v
theories/TensorSumMain.v
theories/TensorSpecOps.v
theories/TensorShape.v
theories/TensorExpand.v
theories/TensorBin.v
theories/TensorArith.v
theories/TensorMore.v
theories/TensorDiag.v
theories/TensorDotCore.v
theories/TensorDot.v
theories/TensorGeneric.v
theories/TensorGSum.v
theories/TensorGUni.v
theories/TensorGMix.v
theories/TensorFindings.v
theories/Props_Tensor.v
theories/HeapModel.v
theories/HeapSpec.v
theories/HeapProofs.v
theories/Props_Heap.v
theories/TensorUfunc.v
theories/TensorUfuncP.v
theories/Props_Ufunc.v
theories/FTModel.v
theories/FTRep.v
theories/FTRep2.v
theories/FTRep3.v
theories/FTVal.v
theories/FTDiag.v
theories/FTRefine.v
theories/FTPrim.v
theories/FTAffine.v
theories/FTNest.v
theories/FTKeep.v
theories/FTWrap.v
theories/FTSum.v
theories/FTCompose.v
theories/FTSpec.v
theories/FTBuilt.v
theories/FTAssoc.v
theories/FTValue.v
theories/FTFindings.v
theories/Props_FT.v
theories/LTModel.v
theories/LTPlain.v
theories/LTProd.v
theories/LTOuter.v
theories/LTCell.v
theories/LTMix.v
theories/LTEst.v
theories/LTFinite.v
theories/LTLik.v
theories/LTSpec.v
theories/LTDer.v
theories/LTFinDer.v
theories/LTFindings.v
theories/LTFinFindings.v
theories/Props_LT.v
theories/Props_LT2.v
theories/ETModel.v
theories/ETRefine.v
theories/ETNest.v
theories/ETKeep.v
theories/ETWrap.v
theories/ETCompose.v
theories/ETSum.v
theories/ETSpec.v
theories/ETBuilt.v
theories/Props_ET.v
theories/OTModel.v
theories/OTSpec.v
theories/OTBlock.v
theories/OTFlat.v
theories/OTSim.v
theories/OTSim2.v
theories/OTSim3.v
theories/OTForm.v
theories/OTCurve.v
theories/OTMain.v
theories/OTThm.v
theories/OTQuad.v
theories/OTLin.v
theories/Props_OT.v
theories/NTLoop.v
theories/NTModel.v
theories/NTSpec.v
theories/NTLike.v
theories/NTThm.v
theories/NTCon.v
theories/NTFit.v
theories/NTExample.v
theories/Props_NT.v
theories/NBSpec.v
theories/NTBroyden.v
theories/NBExample.v
theories/Props_NB.v
theories/PTModel.v
theories/PTMix.v
theories/PTProduct.v
theories/PTBuilt.v
theories/PTEval.v
theories/Props_PT.v
theories/Props_Nest.v
theories/FTNegBin.v
theories/Props_NegBin.v
theories/TensorGOps.v
theories/TensorGArr.v
theories/Props_GOps.v
theories/TensorGMul.v
theories/Props_GMul.v
theories/TensorGNp.v
theories/Props_GNp.v
theories/TensorGDims.v
theories/Props_GDims.v
theories/FTTwoSided.v
theories/Props_Sided.v
theories/Props_Sided2.v
theories/FTTwoSidedFit.v
theories/Props_SidedFit.v
theories/SidedExample.v
theories/Props_SidedFit2.v
theories/Props_Sided3.v
theories/Props_SidedFit3.v
theories/SidedBroyden.v
theories/Props_SidedFit4.v
