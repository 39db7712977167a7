-Q theories Verif
theories/Py.v
theories/NdArray.v
theories/OptimModel.v
theories/ColModel.v
theories/NdLemmas.v
theories/OptimSpec.v
theories/OptimLaws.v
theories/DictLemmas.v
theories/Builder.v
theories/BuilderLemmas.v
theories/LawFacts.v
theories/LayoutLemmas.v
theories/PropsLayout.v
theories/ProblemSpec.v
theories/ProblemLemmas.v
theories/AssemblyLemmas.v
theories/GradLemmas.v
theories/DerivSpec.v
theories/CalcLemmas.v
theories/ProblemFacts.v
theories/DerivThms.v
theories/ExampleFn.v
theories/DenseLemmas.v
theories/PropsProblem.v
theories/GenModel.v
theories/GenSpec.v
theories/GenLemmas.v
theories/GenDeriv.v
theories/IndexLemmas.v
theories/PropsGen.v
theories/SymModel.v
theories/NameLemmas.v
theories/PropsNames.v
theories/SymLemmas.v
theories/PropsSparse.v
theories/SymDeriv.v
theories/PropsSym.v
theories/RealField.v
theories/McRing.v
theories/RkModel.v
theories/LegendreLemmas.v
theories/QuadLemmas.v
theories/LobattoLemmas.v
theories/PropsRk.v
theories/ColLemmas.v
theories/ColBuild.v
theories/ColLaws.v
theories/ColCalls.v
theories/PropsCol.v
theories/SymColModel.v
theories/PropsSymCol.v
theories/ColValues.v
theories/NlpLemmas.v
theories/PropsNlp.v
theories/QuatModel.v
theories/PropsQuat.v
theories/UtilModel.v
theories/PropsUtil.v
theories/PropsDiff.v
theories/KalModel.v
theories/PsdLemmas.v
theories/CholLemmas.v
theories/UtLemmas.v
theories/PropsUt.v
theories/GainLemmas.v
theories/KalLemmas.v
theories/PropsKal.v
theories/PropsSmooth.v
theories/PropsMap.v
theories/PropsPem.v
theories/OptModel.v
theories/PropsOpt.v
theories/KalDiffModel.v
theories/MxCalc.v
theories/CholDiffLemmas.v
theories/PropsCholDiff.v
theories/UtDiffLemmas.v
theories/FiltDiffLemmas.v
theories/PropsPemDiff.v
theories/SdeModel.v
theories/PropsSde.v
theories/RegModel.v
theories/RegLemmas.v
theories/EndToEnd.v
theories/PropsEnd.v
theories/PropsEndEst.v
theories/Expr.v
theories/ExprSym.v
theories/ExprModel.v
theories/ExprEnd.v
theories/ExprValues.v
theories/ExprCases.v
theories/PropsExpr.v
theories/ExprCalc.v
theories/KalExpr.v
theories/KalExprLemmas.v
theories/PropsKalExpr.v
theories/NpModel.v
theories/NpLemmas.v
theories/NdKalModel.v
theories/NpOps.v
theories/NdCholLemmas.v
theories/NdTransLemmas.v
theories/NdFilterLemmas.v
theories/NdLoopLemmas.v
theories/NdDiffLemmas.v
theories/NdGradLemmas.v
theories/PropsNdKal.v
theories/PropsEdge.v
theories/PropsKalEdge.v
theories/ClassModel.v
theories/PropsClass.v
theories/NdSdeModel.v
theories/NdSdeLemmas.v
theories/PropsNdSde.v
theories/AliasModel.v
theories/AliasLemmas.v
theories/PropsAlias.v
theories/PropsAlias2.v
theories/PropsKalMeas.v
theories/SigModel.v
theories/PropsSig.v
theories/SymSdeModel.v
theories/PropsSymSde.v
theories/ViewModel.v
theories/ViewLemmas.v
theories/PropsView.v
theories/ScriptModel.v
theories/PropsScript.v
theories/ExampleModel.v
theories/ExampleBounds.v
theories/PropsExample.v
theories/FlModel.v
theories/FlLemmas.v
theories/PropsFl.v
theories/PropsFlDiff.v
theories/ElemModel.v
theories/ElemLemmas.v
theories/PropsElem.v
theories/PropsElemSym.v
theories/ObjModel.v
theories/ObjLemmas.v
theories/ObjShape.v
theories/ObjFilterLemmas.v
theories/ObjLoopLemmas.v
theories/PropsObj.v
theories/PropsObjCase.v
theories/ExtObjModel.v
theories/ExtObjLemmas.v
theories/PropsExtObj.v
theories/PropsExtObjCase.v
theories/UnitsLemmas.v
theories/PropsUnits.v
theories/PropsUnitsCase.v
theories/SeqLemmas.v
theories/PropsSeq.v
theories/PropsSeqCase.v
theories/PropsHessSym.v
theories/PropsHessSymCase.v
theories/PropsHessSymNeed.v
