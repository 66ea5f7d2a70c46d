-Q theories Verif
theories/Outcome.v
theories/Num.v
theories/RtModel.v
theories/RtSpec.v
theories/RtFacts.v
theories/RtStep.v
theories/RtTermination.v
theories/RtValue.v
theories/RtEval.v
theories/NumR.v
theories/NumRFacts.v
theories/NumREqual.v
theories/NumZ.v
theories/PropsSimplify.v
theories/PropsEval.v
theories/RtSubst.v
theories/RtEqual.v
theories/RtVisit.v
theories/PropsSubst.v
theories/PropsEqual.v
theories/PropsVisit.v
theories/RealSpec.v
theories/RtDiff.v
theories/RtDiff2.v
theories/RtGateaux.v
theories/PropsDiff.v
theories/NumB64.v
theories/NumB64Facts.v
theories/PropsFloat.v
theories/QuadModel.v
theories/QuadSpec.v
theories/QuadFacts.v
theories/PropsQuad.v
theories/CalcFacts.v
theories/PropsCalc.v
theories/SubstAlg.v
theories/PropsAlg.v
theories/StrModel.v
theories/StrFacts.v
theories/PropsStr.v
theories/DenSpec.v
theories/DenFacts.v
theories/CoordModel.v
theories/CoordSpec.v
theories/CoordFacts.v
theories/PropsCoord.v
theories/LatexModel.v
theories/LatexSpec.v
theories/LatexFacts.v
theories/PropsLatex.v
theories/AssignModel.v
theories/AssignFacts.v
theories/PropsAssign.v
theories/CtModel.v
theories/CtSpec.v
theories/CtGcd.v
theories/CtFacts.v
theories/CtBound.v
theories/CtOpsModel.v
theories/CtManipModel.v
theories/CtManipSpec.v
theories/CtOpsFacts.v
theories/CtManipFacts.v
theories/CtExpand.v
theories/CtPoly.v
theories/CtNormalSpec.v
theories/CtNormal.v
theories/PropsCtSimplify.v
theories/CtIntegrate.v
theories/CtOpsKinds.v
theories/PropsCtOps.v
theories/PropsCtManip.v
theories/ApiModel.v
theories/ApiSpec.v
theories/ApiFacts.v
theories/PropsApi.v
theories/CallModel.v
theories/CallSpec.v
theories/CallFacts.v
theories/PropsCall.v
theories/OverModel.v
theories/OverSpec.v
theories/OverFacts.v
theories/PropsOver.v
theories/HeapModel.v
theories/HeapSpec.v
theories/HeapFacts.v
theories/HeapRead.v
theories/HeapRun.v
theories/HeapOps.v
theories/HeapExec.v
theories/HeapHistory.v
theories/HeapUb.v
theories/HeapAssign.v
theories/PropsHeap.v
theories/WrittenSpec.v
theories/WrittenFacts.v
theories/PropsWritten.v
theories/TransModel.v
theories/TransSpec.v
theories/TransFacts.v
theories/PropsTrans.v
theories/ErrSpec.v
theories/ErrFacts.v
theories/PropsErr.v
theories/HoldModel.v
theories/HoldSpec.v
theories/HoldFacts.v
theories/PropsHold.v
theories/TypedModel.v
theories/TypedSpec.v
theories/TypedFacts.v
theories/TypedFloat.v
theories/PropsTyped.v
theories/DataSpec.v
theories/DataFacts.v
theories/BoxFacts.v
theories/PropsData.v
theories/VecModel.v
theories/VecSpec.v
theories/VecFacts.v
theories/PropsVec.v
theories/NewtonModel.v
theories/NewtonSpec.v
theories/NewtonFacts.v
theories/PropsNewton.v
theories/NewtonErrFacts.v
theories/NewtonTutorial.v
theories/PropsNewton64.v
theories/NormalSpec.v
theories/NormalFacts.v
theories/PropsNormal.v
theories/ClassModel.v
theories/ClassSpec.v
theories/ClassFacts.v
theories/PropsClass.v
theories/ExnModel.v
theories/ExnSpec.v
theories/ExnFacts.v
theories/PropsExn.v
theories/GrowSpec.v
theories/GrowFacts.v
theories/PropsGrow.v
theories/WhichSpec.v
theories/PropsWhich.v
theories/CtStrModel.v
theories/CtStrSpec.v
theories/CtStrFacts.v
theories/PropsCtStr.v
theories/WorkModel.v
theories/WorkSpec.v
theories/WorkFacts.v
theories/PropsWork.v
theories/CtGrowSpec.v
theories/CtGrowFacts.v
theories/PropsCtGrow.v
theories/TestSuite.v
theories/NumTextModel.v
theories/NumTextSpec.v
theories/NumTextFacts.v
theories/PropsNumText.v
theories/ProgSpec.v
theories/ProgFacts.v
theories/PropsProg.v
theories/Prog64Spec.v
theories/Prog64Facts.v
theories/PropsProg64.v
theories/PartsSpec.v
theories/PartsFacts.v
theories/PropsParts.v
theories/VisitorModel.v
theories/VisitorSpec.v
theories/VisitorFacts.v
theories/PropsVisitor.v
theories/ExactSpec.v
theories/ExactFacts.v
theories/PropsExact.v
theories/StatefulModel.v
theories/StatefulSpec.v
theories/StatefulFacts.v
theories/PropsStateful.v
theories/RuleModel.v
theories/RuleSpec.v
theories/RuleFacts.v
theories/PropsRule.v
theories/ProcModel.v
theories/ProcSpec.v
theories/ProcFacts.v
theories/PropsProc.v
