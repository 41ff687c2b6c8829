-Q theories Verif
theories/Prelude.v
theories/CoxDeBoor.v
theories/CoxDeBoorProofs.v
theories/BSplineModel.v
theories/BSplineSpec.v
theories/BSplineProofs.v
theories/BSplineEvalProofs.v
theories/BSplineAccessProofs.v
theories/BSplineCoefProofs.v
theories/BSplineInitProofs.v
theories/BSplinePolyProofs.v
theories/BSplineJacobianProofs.v
theories/BSplineMoreProofs.v
theories/BSplineIntegralProofs.v
theories/BSplineQuadProofs.v
theories/BSplineCumProofs.v
theories/Examples.v
theories/BSplineSumProofs.v
theories/LinSolve.v
theories/BSplineFitProofs.v
theories/BSplineLineProofs.v
theories/BSplineRemoveProofs.v
theories/BSplineAppendProofs.v
theories/PropsBSplineC.v
theories/BSplineViewProofs.v
theories/PropsBSplineD.v
theories/PropsBSplineA.v
theories/PropsBSplineB.v
theories/DMModel.v
theories/DMSpec.v
theories/DMProofs.v
theories/DMConstructProofs.v
theories/DMAppendProofs.v
theories/DMEvalProofs.v
theories/DMAccessProofs.v
theories/DMCurveProofs.v
theories/DMMainProofs.v
theories/PropsDMA.v
theories/KnotModel.v
theories/KnotProofs.v
theories/KnotMainProofs.v
theories/PropsKnot.v
theories/DMIntegralSpec.v
theories/DMIntegralProofs.v
theories/KnotFreeSpec.v
theories/KnotMoreProofs.v
theories/PropsDMB.v
theories/IntegratorModel.v
theories/IntegratorProofs.v
theories/PropsIntegrator.v
theories/QuadIntModel.v
theories/QuadIntSpec.v
theories/QuadIntProofs.v
theories/PropsQuadInt.v
theories/CacheModel.v
theories/CacheSpec.v
theories/CacheProofs.v
theories/PropsCache.v
theories/QuatModel.v
theories/QuatAlg.v
theories/QuatSpec.v
theories/QuatProofs.v
theories/QuatManifoldProofs.v
theories/QuatJacobianModel.v
theories/QuatJacobianSpec.v
theories/QuatJacobianProofs.v
theories/QuatJacobianMain.v
theories/PropsQuat.v
theories/PropsQuatJac.v
theories/BSplineLocalProofs.v
theories/PoseModel.v
theories/PoseSpec.v
theories/DerivProofs.v
theories/PoseProofs.v
theories/PoseCayley.v
theories/PoseTimeProofs.v
theories/PoseExamples.v
theories/PoseMainProofs.v
theories/PoseBodyProofs.v
theories/PropsPose.v
theories/PropsPoseB.v
theories/Append2Spec.v
theories/Append2Proofs.v
theories/Append2Examples.v
theories/PropsAppend2.v
theories/DVModel.v
theories/DVSpec.v
theories/DVProofs.v
theories/DVAppendProofs.v
theories/TimeOffsetProofs.v
theories/MotionSpec.v
theories/MotionProofs.v
theories/DVExamples.v
theories/DVMainProofs.v
theories/PropsDV.v
theories/SimpleErrModel.v
theories/SimpleErrProofs.v
theories/PropsSimpleErr.v
theories/RSModel.v
theories/RSProofs.v
theories/RSExamples.v
theories/PropsRS.v
theories/OptModel.v
theories/OptSpec.v
theories/OptProofs.v
theories/OptWorldProofs.v
theories/OptExprProofs.v
theories/OptTimeProofs.v
theories/OptExamples.v
theories/PropsOpt.v
theories/OptAngModel.v
theories/OptAngSpec.v
theories/OptAngProofs.v
theories/OptAngExamples.v
theories/PropsOptAng.v
theories/FitterModel.v
theories/FitterSpec.v
theories/FitterAlg.v
theories/FitterQuadProofs.v
theories/FitterSysProofs.v
theories/FitterRowProofs.v
theories/FitterMainProofs.v
theories/FitterCalcProofs.v
theories/FitterExtendProofs.v
theories/FitterTopProofs.v
theories/FitterExamples.v
theories/PropsFitter.v
theories/FitterUniformProofs.v
theories/FitterUniformExamples.v
theories/PropsFitterU.v
theories/CountProofs.v
theories/PropsCount.v
