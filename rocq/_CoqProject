-Q theories Verif
theories/Base.v
theories/Num.v
theories/FloatM.v
theories/MeshM.v
theories/SpecMesh.v
theories/MeshProofs.v
theories/PropMesh.v
theories/ProgM.v
theories/BandM.v
theories/LUM.v
theories/SplineM.v
theories/InterpM.v
theories/Templ14M.v
theories/CellM.v
theories/ThreadsM.v
theories/PoolM.v
theories/AllocM.v
theories/SpecSpline.v
theories/SplineProofs.v
theories/SumR.v
theories/DenseLU.v
theories/SpecBand.v
theories/BandProofs.v
theories/MulProofs.v
theories/LUProofs.v
theories/LUConv.v
theories/SafeLU.v
theories/LUTop.v
theories/CheckProofs.v
theories/PropBand.v
theories/TensorR.v
theories/BasisProofs.v
theories/SpecSplineObj.v
theories/EvalProofs.v
theories/EvalR.v
theories/DerivProofs.v
theories/DerivLoops.v
theories/SafeProofs.v
theories/BetaProofs.v
theories/SplineTop.v
theories/SpecCalc.v
theories/SplineCalc.v
theories/SplineFinal.v
theories/SplineCons.v
theories/SWProofs.v
theories/SpecInterp.v
theories/KnotProofs.v
theories/KnotShape.v
theories/CoefProofs.v
theories/SolverProofs.v
theories/RoundProofs.v
theories/SolveProofs.v
theories/BuildProofs.v
theories/WeightProofs.v
theories/SafeSolve.v
theories/SafeBuild.v
theories/SafeTop.v
theories/Templ14Proofs.v
theories/InterpProofs.v
theories/PerDom.v
theories/PerPD.v
theories/LUMore.v
theories/CellProofs.v
theories/CellTop.v
theories/CellFinal.v
theories/ThreadsProofs.v
theories/ThreadsTop.v
theories/PoolProofs.v
theories/PoolTop.v
theories/AllocProofs.v
theories/InterpTop.v
theories/InterpFinal.v
theories/AffineProofs.v
theories/GenInterp.v
theories/InterpMore.v
theories/PropInterpEx.v
theories/PropInterp.v
theories/PropSplineEx.v
theories/PropSpline.v
theories/PropCellEx.v
theories/PropCell.v
theories/PropThreadsEx.v
theories/PropThreads.v
theories/PropPoolEx.v
theories/PropPool.v
theories/PropAlloc.v
theories/PropSafe.v
theories/PropMore.v
theories/SpecRound.v
theories/FloatProofs.v
theories/RoundSpline.v
theories/RoundEval.v
theories/RoundDouble.v
theories/FloatWrap.v
theories/PropRoundEx.v
theories/PropRound.v
theories/GenLU.v
theories/RoundLU.v
theories/RoundLUTop.v
theories/PropSolveEx.v
theories/PropSolve.v
theories/RoundKnots.v
theories/RoundUniform.v
theories/GenKnots.v
theories/RoundKnotsTop.v
theories/PropKnotsEx.v
theories/PropKnots.v
theories/GenSolve.v
theories/RoundTensor.v
theories/RoundColl.v
theories/PiecePerturb.v
theories/RoundUColl.v
theories/RoundTempl.v
theories/ExactKnots.v
theories/SpecRoundInterp.v
theories/SpecRoundFit.v
theories/RoundGrid.v
theories/RoundUGrid.v
theories/RoundInterp.v
theories/RoundFit.v
theories/RoundFitInst.v
theories/RoundFitTop.v
theories/PropFitEx.v
theories/PropFit.v
theories/PropFitUEx.v
theories/PropFitU.v
theories/RoundDeriv.v
theories/RoundDerivLoops.v
theories/SpecRoundD.v
theories/RoundDerivEval.v
theories/RoundDerivTop.v
theories/RoundDerivDouble.v
theories/RoundDerivMixed.v
theories/MatlabM.v
theories/SpecMatlab.v
theories/MatlabProofs.v
theories/MatlabTop.v
theories/PropMatlabEx.v
theories/PropRoundD.v
theories/PropMatlab.v
theories/SpecPoly.v
theories/PolyProofs.v
theories/PropPolyEx.v
theories/PropPoly.v
theories/SpecSym.v
theories/SymBasis.v
theories/SymProofs.v
theories/PropSymEx.v
theories/PropSym.v
theories/SpecDims.v
theories/DimProofs.v
theories/LinProofs.v
theories/PropDimsEx.v
theories/PropDims.v
theories/VecM.v
theories/SpecValue.v
theories/SpecCurve.v
theories/VecProofs.v
theories/VecTop.v
theories/PropValueEx.v
theories/PropValue.v
theories/SpecSmooth.v
theories/SmoothProofs.v
theories/SmoothTop.v
theories/PropSmoothEx.v
theories/PropSmooth.v
theories/SpecMono.v
theories/MonoProofs.v
theories/MonoTop.v
theories/PropMonoEx.v
theories/PropMono.v
theories/SpecStab.v
theories/StabProofs.v
theories/StabTop.v
theories/PropStabEx.v
theories/PropStab.v
theories/SpecApprox.v
theories/ApproxProofs.v
theories/ApproxTop.v
theories/PropApproxEx.v
theories/PropApprox.v
theories/QuadProofs.v
theories/QuadTop.v
theories/PropQuadEx.v
theories/PropQuad.v
theories/Mode14M.v
theories/Mode14Proofs.v
theories/PropMode14.v
theories/TameProofs.v
theories/TameAp.v
theories/TamePer.v
theories/SpecTame.v
theories/TameTop.v
theories/PropTameEx.v
theories/PropTame.v
theories/PoolUseM.v
theories/SpecPoolUse.v
theories/PoolUseProofs.v
theories/PropPoolUseEx.v
theories/PropPoolUse.v
theories/SpecDApprox.v
theories/DApproxProofs.v
theories/DApproxTop.v
theories/PropDApproxEx.v
theories/PropDApprox.v
theories/SpecRate.v
theories/RateProofs.v
theories/RateTop.v
theories/RateFinal.v
theories/PropRateEx.v
theories/PropRate.v
theories/DualProofs.v
theories/DualTop.v
theories/PropDualEx.v
theories/PropDual.v
theories/PoolNewM.v
theories/PoolNewProofs.v
theories/PropPoolNewEx.v
theories/PropPoolNew.v
theories/SpecNear.v
theories/NearProofs.v
theories/KnotExact.v
theories/NearRound.v
theories/NearTop.v
theories/PropNearEx.v
theories/PropNear.v
theories/SpecNearFun.v
theories/NearFun.v
theories/PropNearFunEx.v
theories/PropNearFun.v
theories/NearDeriv.v
theories/PropNearDEx.v
theories/PropNearD.v
theories/SpecNearDFun.v
theories/NearDFun.v
theories/PropNearDFunEx.v
theories/PropNearDFun.v
theories/SpecSign.v
theories/SignProofs.v
theories/PropSign.v
theories/BlocksM.v
theories/BlocksProofs.v
theories/PropBlocks.v
theories/SpecPositive.v
theories/PositiveProofs.v
theories/PositiveCell.v
theories/PropPositiveEx.v
theories/PropPositive.v
theories/NanProofs.v
theories/NanFun.v
theories/PropNanEx.v
theories/PropNan.v
theories/SpecHint.v
theories/HintDouble.v
theories/PropHintEx.v
theories/PropHint.v
