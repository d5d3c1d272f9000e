-Q theories Verif
theories/RVec.v
theories/Num.v
theories/DomModel.v
theories/DomSpec.v
theories/DomProofs.v
theories/NormProofs.v
theories/DomOpsProofs.v
theories/DomExamples.v
theories/DomTight.v
theories/DomProps.v
theories/TensorModel.v
theories/TensorProofs.v
theories/TensorProps.v
theories/Sums.v
theories/DomMoreModel.v
theories/SweepProofs.v
theories/CvxProofs.v
theories/HullProofs.v
theories/BoxPredProofs.v
theories/SampleProofs.v
theories/QuadProofs.v
theories/DomMoreExamples.v
theories/ChebProofs.v
theories/HullIneqProofs.v
theories/DomMoreProps.v
theories/VecTac.v
theories/OptModel.v
theories/OptProofs.v
theories/SeqProofs.v
theories/OptProps.v
theories/Deriv.v
theories/FunModel.v
theories/FunProofs.v
theories/FunProps.v
theories/BasisModel.v
theories/IndexProofs.v
theories/PolyProofs.v
theories/PolyMoreProofs.v
theories/ArnoldiProofs.v
theories/ArnoldiMoreProofs.v
theories/ArnoldiCases.v
theories/BasisProps.v
theories/MatLib.v
theories/SpecProofs.v
theories/LipModel.v
theories/LipProofs.v
theories/LipConstProofs.v
theories/ProjProofs.v
theories/ProjGradProofs.v
theories/GrassLib.v
theories/LipFitProofs.v
theories/SdpProofs.v
theories/LipMoreProofs.v
theories/PartialProofs.v
theories/LipTight.v
theories/LipProps.v
theories/SampModel.v
theories/PigeonLib.v
theories/LatinProofs.v
theories/PoissonProofs.v
theories/PoissonGrid.v
theories/PoissonCases.v
theories/DesignProofs.v
theories/CoffeeProofs.v
theories/GeoModel.v
theories/GeoProofs.v
theories/VoronoiProofs.v
theories/WalkProofs.v
theories/VoronoiCases.v
theories/SampProps.v
theories/ProjSatProofs.v
theories/SampMoreModel.v
theories/MinimaxProofs.v
theories/LloydProofs.v
theories/BlockProofs.v
theories/BlockCases.v
theories/SeqSampProofs.v
theories/SampMoreProps.v
theories/SubModel.v
theories/ShadowProofs.v
theories/ActiveProofs.v
theories/EntropyProofs.v
theories/LocalLinProofs.v
theories/LeastSq.v
theories/NonlinProofs.v
theories/InitProofs.v
theories/PgfProofs.v
theories/SubProps.v
theories/RidgeModel.v
theories/RidgeProofs.v
theories/TrajProofs.v
theories/TrajCases.v
theories/PolySpan.v
theories/VarproLib.v
theories/VarproProofs.v
theories/GnStep.v
theories/VarproCases.v
theories/RidgeProps.v
theories/RidgeFitProofs.v
theories/RidgeAffine.v
theories/RidgeFinish.v
theories/FinishCases.v
theories/RidgeFitCases.v
theories/RidgeDim.v
theories/RidgeFitProps.v
theories/GpModel.v
theories/GpKernel.v
theories/GpProofs.v
theories/GpFit.v
theories/GpGrad.v
theories/GpLml.v
theories/GpCases.v
theories/GpTril.v
theories/GpProps.v
theories/DemoModel.v
theories/DemoDeriv.v
theories/DemoGradA.v
theories/DemoGradB.v
theories/DemoGradC.v
theories/DemoGradD.v
theories/DemoClass.v
theories/DemoDom.v
theories/DemoMore.v
theories/DemoThm.v
theories/DemoCases.v
theories/DemoProps.v
theories/ChkModel.v
theories/ChkProofs.v
theories/ChkMore.v
theories/ChkProps.v
theories/MiniModel.v
theories/MiniProofs.v
theories/MiniProps.v
theories/NozModel.v
theories/NozProofs.v
theories/NozMore.v
theories/NozCases.v
theories/NozData.v
theories/NozDomain.v
theories/NozParts.v
theories/NozWhole.v
theories/NozProps.v
theories/LinProg.v
theories/Compact.v
theories/LinLs.v
theories/Spectral.v
theories/Decomp.v
theories/SolveFit.v
theories/SolveDom.v
theories/SolveMore.v
theories/Minkowski.v
theories/HullConvModel.v
theories/HullConvProofs.v
theories/HullConvMore.v
theories/HullBasis.v
theories/HullConvCases.v
theories/SolveCases.v
theories/HullConvProps.v
theories/SolveProps.v
theories/NozCorner.v
theories/MoreCases.v
theories/QuadExact.v
theories/QuadProps.v
theories/PredModel.v
theories/PredProofs.v
theories/PredDirs.v
theories/PredCases.v
theories/PredProps.v
theories/NbModel.v
theories/NbProofs.v
theories/NbCases.v
theories/NbProps.v
theories/CholProofs.v
theories/RandModel.v
theories/RandProofs.v
theories/RandBounds.v
theories/CholAlg.v
theories/RandCases.v
theories/RandProps.v
theories/ProjModel.v
theories/ProjCellProofs.v
theories/ProjLineProofs.v
theories/ProjLhsProofs.v
theories/ProjSearch.v
theories/ProjSampleLoop.v
theories/ProjDesignLoop.v
theories/ProjCases.v
theories/ProjGeo.v
theories/ProjEx.v
theories/ProjKeep.v
theories/ProjProps.v
theories/AsFunModel.v
theories/AsFunProofs.v
theories/AsFunCases.v
theories/AsFunProps.v
theories/PolyfitModel.v
theories/PolyfitProofs.v
theories/LsqAlg.v
theories/VarAffine.v
theories/VarArnModel.v
theories/VarArnProofs.v
theories/VarArnDeriv.v
theories/VarArnMain.v
theories/VarArnCases.v
theories/VarArnProps.v
theories/VarVecModel.v
theories/VarVecProofs.v
theories/VarVecMain.v
theories/VarVecStep.v
theories/VarVecInst.v
theories/VarVecRank.v
theories/VarVecCases.v
theories/VarVecProps.v
theories/DensModel.v
theories/DensProofs.v
theories/DensRand.v
theories/DensVol.v
theories/DensCases.v
theories/DensProps.v
theories/LipOpt.v
theories/LipOpt2.v
theories/LipOptEx.v
theories/LipOptProps.v
theories/RFitModel.v
theories/RFitProofs.v
theories/RFitMore.v
theories/RFitEx.v
theories/RFitEx2.v
theories/RFitTight.v
theories/RFitProps.v
theories/ObjModel.v
theories/ObjProofs.v
theories/ObjCases.v
theories/ObjProps.v
theories/DispModel.v
theories/DispProofs.v
theories/DispProps.v
theories/AsyncModel.v
theories/AsyncProofs.v
theories/AsyncProps.v
theories/NamesModel.v
theories/NamesProofs.v
theories/NamesProps.v
theories/PolyfitCases.v
theories/PolyfitProps.v
theories/FillModel.v
theories/FillProofs.v
theories/FillCases.v
theories/FillProps.v
theories/ShadowUncModel.v
theories/ShadowUncProofs.v
theories/ShadowUncCases.v
theories/ShadowUncProps.v
theories/SLloydModel.v
theories/SLloydProofs.v
theories/SLloydCases.v
theories/SLloydProps.v
theories/StretchModel.v
theories/StretchProofs.v
theories/StretchProps.v
theories/ShadowPlotModel.v
theories/ShadowPlotProofs.v
theories/ShadowPlotProps.v
theories/KindModel.v
theories/KindProofs.v
theories/KindDims.v
theories/KindProps.v
theories/GpPred.v
theories/GpOrder.v
theories/GpPredCases.v
theories/GpPredProps.v
theories/DrvModel.v
theories/DrvProofs.v
theories/DrvProps.v
theories/SubTight.v
theories/LloydTol.v
theories/MoreRefuted.v
theories/FillLine.v
theories/MmcTight.v
theories/PosTight.v
theories/DrvTight.v
theories/HartFlow.v
theories/BlockTight.v
theories/OpgTight.v
theories/TightProps.v
theories/MmxModel.v
theories/MmxProofs.v
theories/MmxProps.v
theories/CtorModel.v
theories/CtorProofs.v
theories/CtorProps.v
theories/LipDataModel.v
theories/LipDataProofs.v
theories/LipDataProps.v
theories/PsoModel.v
theories/PsoProofs.v
theories/PsoProps.v
theories/ContModel.v
theories/ContProofs.v
theories/ContProps.v
theories/BldModel.v
theories/BldProofs.v
theories/BldProps.v
theories/KdeModel.v
theories/KdeProofs.v
theories/KdeProps.v
theories/FixModel.v
theories/FixProofs.v
theories/FixProps.v
theories/RunTight.v
theories/InitTight.v
theories/RunTightProps.v
