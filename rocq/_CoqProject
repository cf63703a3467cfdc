-Q theories Verif
theories/Fermat.v
theories/Pocklington.v
theories/RngModel.v
theories/RngGf2.v
theories/RngProofs.v
theories/PropRng.v
theories/Mem.v
theories/KernelModel.v
theories/KernelSpec.v
theories/KernelProofs.v
theories/OperatorModel.v
theories/OperatorSpec.v
theories/OperatorProofs.v
theories/LanczosModel.v
theories/LanczosSpec.v
theories/LanczosMath.v
theories/LanczosProofs.v
theories/GolubKahnProofs.v
theories/SlqSpec.v
theories/Spectral.v
theories/SlqModel.v
theories/SlqProofs.v
theories/ExactProofs.v
theories/OrthoModel.v
theories/OrthoProofs.v
theories/LanczosSafe.v
theories/ConvModel.v
theories/ConvSpec.v
theories/ConvProofs.v
theories/ParModel.v
theories/ParProofs.v
theories/ParExec.v
theories/PropPar.v
theories/PropParEnds.v
theories/PropConv.v
theories/PropLanczos.v
theories/PropSlq.v
theories/PropKernels.v
theories/PropOperators.v
theories/ArgsModel.v
theories/ArgsSpec.v
theories/PropArgs.v
theories/HeapModel.v
theories/PropHeap.v
theories/MatSpec.v
theories/TraceModel.v
theories/PropTrace.v
theories/RealField.v
theories/CholMath.v
theories/CholModel.v
theories/PropChol.v
theories/HutchModel.v
theories/PropHutch.v
theories/EigenMath.v
theories/EigenSpec.v
theories/EigenModel.v
theories/PropEigen.v
theories/PropEigenGen.v
theories/SchattenSpec.v
theories/SchattenModel.v
theories/PropSchatten.v
theories/FunSpec.v
theories/FunModel.v
theories/PropFun.v
theories/ToeplitzModel.v
theories/PropToeplitz.v
theories/GridModel.v
theories/PropGrid.v
theories/SparseCorrModel.v
theories/PropSparseCorr.v
theories/DenseCorrModel.v
theories/PropDenseCorr.v
theories/CorrKernelModel.v
theories/PropCorrKernel.v
theories/CblasModel.v
theories/PropCblas.v
theories/IndexModel.v
theories/PropIndex.v
theories/InterpModel.v
theories/PropInterp.v
theories/PropBuild.v
theories/PropMbf.v
theories/PropBasis.v
theories/PropInterpEx.v
theories/DeviceModel.v
theories/PropTimer.v
theories/PropMemory.v
theories/CacheModel.v
theories/PropCache.v
theories/FillModel.v
theories/PropFill.v
theories/GpuModel.v
theories/PropGpu.v
theories/GpuLanczosModel.v
theories/PropGpuLanczos.v
theories/PropRectGram.v
theories/HutchRunModel.v
theories/HutchRunSpec.v
theories/HutchRunProofs.v
theories/PropHutchRun.v
theories/HutchRectModel.v
theories/PropHutchRect.v
theories/BoundMath.v
theories/BoundModel.v
theories/PropBound.v
theories/HutchVecModel.v
theories/HutchVecProofs.v
theories/PropHutchVec.v
theories/SlqRunModel.v
theories/SlqRunSpec.v
theories/SlqRunProofs.v
theories/SlqRunValues.v
theories/PropSlqRun.v
theories/ReportModel.v
theories/ReportSpec.v
theories/ReportProofs.v
theories/PropReport.v
theories/SlqMeanProofs.v
theories/AgreeModel.v
theories/PropAgree.v
theories/WrapModel.v
theories/WrapSpec.v
theories/WrapProofs.v
theories/PropWrap.v
theories/RoundModel.v
theories/RoundSpec.v
theories/RoundProofs.v
theories/IeeeModel.v
theories/PropRound.v
theories/PropRoundIeee.v
theories/SummaryModel.v
theories/SummarySpec.v
theories/PropSummary.v
theories/ParRunModel.v
theories/ParRunSpec.v
theories/ParRunProofs.v
theories/PropParRun.v
theories/SolverModel.v
theories/SolverSpec.v
theories/PropSolver.v
theories/VarianceSpec.v
theories/PropVariance.v
theories/DiagModel.v
theories/DiagSpec.v
theories/PropDiag.v
theories/DictSpec.v
theories/PropDict.v
theories/LocateModel.v
theories/LocateSpec.v
theories/PropLocate.v
theories/LoadModel.v
theories/LoadSpec.v
theories/PropLoad.v
theories/StampModel.v
theories/PropStamp.v
theories/HandleModel.v
theories/HandleSpec.v
theories/PropHandle.v
theories/WorkModel.v
theories/WorkSpec.v
theories/PropWork.v
theories/ProductModel.v
theories/ProductSpec.v
theories/PropProduct.v
theories/LogSpec.v
theories/LogMath.v
theories/LogProofs.v
theories/PropLog.v
theories/AccuracySpec.v
theories/AccuracyProofs.v
theories/PropAccuracy.v
theories/QueryModel.v
theories/QuerySpec.v
theories/PropQuery.v
theories/ExpSpec.v
theories/ExpMath.v
theories/ExpProofs.v
theories/PropExp.v
theories/LinfracSpec.v
theories/LinfracProofs.v
theories/PropLinfrac.v
theories/DensityModel.v
theories/DensitySpec.v
theories/PropBall.v
theories/PropDensity.v
theories/WallTimeModel.v
theories/PropWallTime.v
theories/GpuQueryModel.v
theories/PropGpuQuery.v
theories/SampleBufModel.v
theories/PropSampleBuf.v
theories/SampleArgsModel.v
theories/SampleArgsSpec.v
theories/PropSampleArgs.v
theories/CurvModel.v
theories/PropCurv.v
