-Q theories Verif
theories/Fp.v
theories/Mem.v
theories/Binned.v
theories/Spec.v
theories/Client.v
theories/FpProofs.v
theories/BitProofs.v
theories/CoreArith.v
theories/SpecProofs.v
theories/WordProofs.v
theories/MemProofs.v
theories/AccProofs.v
theories/SumProofs.v
theories/History.v
theories/ConvProofs.v
theories/ClientProofs.v
theories/StrideProofs.v
theories/PropsSum.v
theories/PropsAcc.v
theories/PropsMem.v
theories/ComplexProofs.v
theories/PropsComplex.v
theories/Gen.v
theories/GenProofs.v
theories/Params.v
theories/ParamsProofs.v
theories/PropsGen.v
theories/Blas.v
theories/LaneProofs.v
theories/ReduceProofs.v
theories/DriverProofs.v
theories/BlasSpec.v
theories/PropsBlas.v
theories/Gemv.v
theories/GemvSpec.v
theories/GemvProofs.v
theories/PropsGemv.v
theories/Mpi.v
theories/MpiSpec.v
theories/PropsMpi.v
theories/ScaleProofs.v
theories/RescaleProofs.v
theories/Ssq.v
theories/SsqProofs.v
theories/SsqSpec.v
theories/PropsSsq.v
theories/MaddsqProofs.v
theories/PropsMaddsq.v
theories/PropsScale.v
theories/PropsBounds.v
theories/SumError.v
theories/ConvTerms.v
theories/ConvFloat.v
theories/ConvSpec.v
theories/RoundTrip.v
theories/PropsConv.v
theories/BoundProofs.v
theories/PropsBound.v
theories/BlasZ.v
theories/ZEvents.v
theories/ZKernel.v
theories/ZDriver.v
theories/ZLoop.v
theories/BlasZSpec.v
theories/PropsBlasZ.v
theories/GemvZ.v
theories/GemvZSpec.v
theories/GemvZProofs.v
theories/PropsGemvZ.v
theories/PropsGemmZ.v
theories/RescaleZ.v
theories/BlasDZ.v
theories/DZLoop.v
theories/DZAsum.v
theories/DZSsq.v
theories/BlasDZSpec.v
theories/PropsBlasDZ.v
theories/PropsRescaleZ.v
theories/Registry.v
theories/PropsRegistry.v
theories/Defaults.v
theories/PropsApi.v
theories/PropsDefault.v
theories/AccReal.v
theories/PropsAccuracy.v
theories/NrmAcc.v
theories/PropsNrm.v
theories/Examples.v
theories/PropsExamples.v
theories/PropsThreads.v
theories/Emit.v
theories/EmitBits.v
theories/EmitExec.v
theories/EmitLevels.v
theories/EmitGroup.v
theories/EmitLoad.v
theories/EmitPrep.v
theories/EmitRun.v
theories/EmitStore.v
theories/EmitKernel.v
theories/EmitScan.v
theories/EmitBlas.v
theories/EmitDriver.v
theories/EmitSpec.v
theories/PropsEmit.v
theories/EmitAccess.v
theories/EmitSafe.v
theories/PropsSafe.v
theories/EmitGemv.v
theories/PropsEmitGemv.v
theories/PropsCluster.v
theories/Print.v
theories/PropsPrint.v
theories/PropsAlias.v
theories/Flush.v
theories/PropsFlush.v
theories/PropsSign.v
theories/PropsShift.v
theories/PropsInt.v
theories/Exact.v
theories/PropsExact.v
theories/PropsZero.v
theories/PropsPos.v
theories/Ints.v
theories/PropsIdx.v
theories/PropsSym.v
theories/Tuner.v
theories/PropsTuner.v
theories/PropsLoop.v
theories/PropsFold.v
theories/PropsSplit.v
theories/PropsCrash.v
theories/PropsShuffle.v
theories/PropsDist.v
theories/PropsZReal.v
theories/PropsSplitZ.v
theories/PropsShuffleZ.v
theories/PropsDistZ.v
theories/PropsAccuracyZ.v
theories/PropsMag.v
theories/PropsZMat.v
theories/PropsUpdate.v
theories/PropsUpdateZ.v
theories/PropsScaleMat.v
theories/PropsScaleMatZ.v
theories/PropsScaleNrm.v
theories/PropsScaleSum.v
theories/PropsScaleDef.v
