-Q theories Verif
theories/Base.v
theories/ActiveSet.v
theories/ActiveSetProofs.v
theories/Num.v
theories/Solver.v
theories/RunFloat.v
theories/LinAlg.v
theories/QRUpdate.v
theories/QPSpec.v
theories/GIMath.v
theories/GIBase.v
theories/GIInv.v
theories/GIDual.v
theories/PropActiveSet.v
theories/GIRun.v
theories/GIOpt.v
theories/GIMult.v
theories/GIInit.v
theories/GISafe.v
theories/GICall.v
theories/GIHist.v
theories/FloatLaws.v
theories/GIFinal.v
theories/GITerm.v
theories/GITotal.v
theories/GISame.v
theories/GIMore.v
theories/GIExample.v
theories/PropSolver.v
theories/PropReal.v
theories/PropLimits.v
theories/Util.v
theories/PropUtil.v
theories/TestPb.v
theories/PropTest.v
theories/Warm.v
theories/WarmAS.v
theories/WarmSafe.v
theories/WarmQR.v
theories/WarmInit.v
theories/WarmHist.v
theories/WarmOpt.v
theories/WarmHot.v
theories/WarmTotal.v
theories/WarmExample.v
theories/PropWarm.v
theories/Block.v
theories/BlockElim.v
theories/BlockSpec.v
theories/BlockLLT.v
theories/BlockSolve.v
theories/BlockDense.v
theories/PropBlock.v
theories/Ortho.v
theories/OrthoProofs.v
theories/PropOrtho.v
theories/StructC.v
theories/PropStructC.v
theories/StructG.v
theories/BlockGI.v
theories/StructGProofs.v
theories/StructQRProofs.v
theories/BlockGIProofs.v
theories/BlockGIInit.v
theories/PropBlockGI.v
theories/BlockAlias.v
theories/AliasProofs.v
theories/PropAlias.v
theories/Box.v
theories/BoxSafe.v
theories/BoxExt.v
theories/BoxProofs.v
theories/BoxGap.v
theories/BoxSteps.v
theories/BoxLimit.v
theories/BoxSame.v
theories/BoxFinal.v
theories/PropBox.v
theories/Random.v
theories/RandomProofs.v
theories/RandomRank.v
theories/RandomMain.v
theories/PropRandom.v
theories/BoxGen.v
theories/PropBoxGen.v
theories/Det.v
theories/RandMat.v
theories/RandMatProofs.v
theories/PropRandMat.v
theories/Adapt.v
theories/PropAdapt.v
theories/Qps.v
theories/QpsSpec.v
theories/QpsText.v
theories/QpsProofs.v
theories/QpsRead.v
theories/QpsSafe.v
theories/PropQps.v
theories/LogText.v
theories/MatlabSpec.v
theories/LogProofs.v
theories/PropLog.v
theories/WarmSame.v
theories/PropReuse.v
theories/BlockGen.v
theories/BlockGenQR.v
theories/BlockGenGI.v
theories/FloatNull.v
theories/PropBlockGen.v
theories/FloatStd.v
theories/DoubleOps.v
theories/DoubleLaws.v
theories/FloatSolve.v
theories/PropDouble.v
theories/PropDoubleBlock.v
theories/FloatChol.v
theories/PropDoubleChol.v
theories/XFactor.v
theories/PropDoubleWarm.v
theories/BlockSame.v
theories/BlockSameGI.v
theories/BlockSameRun.v
theories/BlockSameSolve.v
theories/PropBlockReuse.v
theories/Bench.v
theories/PropBench.v
theories/FloatStart.v
theories/FloatTri.v
theories/PropDoubleStart.v
theories/PropSens.v
theories/SumOrders.v
theories/Twins.v
theories/TwinStart.v
theories/PropTwins.v
theories/IntGap.v
theories/IntMult.v
theories/Limits.v
theories/LimitsEx.v
theories/IntLimit.v
theories/IntScale.v
theories/PropInt.v

theories/PropRandSolve.v
theories/IntSize.v
theories/PropIntSize.v
theories/IkMat.v
theories/PropIk.v
theories/BlockTest.v
theories/BlockTestProofs.v
theories/PropBlockTest.v
theories/Alloc.v
theories/PropAlloc.v
theories/AllocSolve.v
theories/PropAllocSolve.v
theories/Changes.v
theories/PropChanges.v
