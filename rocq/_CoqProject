-Q theories Verif
theories/Base.v
theories/Scalar.v
theories/Model.v
theories/CInt.v
theories/CFloat.v
theories/CFma.v
theories/RepoTests.v
theories/Spec.v
theories/Loops.v
theories/Struct.v
theories/Safety.v
theories/Conv.v
theories/Elim.v
theories/Alg.v
theories/Exact.v
theories/ExactLemmas.v
theories/Det.v
theories/Inv.v
theories/Pow.v
theories/LU.v
theories/Chol.v
theories/Preds.v
theories/Order.v
theories/Stat.v
theories/StatExact.v
theories/ConvExact.v
theories/Sim.v
theories/IntMx.v
theories/Int.v
theories/IntStat.v
theories/IntInvRet.v
theories/IntInv.v
theories/Median.v
theories/SimExact.v
theories/SafetyInst.v
theories/Float.v
theories/LURec.v
theories/FloatMx.v
theories/FloatErr.v
theories/FloatLU.v
theories/CholRec.v
theories/Factor.v
theories/IntSqrt.v
theories/IntFactor.v
theories/Strict.v
theories/StrictExact.v
theories/StrictFactor.v
theories/FloatElim.v
theories/RealRing.v
theories/RealDet.v
theories/FloatChol.v
theories/FloatStat.v
theories/Fma.v
theories/FloatDet.v
theories/FloatPoly.v
theories/Bench.v
theories/BenchLemmas.v
theories/Param.v
theories/ParamInst.v
theories/BoundedInt.v
theories/PropStruct.v
theories/PropAlg.v
theories/PropInt.v
theories/PropPred.v
theories/Rearr.v
theories/PropStat.v
theories/PropRearr.v
theories/PropConv.v
theories/PropFloat.v
theories/PropFloat2.v
theories/PropFloat3.v
theories/PropPrint.v
theories/PropBench.v
theories/PropParam.v
theories/PropIntInv.v
theories/PropMedian.v
theories/PropFloatVar.v
theories/PropSmall.v
theories/PropIntDec.v
theories/PropStrict.v
theories/PropFloatDet.v
theories/PropFinite.v
theories/Overload.v
theories/PropOverload.v
theories/FloatSign.v
theories/Graded.v
theories/FloatScale.v
theories/PropScale.v
theories/PropSign.v
theories/PropUnits.v
theories/PropTrans.v
theories/PropTransExact.v
theories/PropHistory.v
theories/PropHistoryExact.v
theories/PropFma.v
theories/FmaSolve.v
theories/FmaPoly.v
theories/PropFma2.v
theories/Nested.v
theories/PropBlock.v
theories/PropBlockExact.v
theories/CBool.v
theories/PropBool.v
theories/ParamDet.v
theories/PropBoolReach.v
theories/PropPowers.v
theories/CRound.v
theories/Round.v
theories/PropRound.v
theories/Cost.v
theories/PropCost.v
theories/CPrint.v
theories/PropPrintF.v
theories/Conc.v
theories/ConcApi.v
theories/PropConc.v
theories/IntDet.v
theories/PropIntDet.v
theories/Rank.v
theories/PropIneq.v
theories/PropConvLaws.v
theories/CExt.v
theories/Ext.v
theories/PropExt.v
theories/Program.v
theories/ProgSim.v
theories/PropProgram.v
theories/PropProgramF.v
theories/PropDom.v
theories/PropDefinite.v
theories/PropDefiniteF.v
theories/PropClass.v
theories/PropClassF.v
theories/PropTriF.v
theories/PropInvF.v
theories/PropCount.v
theories/PropSpectral.v
theories/CComplex.v
theories/RingOps.v
theories/PropComplexF.v
theories/PropComplexR.v
theories/PropComplexE.v
theories/CComplexOps.v
theories/CholField.v
theories/PropComplexChol.v
theories/PropPerturb.v
theories/Semiring.v
theories/PropSemi.v
theories/Dual.v
theories/DualMx.v
theories/PropDual.v
theories/DualFact.v
theories/PropDualFact.v
theories/Long.v
theories/PropLong.v
theories/PropIter.v
theories/Ival.v
theories/PropIval.v
theories/PropIval2.v
theories/ModInt.v
theories/PropModInt.v
theories/Fixed.v
theories/PropFixed.v
theories/Block.v
theories/BlockRec.v
theories/PropBlockElt.v
