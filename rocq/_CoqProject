-Q theories Verif
theories/Prelude.v
theories/Numeric.v
theories/Matrix.v
theories/Storage.v
theories/Filter.v
theories/Extended.v
theories/Builder.v
theories/Wp.v
theories/Spec.v
theories/Kernels.v
theories/Access.v
theories/Chol.v
theories/CholFail.v
theories/Inv.v
theories/SpecFilter.v
theories/FilterGen.v
theories/FilterTwo.v
theories/SpecExact.v
theories/Exact.v
theories/Zmod.v
theories/Psd.v
theories/CholExact.v
theories/KMath.v
theories/History.v
theories/SpecHistory.v
theories/FilterExact.v
theories/SpecGen.v
theories/HistGen.v
theories/HistTwo.v
theories/SpecTrack.v
theories/Track.v
theories/HistExact.v
theories/SpecWorld.v
theories/WorldMath.v
theories/CallExact.v
theories/HistMain.v
theories/MatMain.v
theories/ExampleData.v
theories/MatExamples.v
theories/PropMatrix.v
theories/Represent.v
theories/ExactExamples.v
theories/ExactMain.v
theories/PropExact.v
theories/BuildSim.v
theories/ProgExamples.v
theories/PropHistory.v
theories/FloatNum.v
theories/SpecFloats.v
theories/FloatWit.v
theories/FloatGen.v
theories/PropFloat.v
theories/Alias.v
theories/SpecAlias.v
theories/AliasProof.v
theories/AliasMain.v
theories/PropAlias.v
theories/SpecStore.v
theories/StoreProof.v
theories/StoreExamples.v
theories/PropStorage.v
theories/ShapeProof.v
theories/PropShape.v
theories/SpecBits.v
theories/BitsProof.v
theories/BitsExamples.v
theories/PropBits.v
theories/SpecReal.v
theories/FloatFlocq.v
theories/FloatErr.v
theories/FloatInt.v
theories/FloatPredict.v
theories/FloatChol.v
theories/FloatOps.v
theories/FloatFactor.v
theories/SpecParam.v
theories/Param.v
theories/SpecIeee.v
theories/FloatFmt.v
theories/FloatUpdate.v
theories/FloatGain.v
theories/RealExamples.v
theories/PropReal.v
theories/Conform.v
theories/FixedNum.v
theories/NumSim.v
theories/SpecFixed.v
theories/FixedProof.v
theories/FixedWit.v
theories/Static.v
theories/StaticProof.v
theories/PropFixed.v
theories/SpecProb.v
theories/ProbMath.v
theories/ProbMain.v
theories/SpecRobust.v
theories/Robust.v
theories/RobustExamples.v
theories/PropRobust.v
theories/ProbExamples.v
theories/PropProb.v
theories/SpecJoin.v
theories/JoinMath.v
theories/JoinExamples.v
theories/SpecShift.v
theories/ShiftMath.v
theories/ShiftExamples.v
theories/PropJoin.v
theories/SpecMap.v
theories/MapMath.v
theories/MapExamples.v
theories/SpecCycle.v
theories/CycleMain.v
theories/CycleExamples.v
theories/Forget.v
theories/SpecFade.v
theories/Fade.v
theories/PropLong.v
theories/SpecPoison.v
theories/Poison.v
theories/PoisonExamples.v
theories/PropPoison.v
theories/RoundExamples.v
theories/PropRounding.v
theories/SpecRange.v
theories/FloatRange.v
theories/FloatScalar.v
theories/RangeExamples.v
theories/FloatForward.v
theories/ForwardExamples.v
theories/SpecUnit.v
theories/UnitProof.v
theories/SpecSum.v
theories/SumProof.v
theories/UnitExamples.v
theories/PropRange.v
theories/PropUnit.v
theories/DataType.v
theories/DataTypeProof.v
theories/PropDataType.v
theories/SpecStable.v
theories/FloatStable.v
theories/StableExamples.v
theories/PropStable.v
theories/SpecSolve.v
theories/RealSchur.v
theories/FloatSolve.v
theories/FloatSolvable.v
theories/RealTri.v
theories/FloatTri.v
theories/FloatInv.v
theories/FloatInvert.v
theories/SolveExamples.v
theories/PropSolve.v
theories/SpecCorrect.v
theories/FloatCorrect.v
theories/RealInverse.v
theories/FloatModerate.v
theories/FloatCorrectNl.v
theories/CorrectExamples.v
theories/CorrectNlExamples.v
theories/PropCorrect.v
theories/SpecDefined.v
theories/Defined.v
theories/SpecFixedRange.v
theories/FixedRange.v
theories/FixedSteps.v
theories/FixedStable.v
theories/FixedScalar.v
theories/FixedRangeExamples.v
theories/PropFixedRange.v
theories/SpecFixedGain.v
theories/FixedGain.v
theories/LinPath.v
theories/ZPath.v
theories/FixedRun.v
theories/FixedCert.v
theories/GravityFixed.v
theories/SpecGravity.v
theories/GravityProof.v
theories/GravityMain.v
theories/PropGravity.v
theories/SpecTurn.v
theories/FloatTurn.v
theories/TurnProof.v
theories/FloatSelect.v
theories/TurnRun.v
theories/TurnReadings.v
theories/FloatQ.v
theories/FloatUp.v
theories/FloatCert.v
theories/TurnExamples.v
theories/PropTurn.v
theories/FloatTrack.v
theories/GravityFloat.v
theories/GravityLoop.v
theories/SpecGravityFloat.v
theories/GravityTest.v
theories/GravityTables.v
theories/GravityFloatMain.v
theories/GravityCtl.v
theories/GravityTables2.v
theories/GravityExample.v
theories/PropGravityFloat.v
theories/Crash.v
theories/CrashErase.v
theories/SpecCrash.v
theories/CrashKernels.v
theories/CrashTorn.v
theories/CrashCalls.v
theories/CrashSim.v
theories/CrashHist.v
theories/CrashTwo.v
theories/CrashMain.v
theories/CrashExamples.v
theories/PropCrash.v
theories/Radar.v
theories/SpecRadar.v
theories/RadarDeriv.v
theories/RadarProof.v
theories/RadarMain.v
theories/RadarExamples.v
theories/PropRadar.v
theories/SpecRest.v
theories/Rest.v
theories/RestExamples.v
theories/PropRest.v
theories/SpecMirror.v
theories/Mirror.v
theories/MirrorExamples.v
theories/TrackExamples.v
theories/PropTrack.v
theories/PropMirror.v
theories/Garbage.v
theories/PropGarbage.v
theories/SpecPeriod.v
theories/Period.v
theories/PeriodExamples.v
theories/PropPeriod.v
theories/FadeExamples.v
theories/PropFade.v
theories/SpecDataPar.v
theories/DataPar.v
theories/Affine.v
theories/Car.v
theories/SpecCar.v
theories/CarProof.v
theories/PropCar.v
theories/SpecRival.v
theories/Rival.v
theories/RivalExamples.v
theories/PropRival.v
theories/SpecBest.v
theories/Best.v
theories/PropBest.v
theories/SpecMute.v
theories/Mute.v
theories/MuteProof.v
theories/MuteExamples.v
theories/PropMute.v
theories/SpecScale.v
theories/Scale.v
theories/ScaleBits.v
theories/ScaleHist.v
theories/ScaleExamples.v
theories/PropScale.v
theories/CrashMatrix.v
theories/SpecTorn.v
theories/CrashMat.v
theories/CrashMatChol.v
theories/TornExamples.v
theories/PropTorn.v
theories/SpecSteady.v
theories/Steady.v
theories/SteadyExamples.v
theories/PropSteady.v
theories/SpecFixedFactor.v
theories/FixedChol.v
theories/SpecFixedSolve.v
theories/FixedSolve.v
theories/FixedSolveExamples.v
theories/PropFixedSolve.v
theories/SpecFixedInv.v
theories/RealSubst.v
theories/FixedInv.v
theories/FixedInvert.v
theories/FixedInvertExamples.v
theories/PropFixedInverse.v
theories/SpecFixedCorrect.v
theories/FixedCorrect.v
theories/FixedCorrectExamples.v
theories/SpecFixedModerate.v
theories/FixedModerate.v
theories/FixedModerateExamples.v
theories/PropFixedCorrect.v
