-Q theories Verif
theories/Rnd.v
theories/Prob.v
theories/F64.v
theories/MOperators.v
theories/MCrossover.v
theories/MMutation.v
theories/DocExamples.v
theories/MStats.v
theories/MPopulation.v
theories/MSelection.v
theories/MModel.v
theories/MWord.v
theories/MSchedule.v
theories/SpecS.v
theories/PSchedule.v
theories/PSchedule2.v
theories/PSchedule3.v
theories/PSchedule4.v
theories/PSchedule5.v
theories/PSchedule6.v
theories/MUnwind.v
theories/SpecU.v
theories/SpecZ.v
theories/PZero.v
theories/PUnwind.v
theories/MBorrow.v
theories/SpecV.v
theories/PBorrow.v
theories/PBorrow2.v
theories/Properties_Unwind.v
theories/Properties_Borrow.v
theories/MAlgorithms.v
theories/MOneMax.v
theories/LRnd.v
theories/LProb.v
theories/Spec.v
theories/POperatorsRandom.v
theories/POperatorsNeighbors.v
theories/LGenes.v
theories/PCrossoverGpx.v
theories/PCrossoverScx.v
theories/Properties_Operators.v
theories/PCrossoverErx.v
theories/PCrossoverPmx.v
theories/PCrossoverOx.v
theories/PCrossoverCx.v
theories/PCrossoverAll.v
theories/SpecC.v
theories/PCrossoverAny.v
theories/PCrossoverAny2.v
theories/PCrossoverAny3.v
theories/PCrossoverSame.v
theories/Properties_Crossover.v
theories/Properties_CrossoverAny.v
theories/PMutation.v
theories/PMutationProb.v
theories/PShuffle.v
theories/Properties_Mutation.v
theories/LF64.v
theories/SpecF.v
theories/ExF.v
theories/PSelection.v
theories/PSelection2.v
theories/PLinear.v
theories/PSum.v
theories/PStats2.v
theories/PLinear2.v
theories/SpecR.v
theories/SpecL.v
theories/SpecB.v
theories/PReach.v
theories/PReach2.v
theories/PSelection3.v
theories/Properties_Selection.v
theories/PStats.v
theories/Properties_Stats.v
theories/PPopulation.v
theories/PRound.v
theories/Properties_Population.v
theories/ExM.v
theories/PModel.v
theories/Properties_Model.v
theories/PInterp.v
theories/PInterp2.v
theories/SpecQ.v
theories/PPressure.v
theories/SpecI.v
theories/PIndep.v
theories/SpecM.v
theories/PConnect.v
theories/SpecT.v
theories/PTour.v
theories/SpecA.v
theories/PAlgorithms.v
theories/PAlgorithms2.v
theories/PAlgorithms3.v
theories/Properties_Algorithms.v
theories/SpecH.v
theories/PRun.v
theories/PRun2.v
theories/PRun3.v
theories/PRun4.v
theories/PHist.v
theories/PHist2.v
theories/PStuck.v
theories/PFreeze.v
theories/PHist3.v
theories/ExR.v
theories/ExG.v
theories/SpecG.v
theories/PCustom.v
theories/PRun5.v
theories/ExH.v
theories/PHistEx.v
theories/PFreezeEx.v
theories/Properties_Run.v
theories/Properties_History.v
theories/SpecK.v
theories/PKeep.v
theories/POneMax.v
theories/POneMax2.v
theories/PReach3.v
theories/PConv.v
theories/PConv2.v
theories/PConv3.v
theories/PConv4.v
theories/PConv5.v
theories/PConv6.v
theories/SpecE.v
theories/PBoltz.v
theories/SpecW.v
theories/PWord.v
theories/PCrossoverLaw.v
theories/PBreed.v
theories/PNested.v
theories/PCustomEx.v
theories/Properties_Custom.v
theories/Properties_Reach.v
theories/Properties_OneMax.v
theories/Properties_Converge.v
theories/Properties_Build.v
theories/Properties_Cold.v
theories/Properties_Laws.v
theories/Properties_Schedule.v
theories/Properties_Interpolate.v
theories/Properties_Pressure.v
theories/Properties_Independent.v
theories/Properties_Connect.v
theories/SpecX.v
theories/MDisplay.v
theories/SpecN.v
theories/PDisplay.v
theories/SpecO.v
theories/LAlike.v
theories/PIso.v
theories/ExO.v
theories/PIso2.v
theories/PRename.v
theories/PRename2.v
theories/PIso3.v
theories/Properties_Order.v
theories/Properties_Names.v
theories/SpecY.v
theories/ExY.v
theories/PAllele.v
theories/PAlleleEx.v
theories/PStag.v
theories/PStagEx.v
theories/SpecP.v
theories/PCalls.v
theories/PCalls2.v
theories/ExP.v
theories/PCallsEx.v
theories/Properties_Calls.v
theories/Properties_Display.v
theories/Properties_Allele.v
theories/Properties_Stagnation.v
theories/Properties_Tour.v
theories/SpecD.v
theories/SpecJ.v
theories/PSteps.v
theories/PCommon.v
theories/PGpxSteps.v
theories/PMix.v
theories/PMix2.v
theories/PDrift.v
theories/SpecBack.v
theories/PBack.v
theories/PCover.v
theories/SpecCompare.v
theories/PErxExact.v
theories/PTours.v
theories/PCompare.v
theories/SpecWhere.v
theories/PWhere.v
theories/Properties_Steps.v
theories/Properties_GpxSteps.v
theories/Properties_Mix.v
theories/Properties_Drift.v
theories/Properties_Back.v
theories/SpecSame.v
theories/SpecScale.v
theories/PStats3.v
theories/PAdjust.v
theories/PTurn.v
theories/PScale.v
theories/PScale2.v
theories/PScale3.v
theories/PScale4.v
theories/PScale5.v
theories/PScale6.v
theories/Properties_Compare.v
theories/Properties_Where.v
theories/Properties_Tours.v
theories/Properties_Same.v
theories/Properties_Turn.v
theories/Properties_Units.v
theories/PDirection.v
theories/Properties_Direction.v
theories/Properties_Units2.v
theories/PGpxTours.v
theories/Properties_GpxTours.v
theories/SpecPairs.v
theories/PPairs.v
theories/Properties_Pairs.v
theories/SpecShrink.v
theories/PShrink.v
theories/Properties_Shrink.v
theories/PReach4.v
theories/Properties_ReachAga.v
theories/SpecCount.v
theories/PCount.v
theories/Properties_Count.v
