-Q theories Verif
theories/Base.v
theories/Spec.v
theories/SpecTabu.v
theories/SpecReactive.v
theories/SpecInt.v
theories/SpecData.v
theories/M_Graph.v
theories/P_Graph.v
theories/M_Util.v
theories/P_Base.v
theories/P_Util.v
theories/P_Forest.v
theories/P_Init.v
theories/P_Initial.v
theories/Examples.v
theories/Props_Util.v
theories/M_Objective.v
theories/P_Sum.v
theories/P_Objective.v
theories/Props_Objective.v
theories/M_Azp.v
theories/P_Azp.v
theories/P_Strategy.v
theories/Props_Strategy.v
theories/P_Fit.v
theories/P_AzpFit.v
theories/Props_Azp.v
theories/M_Sa.v
theories/P_Sa.v
theories/Props_Sa.v
theories/M_Tabu.v
theories/P_Tabu.v
theories/P_TabuFit.v
theories/P_Reactive.v
theories/P_Stuck.v
theories/Props_Tabu.v
theories/Props_Stuck.v
theories/Props_Args.v
theories/Props_Lengths.v
theories/M_MaxP.v
theories/M_TabuWith.v
theories/P_MaxP.v
theories/P_MaxP2.v
theories/P_Greedy.v
theories/P_MaxP3.v
theories/P_MaxP4.v
theories/P_TabuWith.v
theories/Props_MaxP.v
theories/Props_Greedy.v
theories/M_Skater.v
theories/P_Skater.v
theories/Props_Skater.v
theories/M_Exact.v
theories/P_Mip.v
theories/P_Mip2.v
theories/P_Order.v
theories/P_Flow.v
theories/P_TreeMip.v
theories/P_TreeMip2.v
theories/P_MaxPExact.v
theories/P_Exact.v
theories/P_Split.v
theories/Props_Exact.v
theories/M_Convert.v
theories/P_Convert.v
theories/Props_Convert.v
theories/M_Random.v
theories/P_Random.v
theories/Props_Random.v
theories/P_Rounds.v
theories/Props_Rounds.v
theories/Props_Mean.v
theories/P_Zoning.v
theories/P_Names.v
theories/P_Descent.v
theories/P_Islands.v
theories/Props_Descent.v
theories/Props_Islands.v
theories/Props_Compare.v
theories/Props_Zoning.v
theories/P_Starts.v
theories/Props_Starts.v
theories/P_Local.v
theories/Props_Local.v
theories/P_Kruskal.v
theories/Props_Kruskal.v
theories/Props_SkaterNames.v
theories/P_MaxPZone.v
theories/Props_MaxPZone.v
theories/P_MaxPNames.v
theories/Props_MaxPNames.v
theories/P_Anneal.v
theories/P_Annealing.v
theories/Props_Anneal.v
theories/Props_Cold.v
theories/P_AnnealNames.v
theories/Props_AnnealNames.v
theories/M_Frames.v
theories/P_Frames.v
theories/Props_Frames.v
theories/Props_ExactFrames.v
theories/P_TabuNames.v
theories/Props_TabuNames.v
theories/P_TwoRuns.v
theories/M_Float.v
theories/M_FloatMaxP.v
theories/P_Float.v
theories/P_FloatErr.v
theories/P_FloatMaxP.v
theories/P_FloatMaxP2.v
theories/Props_Float.v
theories/Props_FloatErr.v
theories/Props_FloatMaxP.v
theories/P_Scale.v
theories/P_ScaleMaxP.v
theories/P_ScaleObj.v
theories/P_ScaleSkater.v
theories/Props_Scale.v
theories/Props_Threshold.v
theories/Props_Alone.v
theories/P_OneSided.v
theories/Props_OneSided.v
theories/M_FloatSa.v
theories/P_FloatSa.v
theories/P_FloatWhole.v
theories/P_FloatWhole2.v
theories/Props_FloatMore.v
theories/P_Ext.v
theories/P_AloneAll.v
theories/Props_AloneAll.v
theories/P_ExactIslands.v
theories/Props_ExactIslands.v
theories/Props_MaxPTabu.v
theories/Props_Iterations.v
theories/Props_TabuFrames.v
theories/Props_RandomTabu.v
theories/SpecMissing.v
theories/M_Missing.v
theories/P_Upto.v
theories/P_Missing.v
theories/Props_Missing.v
theories/SpecAmounts.v
theories/M_MaxPMissing.v
theories/P_MaxPMissing.v
theories/P_MaxPMissing2.v
theories/Props_MaxPMissing.v
theories/P_Loops.v
theories/P_LoopsMaxP.v
theories/Props_Loops.v
theories/P_TabuWalk.v
theories/Props_TabuWalk.v
theories/P_ReactiveWalk.v
theories/Props_ReactiveWalk.v
theories/M_MaxPInt.v
theories/P_MaxPInt.v
theories/Props_MaxPInt.v
theories/M_Grow.v
theories/M_MaxPChecked.v
theories/SpecBound.v
theories/M_MaxPThreshold.v
theories/P_MaxPChecked.v
theories/Props_MaxPChecked.v
theories/P_MaxPThreshold.v
theories/P_MaxPThreshold2.v
theories/P_MaxPThreshold3.v
theories/Props_MaxPThreshold.v
theories/M_TabuGuarded.v
theories/P_Guarded.v
theories/P_TabuGuarded.v
theories/P_GuardedAzp.v
theories/Props_TabuGuarded.v
theories/M_FloatTabu.v
theories/P_FloatTabu.v
theories/SpecStep.v
theories/P_FloatTabu2.v
theories/P_FloatTabu3.v
theories/P_FloatTabu4.v
theories/Props_FloatTabu.v
theories/Props_FloatTabuErr.v
theories/Props_ReactiveOnce.v
