-Q theories Verif
theories/Flt.v
theories/ListAux.v
theories/M_AGE.v
theories/M_Algorithm.v
theories/M_BRKGA.v
theories/M_Bench.v
theories/M_Bench2.v
theories/M_Bounds.v
theories/M_Bracket.v
theories/M_CDTLZ.v
theories/M_CTAEA.v
theories/M_Cache.v
theories/M_Callback.v
theories/M_Comb.v
theories/M_Complex.v
theories/M_Control.v
theories/M_Cross.v
theories/M_Crowding.v
theories/M_DF.v
theories/M_DNSGA.v
theories/M_DTLZ.v
theories/M_Decomp.v
theories/M_Default.v
theories/M_Direct.v
theories/M_Display.v
theories/M_Dominator.v
theories/M_Duplicate.v
theories/M_Dyn.v
theories/M_EPPSO.v
theories/M_ES.v
theories/M_Energy.v
theories/M_Entropy.v
theories/M_Evaluate.v
theories/M_GDE3.v
theories/M_GProb.v
theories/M_HV.v
theories/M_Heap.v
theories/M_Indicator.v
theories/M_Individual.v
theories/M_KGB.v
theories/M_KKTPM.v
theories/M_MCDM.v
theories/M_MOEAD.v
theories/M_MOPSO.v
theories/M_Minimize.v
theories/M_Mixed.v
theories/M_NDS.v
theories/M_NSGA3.v
theories/M_NSGA3R.v
theories/M_Nelder.v
theories/M_Niche.v
theories/M_Norm.v
theories/M_Omni.v
theories/M_Optimum.v
theories/M_PINSGA.v
theories/M_Params.v
theories/M_Pattern.v
theories/M_Perm.v
theories/M_Population.v
theories/M_Pruning.v
theories/M_RMetric.v
theories/M_RNSGA.v
theories/M_RNSGA3.v
theories/M_RVEA.v
theories/M_RandSort.v
theories/M_Random.v
theories/M_RankOpt.v
theories/M_RealOps.v
theories/M_RefDirs.v
theories/M_RefDirs2.v
theories/M_Repro.v
theories/M_Roulette.v
theories/M_RoundOps.v
theories/M_Running.v
theories/M_SMS.v
theories/M_SPEA2.v
theories/M_Sampling.v
theories/M_Selection.v
theories/M_Spacing.v
theories/M_Static.v
theories/M_Survival.v
theories/M_Swarm.v
theories/M_SwarmR.v
theories/M_Termination.v
theories/M_VF.v
theories/M_WFG.v
theories/M_Wolfe.v
theories/M_Wrappers.v
theories/M_ZDT.v
theories/NpSort.v
theories/P_Algorithm.v
theories/P_Bounds.v
theories/P_Cross.v
theories/P_Dominator.v
theories/P_Duplicate.v
theories/P_Erx.v
theories/P_FastNDS.v
theories/P_Individual.v
theories/P_NDS1.v
theories/P_NDS2.v
theories/P_NDS3.v
theories/P_NSGA3.v
theories/P_Optimum.v
theories/P_Params.v
theories/P_Peel.v
theories/P_Perm.v
theories/P_Population.v
theories/P_RandSort.v
theories/P_RealOps.v
theories/P_RefDirs.v
theories/P_RoundOps.v
theories/P_Sampling.v
theories/P_Selection.v
theories/P_Selection2.v
theories/P_Survival.v
theories/P_Survival2.v
theories/P_Survival3.v
theories/P_Survival4.v
theories/P_Termination.v
theories/P_Tree.v
theories/S_Bench.v
theories/S_Bounds.v
theories/S_CTAEA.v
theories/S_Cross.v
theories/S_Crowding.v
theories/S_Decomp.v
theories/S_Direct.v
theories/S_Display.v
theories/S_Duplicate.v
theories/S_HV.v
theories/S_Heap.v
theories/S_Indicator.v
theories/S_Local.v
theories/S_MOEAD.v
theories/S_Mixed.v
theories/S_NDS.v
theories/S_NSGA3.v
theories/S_Norm.v
theories/S_Optimum.v
theories/S_Params.v
theories/S_Pareto.v
theories/S_Pattern.v
theories/S_Perm.v
theories/S_RVEA.v
theories/S_RefDirs.v
theories/S_SMS.v
theories/S_SPEA2.v
theories/S_Sampling.v
theories/S_Selection.v
theories/S_Survival.v
theories/S_Wrappers.v
theories/Thm_AGE.v
theories/Thm_AGE2.v
theories/Thm_AGE3.v
theories/Thm_Adaptive.v
theories/Thm_Algorithm.v
theories/Thm_Archive.v
theories/Thm_BRKGA.v
theories/Thm_BRKGA2.v
theories/Thm_Bench.v
theories/Thm_Bench2.v
theories/Thm_Bench3.v
theories/Thm_Bench4.v
theories/Thm_Bounds.v
theories/Thm_Bracket.v
theories/Thm_Budget64.v
theories/Thm_CDTLZ.v
theories/Thm_CDTLZ2.v
theories/Thm_CTAEA.v
theories/Thm_CTAEA2.v
theories/Thm_CTAEA3.v
theories/Thm_CV.v
theories/Thm_Cache.v
theories/Thm_Callback.v
theories/Thm_Comb.v
theories/Thm_Comb2.v
theories/Thm_Complex.v
theories/Thm_Complex2.v
theories/Thm_Complex3.v
theories/Thm_Control.v
theories/Thm_Control2.v
theories/Thm_Control3.v
theories/Thm_Cross.v
theories/Thm_Crowding.v
theories/Thm_DE.v
theories/Thm_DF.v
theories/Thm_DF2.v
theories/Thm_DF3.v
theories/Thm_DNSGA.v
theories/Thm_DNSGA2.v
theories/Thm_DNSGA3.v
theories/Thm_DTLZ.v
theories/Thm_DTLZ2.v
theories/Thm_Decomp.v
theories/Thm_Default.v
theories/Thm_Default2.v
theories/Thm_Default3.v
theories/Thm_Default4.v
theories/Thm_Direct.v
theories/Thm_Display.v
theories/Thm_Display2.v
theories/Thm_Display3.v
theories/Thm_Display4.v
theories/Thm_Display5.v
theories/Thm_Display6.v
theories/Thm_Display7.v
theories/Thm_Dominator.v
theories/Thm_Duplicate.v
theories/Thm_Dyn.v
theories/Thm_EPPSO.v
theories/Thm_ES.v
theories/Thm_Energy.v
theories/Thm_Energy2.v
theories/Thm_Energy3.v
theories/Thm_Energy4.v
theories/Thm_Energy5.v
theories/Thm_Energy6.v
theories/Thm_Entropy.v
theories/Thm_Entropy2.v
theories/Thm_Eval.v
theories/Thm_Evaluate.v
theories/Thm_Fmin.v
theories/Thm_G3PCX.v
theories/Thm_GA.v
theories/Thm_GDE3.v
theories/Thm_GDE3b.v
theories/Thm_GProb.v
theories/Thm_HV.v
theories/Thm_HV2.v
theories/Thm_HV3.v
theories/Thm_HV4.v
theories/Thm_Heap.v
theories/Thm_Heap2.v
theories/Thm_Heap3.v
theories/Thm_Indicator.v
theories/Thm_KGB.v
theories/Thm_KGB2.v
theories/Thm_KKTPM.v
theories/Thm_KKTPM2.v
theories/Thm_KKTPM3.v
theories/Thm_MCDM.v
theories/Thm_MCDM2.v
theories/Thm_MOEAD.v
theories/Thm_MOEAD2.v
theories/Thm_MOPSO.v
theories/Thm_MOPSO2.v
theories/Thm_Minimize.v
theories/Thm_Minimize2.v
theories/Thm_Minimize3.v
theories/Thm_Minimize4.v
theories/Thm_Mixed.v
theories/Thm_Mixed2.v
theories/Thm_Mixed3.v
theories/Thm_NDS.v
theories/Thm_NSGA3.v
theories/Thm_NSGA3R.v
theories/Thm_Nelder.v
theories/Thm_Nelder2.v
theories/Thm_Niche.v
theories/Thm_Niche2.v
theories/Thm_Niche3.v
theories/Thm_Niche4.v
theories/Thm_Norm.v
theories/Thm_Norm2.v
theories/Thm_Omni.v
theories/Thm_Omni2.v
theories/Thm_Omni3.v
theories/Thm_Omni4.v
theories/Thm_Omni5.v
theories/Thm_Omni6.v
theories/Thm_Optimum.v
theories/Thm_PINSGA.v
theories/Thm_PINSGA2.v
theories/Thm_PINSGA3.v
theories/Thm_PSO.v
theories/Thm_PSOR.v
theories/Thm_Params.v
theories/Thm_Params2.v
theories/Thm_Pattern.v
theories/Thm_Perm.v
theories/Thm_Pruning.v
theories/Thm_Pruning2.v
theories/Thm_Pruning3.v
theories/Thm_Pruning4.v
theories/Thm_Pruning5.v
theories/Thm_Pruning6.v
theories/Thm_RMetric.v
theories/Thm_RMetric2.v
theories/Thm_RN3.v
theories/Thm_RN3b.v
theories/Thm_RNSGA.v
theories/Thm_RNSGA2.v
theories/Thm_RNSGA3.v
theories/Thm_RVEA.v
theories/Thm_RVEA2.v
theories/Thm_RVEA3.v
theories/Thm_RandSort.v
theories/Thm_Random.v
theories/Thm_RankOpt.v
theories/Thm_RealOps.v
theories/Thm_RefDirs.v
theories/Thm_RefDirs2.v
theories/Thm_Repro.v
theories/Thm_Roulette.v
theories/Thm_RoundOps.v
theories/Thm_Running.v
theories/Thm_Running2.v
theories/Thm_Running3.v
theories/Thm_SMS.v
theories/Thm_SPEA2.v
theories/Thm_SPEA2b.v
theories/Thm_Sampling.v
theories/Thm_Selection.v
theories/Thm_Spacing.v
theories/Thm_Static.v
theories/Thm_Survival.v
theories/Thm_Termination.v
theories/Thm_VF.v
theories/Thm_VF2.v
theories/Thm_WFG.v
theories/Thm_WFG10.v
theories/Thm_WFG2.v
theories/Thm_WFG3.v
theories/Thm_WFG4.v
theories/Thm_WFG5.v
theories/Thm_WFG6.v
theories/Thm_WFG7.v
theories/Thm_WFG8.v
theories/Thm_WFG9.v
theories/Thm_Wolfe.v
theories/Thm_Wrappers.v
theories/Thm_ZDT.v
theories/Thm_ZDT2.v
theories/Thm_ZDT3.v
