-Q theories Verif
theories/Num.v
theories/NpList.v
theories/M_Utils.v
theories/M_Estimators.v
theories/S_Base.v
theories/S_Prob.v
theories/S_Estimators.v
theories/S_Env.v
theories/L_Num.v
theories/L_Base.v
theories/L_Estimators.v
theories/L_Prob.v
theories/L_Unbiased.v
theories/L_EstProps.v
theories/S_Examples.v
theories/L_Examples.v
theories/L_Utils.v
theories/P_Estimators.v
theories/P_Utils.v
theories/M_Tuning.v
theories/S_Tuning.v
theories/L_Tuning.v
theories/P_Tuning.v
theories/M_Slate.v
theories/S_Slate.v
theories/L_Slate.v
theories/L_SlateEst.v
theories/L_SlateUnb.v
theories/P_Slate.v
theories/M_Multi.v
theories/S_Multi.v
theories/L_Multi.v
theories/P_Multi.v
theories/M_Cont.v
theories/S_Cont.v
theories/L_Cont.v
theories/L_ContInt.v
theories/P_Cont.v
theories/M_Embed.v
theories/S_Embed.v
theories/L_Embed.v
theories/L_EmbedSel.v
theories/L_EmbedUnb.v
theories/P_Embed.v
theories/M_Policy.v
theories/S_Policy.v
theories/L_Policy.v
theories/P_Policy.v
theories/M_Linear.v
theories/S_Linear.v
theories/L_Linear.v
theories/P_Linear.v
theories/M_Logistic.v
theories/S_Logistic.v
theories/L_Logistic.v
theories/P_Logistic.v
theories/M_Feedback.v
theories/M_Sim.v
theories/S_Sim.v
theories/L_Sim.v
theories/P_Sim.v
theories/M_Drift.v
theories/M_Offline.v
theories/S_Drift.v
theories/S_Offline.v
theories/L_Offline.v
theories/L_Train.v
theories/L_Gumbel.v
theories/P_Offline.v
theories/L_Drift.v
theories/P_Drift.v
theories/M_Reg.v
theories/S_Reg.v
theories/L_Reg.v
theories/P_Reg.v
theories/L_Weights.v
theories/P_Weights.v
theories/P_Mrdr.v
theories/S_SlateReg.v
theories/L_SlateReg.v
theories/P_SlateReg.v
theories/M_Meta.v
theories/S_Meta.v
theories/L_Meta.v
theories/P_Meta.v
theories/P_RegInit.v
theories/M_Data.v
theories/S_Data.v
theories/L_Data.v
theories/P_Data.v
theories/P_DataTrunc.v
theories/P_DataMulti.v
theories/P_DataMC.v
theories/P_DataEmbed.v
theories/P_DataReal.v
theories/P_DataFun.v
theories/P_DataCont.v
theories/M_SlateData.v
theories/S_SlateData.v
theories/L_SlateData.v
theories/P_SlateData.v
theories/L_SlateReward.v
theories/P_SlatePolicy.v
theories/P_SlateReward.v
theories/S_Conc.v
theories/L_Conc.v
theories/L_Conc2.v
theories/L_Conc3.v
theories/P_Conc.v
theories/M_Init.v
theories/S_Init.v
theories/L_Init.v
theories/P_Init.v
theories/S_Gradient.v
theories/P_Gradient.v
theories/M_NN.v
theories/S_NN.v
theories/L_Act.v
theories/L_NN.v
theories/P_NN.v
theories/L_Fit.v
theories/P_Fit.v
theories/M_EnvSim.v
theories/S_EnvSim.v
theories/P_EnvSim.v
theories/P_Slope.v
theories/S_Bias.v
theories/P_Bias.v
theories/P_Risk.v
theories/P_BiasBound.v
theories/P_Var.v
theories/P_EmbedVar.v
theories/P_MultiVar.v
theories/P_Replay.v
theories/P_ReplayLoop.v
theories/P_CrossFit.v
theories/P_TuneSession.v
theories/P_BootFail.v
theories/P_Learn.v
theories/M_Ctor.v
theories/S_Ctor.v
theories/L_Ctor.v
theories/P_Ctor.v
theories/S_Refuse.v
theories/P_Refuse.v
theories/S_Draws.v
theories/L_Draws.v
theories/P_Draws.v
theories/P_DrawLaw.v
theories/S_Robust.v
theories/P_Robust.v
theories/S_Explore.v
theories/P_Explore.v
theories/M_RewardFn.v
theories/S_RewardFn.v
theories/P_RewardFn.v
theories/P_Edge.v
theories/P_SlateDraws.v
theories/P_MultiDraws.v
theories/M_Visual.v
theories/P_Visual.v
theories/P_EmbedDraws.v
theories/P_MCDraws.v
theories/P_ContDraws.v
theories/P_MetaCalls.v
theories/M_Obd.v
theories/P_Obd.v
theories/P_LinWidth.v
theories/P_LinRegret.v
theories/P_BTSim.v
theories/P_SlateVar.v
theories/L_Potential.v
theories/P_LinRegret2.v
theories/P_ContMse.v
theories/P_SlateSN.v
theories/M_SlateInt.v
theories/P_SlateInt.v
theories/P_MultiCons.v
theories/P_Conc2.v
theories/P_EmbedCons.v
theories/P_CascadeCons.v
theories/P_BalancedCons.v
theories/P_ExpCons.v
theories/P_RegGuard.v
theories/P_Select.v
theories/P_SlateExp.v
theories/P_EmbedExp.v
