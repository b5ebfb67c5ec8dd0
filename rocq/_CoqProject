-Q theories Verif
theories/PyBase.v
theories/M_FindLk.v
theories/S_FindLk.v
theories/P_FindLk.v
theories/M_Engine.v
theories/S_Engine.v
theories/P_Loops.v
theories/P_Engine.v
theories/P_Engine2.v
theories/P_Engine3.v
theories/P_EngineEx.v
theories/P_Engine4.v
theories/T_Engine.v
theories/PyStr.v
theories/M_GenSys.v
theories/S_GenSys.v
theories/S_GenSys2.v
theories/P_GenSys.v
theories/P_GenSys2.v
theories/P_GenSys3.v
theories/P_GenSys4.v
theories/P_RQ.v
theories/P_GenSys5.v
theories/P_GenSys6.v
theories/P_GenSysEx.v
theories/T_GenSys.v
theories/M_Solve.v
theories/S_Solve.v
theories/P_Solve.v
theories/T_Solve.v
theories/M_Tools.v
theories/S_Tools.v
theories/P_Tools.v
theories/P_Tools2.v
theories/P_Tools3.v
theories/P_Tools4.v
theories/P_Tools5.v
theories/P_ToolsEx.v
theories/T_Tools.v
theories/M_Parser.v
theories/S_Parser.v
theories/P_Parser.v
theories/P_Parser2.v
theories/P_Parser3.v
theories/P_Parser4.v
theories/P_Parser5.v
theories/P_Parser6.v
theories/P_Parser7.v
theories/S_ParserEx.v
theories/T_Parser.v
theories/M_ParaFunc.v
theories/S_ParaFunc.v
theories/P_ParaFunc.v
theories/T_ParaFunc.v
theories/M_Symbols.v
theories/S_Symbols.v
theories/T_Symbols.v
theories/M_Cache.v
theories/S_Cache.v
theories/P_Cache.v
theories/P_Cache2.v
theories/P_Cache3.v
theories/T_Cache.v
theories/M_Params.v
theories/S_Params.v
theories/P_Params.v
theories/T_Params.v
theories/T_Sets.v
theories/M_Filter.v
theories/S_Filter.v
theories/P_Filter.v
theories/P_FilterEx.v
theories/T_Filter.v
theories/M_Pool.v
theories/S_Pool.v
theories/T_Pool.v
theories/M_Estim.v
theories/S_Estim.v
theories/P_Estim.v
theories/T_Estim.v
theories/M_Cls.v
theories/S_Cls.v
theories/T_Cls.v
theories/M_Stats.v
theories/S_Stats.v
theories/P_Stats.v
theories/P_Stats2.v
theories/T_Stats.v
theories/M_Pipe.v
theories/S_Pipe.v
theories/P_Pipe.v
theories/P_Pipe2.v
theories/P_PipeEx.v
theories/P_Pipe3.v
theories/T_Pipe.v
theories/M_Mcmc.v
theories/S_Mcmc.v
theories/T_Mcmc.v
theories/S_Horizon.v
theories/P_Horizon.v
theories/T_Horizon.v
theories/P_Parser8.v
theories/T_Clash.v
theories/M_Obs.v
theories/S_Obs.v
theories/T_Obs.v
theories/M_Batch.v
theories/S_Batch.v
theories/T_Batch.v
theories/S_Meta.v
theories/P_Meta.v
theories/P_Meta2.v
theories/P_Meta3.v
theories/P_MetaEx.v
theories/P_MetaEx2.v
theories/T_Meta.v
theories/M_Text.v
theories/S_Text.v
theories/P_Text.v
theories/P_Text2.v
theories/T_Text.v
theories/S_Full.v
theories/M_Full.v
theories/P_Full.v
theories/P_Full2.v
theories/P_Full3.v
theories/P_Full4.v
theories/T_Full.v
theories/S_Inv.v
theories/P_Inv.v
theories/P_Inv2.v
theories/P_Inv3.v
theories/P_Inv4.v
theories/P_Inv5.v
theories/P_Small.v
theories/T_Inv.v
theories/S_Mean.v
theories/P_Mean.v
theories/P_Mean2.v
theories/P_Names.v
theories/P_Mean3.v
theories/P_Mean4.v
theories/P_Mean5.v
theories/P_MeanEx.v
theories/P_MeanEx2.v
theories/T_Mean.v
theories/M_Whole.v
theories/S_Whole.v
theories/P_Whole.v
theories/T_Whole.v
theories/M_Session.v
theories/S_Session.v
theories/P_Session.v
theories/T_Session.v
theories/S_Bound.v
theories/T_Bound.v
theories/S_Rename.v
theories/P_Rename.v
theories/T_Rename.v
theories/M_Write.v
theories/S_Write.v
theories/T_Write.v
theories/M_Mask.v
theories/S_Mask.v
theories/T_Mask.v
theories/M_Dict.v
theories/S_Dict.v
theories/T_Dict.v
theories/S_SameText.v
theories/T_SameText.v
theories/M_Meas.v
theories/S_Meas.v
theories/T_Meas.v
theories/M_Prior.v
theories/S_Prior.v
theories/T_Prior.v
theories/M_AsDict.v
theories/T_AsDict.v
theories/M_Counts.v
theories/S_Counts.v
theories/T_Counts.v
theories/M_Dump.v
theories/S_Dump.v
theories/T_Dump.v
theories/M_Report.v
theories/S_Report.v
theories/T_Report.v
