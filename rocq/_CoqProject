-Q theories Verif
theories/Base.v
theories/M_Link.v
theories/S_Link.v
theories/L_Link.v
theories/P_Link.v
theories/M_Dist.v
theories/S_Dist.v
theories/L_Dist.v
theories/L_Dist2.v
theories/L_Dist3.v
theories/L_Dist4.v
theories/P_Dist.v
theories/M_CD.v
theories/S_CD.v
theories/L_CDrng.v
theories/L_CD.v
theories/L_CDb.v
theories/L_KKT.v
theories/P_CD.v
theories/M_Solver.v
theories/S_Solver.v
theories/L_Hess.v
theories/L_Solver.v
theories/L_Solver2.v
theories/L_Solver3.v
theories/P_Solver.v
theories/L_Obj.v
theories/P_Obj.v
theories/L_LS.v
theories/L_Mono.v
theories/P_LS.v
theories/M_Std.v
theories/S_Std.v
theories/L_Std.v
theories/P_Std.v
theories/L_Fit.v
theories/L_Hull.v
theories/P_Fit.v
theories/L_Same.v
theories/L_Rows.v
theories/P_Rows.v
theories/M_Formula.v
theories/S_Formula.v
theories/L_Formula.v
theories/L_Formula2.v
theories/P_Formula.v
theories/M_Cat.v
theories/S_Cat.v
theories/L_Cat.v
theories/P_Cat.v
theories/M_Path.v
theories/S_Path.v
theories/L_Path.v
theories/L_Path2.v
theories/L_Path3.v
theories/P_Path.v
theories/L_Pred.v
theories/P_Pred.v
theories/M_CV.v
theories/S_CV.v
theories/L_CV.v
theories/P_CV.v
theories/M_Lin.v
theories/L_Lin.v
theories/M_Cov.v
theories/S_Cov.v
theories/L_Cov.v
theories/P_Cov.v
theories/L_Wald.v
theories/P_Wald.v
theories/M_Est.v
theories/S_Est.v
theories/P_Est.v
theories/M_Valid.v
theories/S_Valid.v
theories/P_Valid.v
theories/M_Names.v
theories/S_Names.v
theories/P_Names.v
theories/S_Fit.v
theories/L_Score.v
theories/P_Score.v
theories/P_Units.v
theories/S_Gamma.v
theories/L_Gamma.v
theories/M_Tweedie.v
theories/S_Tweedie.v
theories/L_Tweedie.v
theories/P_Tweedie.v
theories/L_Panjer.v
theories/S_Lik.v
theories/P_Lik.v
theories/S_Scale.v
theories/P_Scale.v
theories/L_Lstsq.v
theories/M_Fit.v
theories/S_FitAll.v
theories/L_Gap.v
theories/L_FitAll.v
theories/P_FitAll.v
theories/P_Gauss.v
theories/P_CV2.v
theories/M_Mem.v
theories/S_Mem.v
theories/L_Mem.v
theories/P_Mem.v
theories/M_Jobs.v
theories/S_Jobs.v
theories/L_Jobs.v
theories/P_Jobs.v
theories/M_Par.v
theories/S_Par.v
theories/L_Par.v
theories/P_Par.v
theories/P_Path2.v
theories/M_Psd.v
theories/S_Psd.v
theories/L_Psd.v
theories/P_Psd.v
theories/S_CovRows.v
theories/L_CovRows.v
theories/P_CovRows.v
theories/P_Dist2.v
theories/M_State.v
theories/S_State.v
theories/P_State.v
theories/M_Diag.v
theories/S_Diag.v
theories/P_Diag.v
theories/S_Train.v
theories/P_Train.v
theories/S_Recode.v
theories/P_Recode.v
theories/M_Float.v
theories/S_Float.v
theories/L_Float.v
theories/P_Float.v
theories/M_FCD.v
theories/S_FCD.v
theories/P_FCD.v
theories/M_FSum.v
theories/S_FSum.v
theories/P_FSum.v
theories/S_MonoPred.v
theories/L_MonoPred.v
theories/L_Spline.v
theories/P_MonoPred.v
theories/P_MonoOpt.v
theories/M_TLink.v
theories/P_TLink.v
theories/S_Swap.v
theories/L_Swap.v
theories/P_Swap.v
theories/S_Order.v
theories/P_Order.v
theories/S_Shift.v
theories/L_Shift.v
theories/P_Shift.v
theories/S_Agg.v
theories/L_Agg.v
theories/P_Agg.v
theories/M_Matrix.v
theories/S_Matrix.v
theories/L_Matrix.v
theories/P_Matrix.v
theories/S_Twin.v
theories/P_Twin.v
theories/M_Context.v
theories/S_Context.v
theories/P_Context.v
theories/M_Params.v
theories/S_Params.v
theories/P_Params.v
theories/S_Nested.v
theories/P_Nested.v
theories/S_Inert.v
theories/P_Inert.v
theories/M_Shape.v
theories/S_Shape.v
theories/P_Shape.v
theories/M_Dtype.v
theories/P_Dtype.v
theories/S_Ones.v
theories/P_Ones.v
theories/P_Shrink.v
theories/M_Eq.v
theories/S_Eq.v
theories/P_Eq.v
theories/M_FPred.v
theories/S_FPred.v
theories/P_FPred.v
theories/S_Response.v
theories/P_Response.v
theories/P_Weight.v
theories/P_AlphaPath.v
theories/S_Separation.v
theories/P_Separation.v
theories/L_Exist.v
theories/S_Optimum.v
theories/P_Optimum.v
theories/S_Linear.v
theories/P_Linear.v
theories/M_Input.v
theories/S_Input.v
theories/P_Input.v
theories/S_Basis.v
theories/P_Basis.v
theories/L_Attain.v
theories/S_Exist.v
theories/P_Exist.v
theories/S_Sweep.v
theories/P_Sweep.v
theories/S_FStop.v
theories/P_FStop.v
theories/S_Pace.v
theories/P_Pace.v
theories/S_Quad.v
theories/P_Quad.v
theories/S_Newton.v
theories/P_Newton.v
theories/S_Steps.v
theories/P_Steps.v
theories/P_Search.v
theories/P_Rate.v
