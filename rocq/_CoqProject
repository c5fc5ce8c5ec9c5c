-Q theories Verif
theories/Num.v
theories/Index_model.v
theories/Index_spec.v
theories/Index_proofs.v
theories/P_Index.v
theories/Step_model.v
theories/Step_spec.v
theories/Num_facts.v
theories/Step_proofs.v
theories/P_Step.v
theories/Minimize_model.v
theories/Minimize_spec.v
theories/Minimize_proofs.v
theories/P_Minimize.v
theories/Rational_model.v
theories/Rational_proofs.v
theories/P_Rational.v
theories/MatUtil_model.v
theories/MatUtil_spec.v
theories/MatUtil_proofs.v
theories/P_MatUtil.v
theories/Dense_model.v
theories/Dense_spec.v
theories/Dense_proofs.v
theories/P_Dense.v
theories/Echelon_model.v
theories/Echelon_spec.v
theories/Echelon_proofs.v
theories/EchelonOpt_proofs.v
theories/P_Echelon.v
theories/EchelonExt_model.v
theories/EchelonExt_spec.v
theories/EchelonExt_proofs.v
theories/P_EchelonExt.v
theories/Zmod_tac.v
theories/LU_model.v
theories/LU_spec.v
theories/LU_proofs.v
theories/P_LU.v
theories/Linear_model.v
theories/Linear_spec.v
theories/Linear_proofs.v
theories/P_Linear.v
theories/Canonical_model.v
theories/Canonical_spec.v
theories/Canonical_proofs.v
theories/EchelonW_model.v
theories/EchelonW_proofs.v
theories/EchelonO_model.v
theories/EchelonO_spec.v
theories/EchelonO_proofs.v
theories/EchelonOEx_proofs.v
theories/P_Canonical.v
theories/Master_model.v
theories/P_Master.v
theories/Num_rf.v
theories/ResErr_model.v
theories/Residual_model.v
theories/Residual_spec.v
theories/Residual_proofs.v
theories/P_Residual.v
theories/Loop_model.v
theories/Loop_spec.v
theories/Loop_proofs.v
theories/Backtrack_proofs.v
theories/P_Loop.v
theories/Wrapper_model.v
theories/Wrapper_spec.v
theories/Wrapper_proofs.v
theories/P_Wrapper.v
theories/Sens_model.v
theories/Sens_spec.v
theories/Sens_proofs.v
theories/P_Sens.v
theories/Output_model.v
theories/Output_spec.v
theories/Output_proofs.v
theories/P_Output.v
theories/Result_model.v
theories/P_Result.v
theories/R_rf.v
theories/End_spec.v
theories/Near_proofs.v
theories/Indep_proofs.v
theories/End_model.v
theories/Accept_proofs.v
theories/Stay_proofs.v
theories/End_proofs.v
theories/P_End.v
theories/P_Flags.v
theories/Basis_spec.v
theories/P_Basis.v
theories/Newton_model.v
theories/Newton_spec.v
theories/Newton_proofs.v
theories/Exact_spec.v
theories/Exact_proofs.v
theories/ExactUser_proofs.v
theories/P_Newton.v
theories/Pivot_spec.v
theories/Pivot_proofs.v
theories/P_EchelonO.v
theories/Status_spec.v
theories/Status_proofs.v
theories/P_Status.v
theories/P_Licq.v
theories/SensW_model.v
theories/SensW_spec.v
theories/SensW_proofs.v
theories/P_SensW.v
theories/SensWEx_proofs.v
theories/P_SensWEx.v
theories/Iterate_proofs.v
theories/Converge_spec.v
theories/Converge_proofs.v
theories/Local_proofs.v
theories/LocalW_proofs.v
theories/LocalEx_proofs.v
theories/ConvergeEx_proofs.v
theories/P_Converge.v
theories/Evals_model.v
theories/Evals_spec.v
theories/P_Evals.v
theories/Calls_model.v
theories/Calls_spec.v
theories/Calls_proofs.v
theories/P_Calls.v
theories/Convex_spec.v
theories/Convex_proofs.v
theories/ConvexEx_proofs.v
theories/P_Convex.v
theories/Weak_proofs.v
theories/WeakEx_proofs.v
theories/P_Weak.v
theories/Cycle_proofs.v
theories/CycleEx_proofs.v
theories/Quadratic_spec.v
theories/Quadratic_proofs.v
theories/QuadRun_proofs.v
theories/QuadEx_proofs.v
theories/P_Quadratic.v
theories/Round_spec.v
theories/Float_proofs.v
theories/Round_proofs.v
theories/RoundRun_proofs.v
theories/P_Round.v
theories/StepRound_proofs.v
theories/P_StepRound.v
theories/FSum_model.v
theories/FSum_spec.v
theories/FSum_proofs.v
theories/FResidual_model.v
theories/FResidual_spec.v
theories/FResidual_proofs.v
theories/P_FResidual.v
theories/ErrorStatus_model.v
theories/ErrorStatus_proofs.v
theories/P_ErrorStatus.v
theories/FMinimize_proofs.v
theories/P_FMinimize.v
theories/Restart_proofs.v
theories/RestartEx_proofs.v
theories/P_Restart.v
theories/Debug_model.v
theories/Debug_proofs.v
theories/DebugE_model.v
theories/DebugE_proofs.v
theories/P_Debug.v
theories/Dropped_proofs.v
theories/ThresholdEx_proofs.v
theories/P_Resolved.v
theories/P_ZeroRows.v
theories/Reuse_model.v
theories/Reuse_spec.v
theories/Reuse_proofs.v
theories/ReuseEx_proofs.v
theories/P_Reuse.v
theories/FEchelon_model.v
theories/FEchelon_spec.v
theories/FEchelon_proofs.v
theories/P_FEchelon.v
theories/P_FEchelonX.v
theories/RationalF_proofs.v
theories/P_RationalF.v
theories/P_Infeasible.v
theories/Limits_proofs.v
theories/P_Limits.v
theories/P_Resume.v
theories/FMultiply_model.v
theories/P_FMultiply.v
theories/FClean_proofs.v
theories/P_FClean.v
theories/Throw_model.v
theories/Throw_spec.v
theories/Throw_proofs.v
theories/P_Throw.v
theories/SensLin_spec.v
theories/SensLin_proofs.v
theories/P_SensLin.v
theories/DependsOn_spec.v
theories/DependsOn_proofs.v
theories/P_DependsOn.v
theories/P_SensStop.v
