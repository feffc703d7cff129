-Q theories Verif
theories/Common.v
theories/SMap.v
theories/Containers_Model.v
theories/Containers_Spec.v
theories/Containers_Proofs.v
theories/ContainersEval_Model.v
theories/ContainersEval_Proofs.v
theories/Containers_Props.v
theories/Shooting_Model.v
theories/Shooting_Spec.v
theories/Shooting_Proofs.v
theories/Shooting_Props.v
theories/SolverBase_Model.v
theories/SolverBase_Spec.v
theories/SolverBase_Proofs.v
theories/SolverBase_Props.v
theories/Feasibility_Model.v
theories/Feasibility_Spec.v
theories/Feasibility_Proofs.v
theories/Feasibility_Props.v
theories/XFloat.v
theories/Params_Model.v
theories/Params_Spec.v
theories/Params_Proofs.v
theories/Params_Props.v
theories/XFloatFacts.v
theories/Solver_Model.v
theories/Solver_Spec.v
theories/Solver_Proofs.v
theories/SolverLoop_Proofs.v
theories/SolverReg_Proofs.v
theories/SolverStop_Props.v
theories/Solver_Props.v
theories/Solver_Scalar.v
theories/SolverWitness_Props.v
theories/RingTac.v
theories/LinAlg.v
theories/LinAlg_Proofs.v
theories/Riccati_Model.v
theories/Riccati_Spec.v
theories/Riccati_Proofs.v
theories/RiccatiLQ_Proofs.v
theories/Riccati_Props.v
theories/RiccatiWitness_Props.v
theories/BoxQP_Model.v
theories/BoxQP_Spec.v
theories/BoxQP_Proofs.v
theories/BoxQP_Props.v
theories/BoxQPWitness_Props.v
theories/Deriv.v
theories/Activation_Model.v
theories/Activation_Spec.v
theories/Activation_Proofs.v
theories/Activation_Props.v
theories/ActBounds_Model.v
theories/ActBounds_Props.v
theories/VecMat.v
theories/ControlParam_Model.v
theories/ControlParam_Spec.v
theories/ControlParam_Proofs.v
theories/ControlParam_Props.v
theories/Integrator_Model.v
theories/Integrator_Spec.v
theories/Integrator_Proofs.v
theories/IntegratorRK_Proofs.v
theories/IntegratorPsd_Proofs.v
theories/IntegratorStep_Proofs.v
theories/Integrator_Props.v
theories/State_Model.v
theories/State_Props.v
theories/IntegratorTerm_Model.v
theories/IntegratorTerm_Props.v
theories/LQR_Model.v
theories/LQR_Proofs.v
theories/LQR_Props.v
theories/Unicycle_Model.v
theories/Unicycle_Props.v
theories/NumDiff_Spec.v
theories/NumDiff_Model.v
theories/NumDiff_Proofs.v
theories/NumDiff_Props.v
theories/Residual_Model.v
theories/Residual_Proofs.v
theories/Residual_Props.v
theories/Actuation_Model.v
theories/Actuation_Proofs.v
theories/Actuation_Props.v
theories/Cones_Model.v
theories/Cones_Proofs.v
theories/Cones_Props.v
theories/Ipopt_Model.v
theories/Ipopt_Proofs.v
theories/Ipopt_Props.v
theories/KKT_Model.v
theories/KKT_Proofs.v
theories/KKT_Props.v
theories/SolverSync_Proofs.v
theories/SolverSync_Props.v
theories/KKTLoop_Model.v
theories/KKTLoop_Proofs.v
theories/KKTLoop_Props.v
theories/IntroLoop_Model.v
theories/IntroLoop_Proofs.v
theories/IntroLoop_Props.v
theories/Intro_Model.v
theories/Intro_Proofs.v
theories/Intro_Props.v
theories/Spatial.v
theories/Spatial_Proofs.v
theories/Contact_Model.v
theories/Contact_Spec.v
theories/Contact_Proofs.v
theories/Contact_Props.v
theories/ContactPub_Props.v
theories/Implicit.v
theories/MultiContact_Model.v
theories/MultiContact_Proofs.v
theories/MultiContact_Props.v
theories/FwdDyn_Model.v
theories/FwdDyn_Spec.v
theories/FwdDyn_Proofs.v
theories/FwdDyn_Contacts.v
theories/FwdDyn_Props.v
theories/FwdDynShared_Props.v
theories/InvDyn_Model.v
theories/InvDyn_Spec.v
theories/InvDyn_Proofs.v
theories/InvDyn_Props.v
theories/InvDyn_Thrust.v
theories/InvSet_Model.v
theories/InvSet_Proofs.v
theories/InvSet_Props.v
theories/QuasiStatic_Model.v
theories/QuasiStatic_Props.v
theories/SolverThrow_Model.v
theories/SolverThrow_Props.v
theories/ForceRes_Model.v
theories/ForceRes_Proofs.v
theories/ForceRes_Props.v
theories/StateMB_Model.v
theories/StateMB_Proofs.v
theories/StateMB_Props.v
theories/StateRes_Model.v
theories/StateRes_Proofs.v
theories/StateRes_Props.v
theories/Fresh_Model.v
theories/Fresh_Props.v
theories/Log3.v
theories/KinRes_Model.v
theories/KinRes_Props.v
theories/StopWatch_Model.v
theories/StopWatch_Props.v
theories/Walk_Model.v
theories/Walk_Props.v
theories/FinDiff_Model.v
theories/FinDiff_Props.v
theories/ConRes_Model.v
theories/ConRes_Props.v
theories/JointRes_Model.v
theories/JointRes_Props.v
theories/PairCol_Model.v
theories/PairCol_Props.v
theories/Verbose_Model.v
theories/Verbose_Props.v
theories/IpoptSolver_Model.v
theories/IpoptSolver_Props.v
theories/PySet_Model.v
theories/PySet_Props.v
theories/CodeGen_Model.v
theories/CodeGen_Props.v
theories/Csv_Model.v
theories/Csv_Props.v
theories/TwoVectors_Model.v
theories/TwoVectors_Props.v
theories/Display_Model.v
theories/Display_Props.v
theories/Pendulum_Model.v
theories/Pendulum_Props.v
theories/PyBase_Model.v
theories/PyBase_Props.v
theories/Threads_Model.v
theories/Threads_Props.v
theories/Gait_Model.v
theories/Gait_Props.v
theories/Observe_Model.v
theories/Observe_Props.v
theories/LQSolve_Model.v
theories/LQSolve_Props.v
theories/LQSolveWitness_Props.v
theories/IntroLQ_Model.v
theories/IntroLQ_Proofs.v
theories/IntroLQ_Props.v
theories/IntroLQWitness_Props.v
theories/Stop_Model.v
theories/Stop_Proofs.v
theories/Stop_Props.v
theories/StopWitness_Props.v
theories/IntroStop_Model.v
theories/IntroStop_Props.v
theories/IntroStopWitness_Props.v
theories/KKTLQ_Model.v
theories/KKTLQ_Props.v
theories/ContCast_Model.v
theories/ContCast_Props.v
theories/CastDyn_Model.v
theories/CastDyn_Props.v
theories/FloatCast_Model.v
theories/FloatCast_Props.v
theories/ProbCast_Model.v
theories/ProbCast_Props.v
theories/ActCast_Model.v
theories/ActCast_Props.v
theories/Units_Model.v
theories/Units_Props.v
theories/UnitsWitness_Props.v
theories/SharedBounds_Model.v
theories/SharedBounds_Props.v
theories/SharedBoundsWitness_Props.v
theories/ConBounds_Model.v
theories/ConBounds_Props.v
theories/ContactFrame_Model.v
theories/ContactFrame_Props.v
theories/StateCoord_Model.v
theories/StateCoord_Props.v
theories/StateLimits_Model.v
theories/StateLimits_Props.v
theories/WrapBounds_Model.v
theories/WrapBounds_Props.v
