-Q theories Verif
theories/Autodiff.v
theories/Autodiff_proofs.v
theories/Aux_proofs.v
theories/BFGSConv_proofs.v
theories/BFGSSuper_proofs.v
theories/BFGS_proofs.v
theories/Batch.v
theories/Batch_proofs.v
theories/BestSoFar.v
theories/Bisection.v
theories/BisectionF64_proofs.v
theories/Bisection_proofs.v
theories/Bounds.v
theories/Bounds_proofs.v
theories/BoxNewton_proofs.v
theories/Budget_proofs.v
theories/CGConv_proofs.v
theories/CG_proofs.v
theories/CauchySearch_proofs.v
theories/Certificate_proofs.v
theories/Cholesky.v
theories/CholeskyFacts.v
theories/Coincide_proofs.v
theories/Combos_proofs.v
theories/Compat.v
theories/Compat_proofs.v
theories/Convergence_proofs.v
theories/Convex_proofs.v
theories/DampedOp_proofs.v
theories/Descent.v
theories/DescentF64_proofs.v
theories/Dimension_proofs.v
theories/DoglegConv_proofs.v
theories/DoglegRoot.v
theories/DoglegRoot_proofs.v
theories/Dogleg_proofs.v
theories/Entry.v
theories/Entry_proofs.v
theories/F64Facts.v
theories/F64Mono.v
theories/FixedPoint.v
theories/FixedPointF64_proofs.v
theories/FixedPoint_proofs.v
theories/Frame.v
theories/GaussNewtonConv_proofs.v
theories/GaussNewton_proofs.v
theories/Golden.v
theories/GoldenF64_proofs.v
theories/Golden_proofs.v
theories/Implicit.v
theories/ImplicitFacts.v
theories/Implicit_proofs.v
theories/IndirectConv_proofs.v
theories/InexactGN_proofs.v
theories/Inexact_proofs.v
theories/InnerRoot.v
theories/Inner_proofs.v
theories/Invariance_proofs.v
theories/Isometry_proofs.v
theories/Iterate.v
theories/Iterate_proofs.v
theories/Kanto_proofs.v
theories/LBFGS.v
theories/LBFGSCompact.v
theories/LBFGSConv_proofs.v
theories/LBFGSDirect.v
theories/LBFGSFacts.v
theories/LBFGS_proofs.v
theories/LMLocal_proofs.v
theories/LMPath_proofs.v
theories/LeastSquares_proofs.v
theories/Limit_proofs.v
theories/LinAlg.v
theories/LinAlgFacts.v
theories/LinFacts.v
theories/LogDet.v
theories/Minimisers.v
theories/Minimisers_proofs.v
theories/NMConvex_proofs.v
theories/NelderMead.v
theories/NelderMeadMoves_proofs.v
theories/NelderMead_proofs.v
theories/NewtonChord.v
theories/NewtonChord_proofs.v
theories/NewtonF64_proofs.v
theories/NewtonMono_proofs.v
theories/NewtonRate_proofs.v
theories/Nonexpansive_proofs.v
theories/Num.v
theories/NumDiv.v
theories/NumF64.v
theories/NumF64_facts.v
theories/NumFacts.v
theories/NumFin.v
theories/NumSq.v
theories/Optax.v
theories/Optax_proofs.v
theories/Path_proofs.v
theories/Progress_proofs.v
theories/Prop_Autodiff.v
theories/Prop_Aux.v
theories/Prop_BFGS.v
theories/Prop_BFGSConv.v
theories/Prop_BFGSSuper.v
theories/Prop_Batch.v
theories/Prop_Bisection.v
theories/Prop_BisectionF64.v
theories/Prop_Bounds.v
theories/Prop_BoxNewton.v
theories/Prop_Budget.v
theories/Prop_CG.v
theories/Prop_CGConv.v
theories/Prop_CauchySearch.v
theories/Prop_Certificate.v
theories/Prop_Coincide.v
theories/Prop_Combos.v
theories/Prop_Compat.v
theories/Prop_Convergence.v
theories/Prop_Convex.v
theories/Prop_DampedOp.v
theories/Prop_DescentF64.v
theories/Prop_Dimension.v
theories/Prop_Dogleg.v
theories/Prop_DoglegConv.v
theories/Prop_DoglegRoot.v
theories/Prop_Entry.v
theories/Prop_FixedPoint.v
theories/Prop_FixedPointF64.v
theories/Prop_GaussNewton.v
theories/Prop_GaussNewtonConv.v
theories/Prop_Golden.v
theories/Prop_GoldenF64.v
theories/Prop_Implicit.v
theories/Prop_IndirectConv.v
theories/Prop_Inexact.v
theories/Prop_InexactGN.v
theories/Prop_Inner.v
theories/Prop_Invariance.v
theories/Prop_Isometry.v
theories/Prop_Iterate.v
theories/Prop_Kanto.v
theories/Prop_LBFGS.v
theories/Prop_LBFGSConv.v
theories/Prop_LMLocal.v
theories/Prop_LMPath.v
theories/Prop_LeastSquares.v
theories/Prop_Limit.v
theories/Prop_Minimisers.v
theories/Prop_NMConvex.v
theories/Prop_NelderMead.v
theories/Prop_NelderMeadMoves.v
theories/Prop_NewtonChord.v
theories/Prop_NewtonF64.v
theories/Prop_NewtonMono.v
theories/Prop_NewtonRate.v
theories/Prop_Nonexpansive.v
theories/Prop_Optax.v
theories/Prop_Path.v
theories/Prop_Progress.v
theories/Prop_PyTree.v
theories/Prop_QNRun.v
theories/Prop_Queries.v
theories/Prop_Rates.v
theories/Prop_Related.v
theories/Prop_Resume.v
theories/Prop_Shift.v
theories/Prop_SimplexEntry.v
theories/Prop_Stall.v
theories/Prop_StaticState.v
theories/Prop_Steps.v
theories/Prop_Success.v
theories/Prop_SuccessTrust.v
theories/Prop_Together.v
theories/Prop_Tolerance.v
theories/Prop_TreeErrors.v
theories/Prop_TreeOp.v
theories/Prop_TrustGlobal.v
theories/Prop_TrustLocal.v
theories/Prop_TrustRegion.v
theories/Prop_Units.v
theories/Prop_Unroll.v
theories/Prop_Verbose.v
theories/Prop_Wrappers.v
theories/PyTree.v
theories/PyTree_proofs.v
theories/QNRun_proofs.v
theories/QuasiNewton.v
theories/Queries_proofs.v
theories/Rates_proofs.v
theories/Related_proofs.v
theories/Results.v
theories/Resume_proofs.v
theories/RootFind.v
theories/Search.v
theories/Shift_proofs.v
theories/SimplexEntry.v
theories/SimplexEntry_proofs.v
theories/SolvableFacts.v
theories/Solvers.v
theories/Spec_Autodiff.v
theories/Spec_Aux.v
theories/Spec_BFGSConv.v
theories/Spec_BFGSSuper.v
theories/Spec_Batch.v
theories/Spec_Bisection.v
theories/Spec_Bounds.v
theories/Spec_BoxNewton.v
theories/Spec_Budget.v
theories/Spec_CG.v
theories/Spec_CGConv.v
theories/Spec_CauchySearch.v
theories/Spec_Certificate.v
theories/Spec_Coincide.v
theories/Spec_Combos.v
theories/Spec_Compat.v
theories/Spec_Convergence.v
theories/Spec_Convex.v
theories/Spec_DescentF64.v
theories/Spec_Dimension.v
theories/Spec_DoglegRoot.v
theories/Spec_Entry.v
theories/Spec_Examples.v
theories/Spec_Golden.v
theories/Spec_Implicit.v
theories/Spec_IndirectConv.v
theories/Spec_Inner.v
theories/Spec_Invariance.v
theories/Spec_Isometry.v
theories/Spec_Iterate.v
theories/Spec_LBFGS.v
theories/Spec_LBFGSConv.v
theories/Spec_LMPath.v
theories/Spec_Limit.v
theories/Spec_Lin.v
theories/Spec_NMConvex.v
theories/Spec_NelderMead.v
theories/Spec_NewtonChord.v
theories/Spec_NewtonF64.v
theories/Spec_NewtonMono.v
theories/Spec_Nonexpansive.v
theories/Spec_Optax.v
theories/Spec_PyTree.v
theories/Spec_Queries.v
theories/Spec_Rates.v
theories/Spec_Related.v
theories/Spec_Resume.v
theories/Spec_Search.v
theories/Spec_Shift.v
theories/Spec_SimplexEntry.v
theories/Spec_Solvable.v
theories/Spec_StaticState.v
theories/Spec_Steps.v
theories/Spec_Success.v
theories/Spec_Together.v
theories/Spec_Tolerance.v
theories/Spec_TreeOp.v
theories/Spec_Units.v
theories/Spec_Unroll.v
theories/Spec_Vec.v
theories/Spec_Verbose.v
theories/Spec_Wrappers.v
theories/Stall_proofs.v
theories/StaticState.v
theories/StaticState_proofs.v
theories/Steps_proofs.v
theories/SuccessTrust_proofs.v
theories/Success_proofs.v
theories/Together_proofs.v
theories/Tolerance_proofs.v
theories/TreeErrors_proofs.v
theories/TreeOp.v
theories/TreeOp_proofs.v
theories/TrustGlobal_proofs.v
theories/TrustLocal_proofs.v
theories/TrustRegion_proofs.v
theories/Units_proofs.v
theories/Unroll.v
theories/Unroll_proofs.v
theories/Vec.v
theories/VecFacts.v
theories/Verbose.v
theories/Verbose_proofs.v
theories/Wrappers_proofs.v
