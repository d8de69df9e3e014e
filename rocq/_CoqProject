-Q theories Verif
theories/Prelude.v
theories/Vec.v
theories/Mat.v
theories/LinAlg.v
theories/Loop.v
theories/LoopProofs.v
theories/LoopTheorems.v
theories/Base.v
theories/BaseProofs.v
theories/BaseTheorems.v
theories/Proj.v
theories/ProjProofs.v
theories/ProjTheorems.v
theories/SimplexProofs.v
theories/SimplexTheorems.v
theories/Prox.v
theories/ProxProofs.v
theories/ProxTheorems.v
theories/Bisection.v
theories/BisectionProofs.v
theories/BisectionTheorems.v
theories/BoxSection.v
theories/BoxSectionProofs.v
theories/BoxSectionTheorems.v
theories/SparseSimplex.v
theories/SparseSimplexProofs.v
theories/SparseSimplexTheorems.v
theories/Isotonic.v
theories/IsotonicProofs.v
theories/IsotonicTheorems.v
theories/Loss.v
theories/LossProofs.v
theories/LossTheorems.v
theories/Run.v
theories/Backtracking.v
theories/BacktrackingProofs.v
theories/BacktrackingTheorems.v
theories/Zoom.v
theories/ZoomProofs.v
theories/ZoomTheorems.v
theories/While.v
theories/HagerZhang.v
theories/HagerZhangProofs.v
theories/HagerZhangTheorems.v
theories/ProxGrad.v
theories/ProxGradProofs.v
theories/ProxGradTheorems.v
theories/QuasiNewton.v
theories/QuasiNewtonProofs.v
theories/QuasiNewtonTheorems.v
theories/CDQP.v
theories/CDQPProofs.v
theories/CDQPTheorems.v
theories/Objective.v
theories/ObjectiveProofs.v
theories/ObjectiveTheorems.v
theories/BlockCD.v
theories/BlockCDProofs.v
theories/BlockCDTheorems.v
theories/Broyden.v
theories/BroydenProofs.v
theories/BroydenTheorems.v
theories/LinSolve.v
theories/LinSolveProofs.v
theories/LinSolveTheorems.v
theories/IterRefine.v
theories/IterRefineTheorems.v
theories/Kkt.v
theories/KktTheorems.v
theories/EqQP.v
theories/EqQPProofs.v
theories/EqQPTheorems.v
theories/ImplicitDiff.v
theories/ImplicitDiffProofs.v
theories/ImplicitDiffTheorems.v
theories/ImplicitRun.v
theories/ImplicitRunProofs.v
theories/ImplicitRunTheorems.v
theories/Cvxpy.v
theories/CvxpyProofs.v
theories/CvxpyTheorems.v
theories/FixedPoint.v
theories/FixedPointTheorems.v
theories/GaussNewton.v
theories/GaussNewtonTheorems.v
theories/XArith.v
theories/GramSchmidt.v
theories/LM.v
theories/LMProofs.v
theories/LMTheorems.v
theories/Osqp.v
theories/OsqpProofs.v
theories/OsqpConverge.v
theories/OsqpTheorems.v
theories/OsqpInfeasTheorems.v
theories/Pytree.v
theories/PytreeProofs.v
theories/PytreeTheorems.v
theories/OsqpConvert.v
theories/OsqpConvertTheorems.v
theories/PolyhedronTheorems.v
theories/NonlinearCG.v
theories/NonlinearCGTheorems.v
theories/Anderson.v
theories/AndersonProofs.v
theories/AndersonTheorems.v
theories/StochGrad.v
theories/StochGradProofs.v
theories/StochGradTheorems.v
theories/Mirror.v
theories/MirrorTheorems.v
theories/Scipy.v
theories/ScipyTheorems.v
theories/Transport.v
theories/TransportProofs.v
theories/TransportTheorems.v
theories/Lbfgsb.v
theories/LbfgsbHess.v
theories/LbfgsbCauchy.v
theories/LbfgsbSub.v
theories/LbfgsbProofs.v
theories/LbfgsbTheorems.v
theories/Perturb.v
theories/PerturbTheorems.v
theories/ProjDeriv.v
theories/ProjDerivProofs.v
theories/IsoDerivProofs.v
theories/ProjDerivTheorems.v
theories/LinOp.v
theories/LinOpProofs.v
theories/LinOpTheorems.v
theories/OsqpOptimalityTheorems.v
theories/AuxOut.v
theories/AuxOutProofs.v
theories/AuxOutTheorems.v
theories/Optax.v
theories/OptaxProofs.v
theories/OptaxTheorems.v
theories/Bridge.v
theories/BridgeProofs.v
theories/BridgeTheorems.v
theories/Complex.v
theories/ComplexLS.v
theories/ComplexProofs.v
theories/ComplexTheorems.v
theories/Convergence.v
theories/ConvergenceProofs.v
theories/ConvergenceRuns.v
theories/ConvergenceTheorems.v
theories/Pivots.v
theories/HessianApprox.v
theories/BfgsConvergence.v
theories/BfgsConvergenceProofs.v
theories/BfgsConvergenceTheorems.v
theories/NcgConvergence.v
theories/NcgConvergenceProofs.v
theories/NcgConvergenceTheorems.v
theories/SolverObjects.v
theories/SolverObjectsTheorems.v
theories/OptError.v
theories/OptErrorProofs.v
theories/OptErrorTheorems.v
theories/CDConvergence.v
theories/CDConvergenceProofs.v
theories/CDConvergenceTheorems.v
theories/ImplicitError.v
theories/ImplicitErrorProofs.v
theories/ImplicitErrorTheorems.v
theories/Unrolled.v
theories/UnrolledProofs.v
theories/UnrolledTheorems.v
theories/GNConvergence.v
theories/GNConvergenceProofs.v
theories/GNConvergenceTheorems.v
theories/LMConvergence.v
theories/LMConvergenceProofs.v
theories/LMConvergenceTheorems.v
theories/ArmijoInterp.v
theories/ArmijoInterpTheorems.v
theories/ZoomSuccess.v
theories/ZoomSuccessProofs.v
theories/ZoomSuccessTheorems.v
theories/ZoomRuns.v
theories/ZoomRunsProofs.v
theories/ZoomRunsTheorems.v
theories/AndersonConvergence.v
theories/AndersonConvergenceProofs.v
theories/AndersonConvergenceTheorems.v
theories/SvmDual.v
theories/SvmDualProofs.v
theories/SvmDualTheorems.v
theories/BroydenConvergence.v
theories/BroydenConvergenceProofs.v
theories/BroydenConvergenceTheorems.v
theories/CDSublinear.v
theories/CDSublinearProofs.v
theories/CDSublinearTheorems.v
theories/Existence.v
theories/Compact.v
theories/ExistenceProofs.v
theories/ExistenceTransport.v
theories/ExistenceTheorems.v
theories/ExistenceTransportTheorems.v
theories/HzRuns.v
theories/HzRunsProofs.v
theories/HzRunsTheorems.v
theories/HzBoxTheorems.v
theories/QpError.v
theories/QpErrorProofs.v
theories/QpErrorTheorems.v
theories/LbfgsbConvergence.v
theories/LbfgsbConvHess.v
theories/LbfgsbConvPath.v
theories/LbfgsbConvSteps.v
theories/LbfgsbConvProofs.v
theories/LbfgsbConvRuns.v
theories/LbfgsbConvFree.v
theories/LbfgsbConvSolve.v
theories/LbfgsbConvTheorems.v
theories/Options.v
theories/OptionsProofs.v
theories/OptionsTheorems.v
theories/Calls.v
theories/CallsProofs.v
theories/CallsTheorems.v
theories/CallsHz.v
theories/CallsHzTheorems.v
