-Q theories Verif
theories/Base.v
theories/Spec/LinAlg.v
theories/Model/LinearOperator.v
theories/Spec/OperatorExpr.v
theories/Proof/Algebra.v
theories/Proof/LinearOperator.v
theories/Properties/LinearOperator.v
theories/Model/Interval.v
theories/Spec/Interval.v
theories/Proof/Interval.v
theories/Proof/IntervalSpec.v
theories/Properties/Interval.v
theories/Model/Inner.v
theories/Spec/Inner.v
theories/Proof/Inner.v
theories/Properties/Inner.v
theories/Model/Arnoldi.v
theories/Proof/IpTheory.v
theories/Spec/Arnoldi.v
theories/Proof/ArnoldiRel.v
theories/Proof/Arnoldi.v
theories/Proof/HouseArnoldi.v
theories/Proof/ArnoldiAll.v
theories/Proof/ArnoldiExample.v
theories/Properties/Arnoldi.v
theories/Model/Solver.v
theories/Model/LinearSystem.v
theories/Model/Krylov.v
theories/Spec/Solver.v
theories/Proof/Solver.v
theories/Proof/SolverInv.v
theories/Proof/Projected.v
theories/Spec/Krylov.v
theories/Proof/Gmres.v
theories/Proof/LinearSystem.v
theories/Properties/Solver.v
theories/Properties/Gmres.v
theories/Proof/Minres.v
theories/Properties/Minres.v
theories/Proof/CgTheory.v
theories/Proof/Cg.v
theories/Properties/Cg.v
theories/Model/Projection.v
theories/Model/Deflation.v
theories/Model/Poly.v
theories/Spec/Projection.v
theories/Proof/Qr.v
theories/Proof/QrExist.v
theories/Proof/Projection.v
theories/Spec/Deflation.v
theories/Proof/Ext.v
theories/Proof/Logged.v
theories/Proof/Poly.v
theories/Proof/Deflation.v
theories/Properties/Projection.v
theories/Properties/Deflation.v
theories/Properties/Poly.v
theories/Model/Timings.v
theories/Proof/Timings.v
theories/Properties/Timings.v
theories/Model/ResNorms.v
theories/Proof/ResNorms.v
theories/Properties/ResNorms.v
theories/Model/Bounds.v
theories/Proof/Bounds.v
theories/Properties/Bounds.v
theories/Model/Recycling.v
theories/Spec/Recycling.v
theories/Proof/Recycling.v
theories/Properties/Recycling.v
theories/Model/Ritz.v
theories/Spec/Ritz.v
theories/Proof/Ritz.v
theories/Properties/Ritz.v
theories/Model/ArnoldiProjected.v
theories/Proof/ArnoldiProjected.v
theories/Properties/ArnoldiProjected.v
theories/Spec/Svd.v
theories/Model/Angles.v
theories/Spec/Angles.v
theories/Proof/Spectral.v
theories/Proof/Svd.v
theories/Proof/Angles.v
theories/Properties/Angles.v
theories/Model/DeflRitz.v
theories/Model/Arnoldifyer.v
theories/Spec/Arnoldifyer.v
theories/Proof/ObliqueNorm.v
theories/Proof/Arnoldifyer.v
theories/Properties/Arnoldifyer.v
theories/Spec/DeflRitz.v
theories/Proof/DeflRitz.v
theories/Proof/DeflRel.v
theories/Properties/DeflRitz.v
theories/Model/Convenience.v
theories/Spec/Convenience.v
theories/Properties/Convenience.v
theories/Model/Calls.v
theories/Model/Evaluators.v
theories/Spec/Calls.v
theories/Proof/Calls.v
theories/Proof/Evaluators.v
theories/Properties/Calls.v
theories/Properties/Evaluators.v
theories/Properties/Apriori.v
theories/Properties/ApproxKrylov.v
theories/Spec/Rates.v
theories/Proof/Eigen.v
theories/Proof/Chebyshev.v
theories/Proof/Rates.v
theories/Properties/Rates.v
theories/Properties/RatesDeflated.v
theories/Proof/Weinstein.v
theories/Properties/Inclusion.v
theories/Model/BoundPseudo.v
theories/Model/Pseudo.v
theories/Spec/BoundPseudo.v
theories/Spec/Pseudo.v
theories/Proof/BoundPseudo.v
theories/Proof/Pseudo.v
theories/Proof/BoundPseudoCg.v
theories/Properties/BoundPseudo.v
theories/Properties/Pseudo.v
theories/Proof/Perturb.v
theories/Properties/Perturb.v
theories/Properties/PseudoExample.v
theories/Model/Measures.v
theories/Spec/Measures.v
theories/Proof/Measures.v
theories/Properties/Measures.v
theories/Spec/Dtype.v
theories/Model/Dtype.v
theories/Proof/Dtype.v
theories/Properties/Dtype.v
theories/Proof/RealRun.v
theories/Properties/DtypeRun.v
theories/Proof/RealProj.v
theories/Proof/QrReal.v
theories/Properties/DtypeDefl.v
theories/Model/Construct.v
theories/Properties/Construct.v
theories/Spec/Agree.v
theories/Proof/Agree.v
theories/Properties/Agree.v
theories/Spec/DeflAgree.v
theories/Proof/DeflAgree.v
theories/Properties/DeflAgree.v
theories/Spec/DeflCount.v
theories/Proof/DeflCount.v
theories/Properties/DeflCount.v
theories/Model/Restarted.v
theories/Proof/Restarted.v
theories/Properties/Restarted.v
theories/Proof/ErrInv.v
theories/Proof/ErrTheory.v
theories/Properties/Errnorms.v
theories/Model/RecyclingRun.v
theories/Spec/RecyclingRun.v
theories/Proof/RecyclingRun.v
theories/Properties/RecyclingRun.v
theories/Proof/RestartErr.v
theories/Properties/RestartErr.v
theories/Model/Shortcuts.v
theories/Spec/Shortcuts.v
theories/Proof/Shortcuts.v
theories/Properties/Shortcuts.v
theories/Proof/Indefinite.v
theories/Properties/Indefinite.v
theories/Properties/RecyclingOutcome.v
