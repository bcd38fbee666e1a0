# Formal model of krypy in Rocq (Coq 8.16.1)

## What is modelled, in general

* Source: `/repo/krypy` (read as text; nothing is executed).
* Arithmetic: **exact** complex arithmetic. Scalars are elements of an arbitrary
  `C : numClosedFieldType` of mathcomp (a numeric algebraically closed field with
  conjugation, order on the real subfield and square roots; `algC` is one instance).
  Rounding, overflow, `nan` and `inf` are *not* modelled in the linear-algebra part.
  A division whose denominator is zero is not totalised: it yields the error value
  `Err DivZero` ("poison"), so no theorem can profit from `x / 0 = 0`.
* The control flow of the solver base class is modelled a second time over an
  *arbitrary* scalar type with arbitrary comparison functions. Theorems there hold for IEEE floats,
  including `nan`.
* Exceptions are values (`res A = Ok a | Err e`); the solver's `ConvergenceError`
  carries the solver state like in the Python code.
* Preallocated numpy arrays (`V`, `P`, `H`, `R`) are total functions on indices
  (`nat -> 'cV[C]_N`, `nat -> nat -> C`), initialised with 0 and changed by point updates.
  Slices that are handed to the user are read off as ranges.
* Vectors are `'cV[C]_N`, blocks are `'M[C]_(N,k)`.
* LAPACK/BLAS/numpy routines: `drotg/zrotg`, `solve_triangular`, `numpy.dot`,
  `argsort`, `min`, `max` are given explicit definitions; `eig`, `svd`, scipy's `qr` and the spectral norm are
  universally quantified functions with their mathematical specification as hypothesis.

## Layout

* `theories/Base.v` error monad, loops.
* `theories/Spec/*.v` vocabulary of the specification. Does not import the model.
* `theories/Model/*.v` definitions mirroring `/repo/krypy`, with file/line citations, no proofs.
* `theories/Proof/*.v` lemmas.
* `theories/Properties/*.v` the property theorems `Cnn_...`, and examples showing that their
  hypotheses can be met. `_partial`: only part of the property; `_refuted`: the property fails
  in the case described there.

## Trusted base

* The Coq 8.16.1 kernel (and `coqchk`).
* The libraries mathcomp (ssreflect, algebra, field, real-closed, algebra-tactics `ring`) and Coq's standard library.
* Axioms: the output of `Print Assumptions` for every theorem of `MANIFEST.json`, grouped
  (generated by `tools/axioms.py`):

<!-- axioms -->
* no axioms (closed under the global context): all other theorems of `MANIFEST.json` (464)
* `ClassicalDedekindReals.sig_forall_dec`, `ClassicalDedekindReals.sig_not_dec`, `Classical_Prop.classic`, `FunctionalExtensionality.functional_extensionality_dep`: `C38_get_step`, `C38_get_step_refuted`, `C39_get_step`, `C64_extrapolate`, `C64_extrapolate_rejected`, `C64_nan_refuted`, `C64_direct`, `C64_direct_default_refuted`, `C64_short`, `C64_unknown`
<!-- end axioms -->

* The faithfulness of the definitions in `theories/Model` to the Python source; this file and the
  comments at the definitions state all simplifications.

## Which parts of the code are modelled

Exact line numbers are in the comments at the definitions.

| Source | Model | Remarks |
|---|---|---|
| utils.py 125-157, 160-238 `ip_euclid`, `inner`, `norm_squared`, `norm` | Model/Inner.v; Model/Construct.v (`shape_vec(s)`) | |
| utils.py 214-238, 276-329 `norm` of blocks, `norm_MMlr`, `orthonormality`, `arnoldi_res` | Model/Measures.v | spectral norm as parameter |
| utils.py 241-273 `get_linearoperator` | Model/Timings.v (with timer), Model/Construct.v | no numpy.matrix |
| utils.py 332-436 `House`, `Givens` | Model/Inner.v | `drotg`/`zrotg` by their definition |
| utils.py 439-707 `Projection`, `qr` | Model/Projection.v | scipy's `qr` is an oracle with specification |
| utils.py 710-809 `angles` | Model/Angles.v | `svd`, `arccos`, `arcsin` are parameters |
| utils.py 812-851 `hegedus` | Model/Projection.v | |
| utils.py 854-1081 `Arnoldi`, `arnoldi` | Model/Arnoldi.v | all of mgs, dmgs, lanczos, house |
| utils.py 1084-1168 `arnoldi_projected` | Model/ArnoldiProjected.v | |
| utils.py 1171-1286 `ritz` | Model/Ritz.v | dense eigensolvers are oracles |
| utils.py 1289-1362 `Timer`, `Timings` | Model/Timings.v | |
| utils.py 1365-1602 LinearOperator classes | Model/LinearOperator.v, Model/Dtype.v (dtypes) | without `__repr__` |
| utils.py 106-122 `find_common_dtype`, the attributes `dtype` of `Arnoldi`, `LinearSystem` and the solvers | Model/Dtype.v | int64, float64, complex128 |
| utils.py 1605-1636 `TimedLinearOperator` | Model/Timings.v | |
| utils.py 1639-1648 `strakos` | Model/Poly.v | |
| utils.py 1651-1844 `gap`, `Interval`, `Intervals` | Model/Interval.v | |
| utils.py 1847-2003 `BoundCG`, `BoundMinres` | Model/Bounds.v | `get_step` over the standard library's reals |
| utils.py 2036-2100 `NormalizedRootsPolynomial` | Model/Poly.v | `argsort` is a parameter |
| utils.py 2103-2121 `get_residual_norms` | Model/ResNorms.v | |
| linsys.py 11-201 `LinearSystem` | Model/LinearSystem.v, Model/Construct.v (arguments), Model/Deflation.v (`get_ip_Minv_B`) | |
| linsys.py 204-274 `TimedLinearSystem`, `ConvertedTimedLinearSystem` | Model/Timings.v | |
| linsys.py 277-517 `_KrylovSolver` | Model/Solver.v | arbitrary scalars; without `__repr__` |
| linsys.py 520-1017 `Cg`, `Minres`, `Gmres` | Model/Krylov.v | |
| linsys.py, calls of A, M, Ml, Mr, ip_B and `operations` | Model/Calls.v | `axpy` not counted |
| linsys.py 1021-1081 `_RestartedSolver`, `RestartedGmres` | Model/Solver.v, Model/Restarted.v | |
| deflation.py 32-283 `ObliqueProjection`, `_DeflationMixin`, `Deflated*` | Model/Deflation.v, Model/Evaluators.v (`estimate_time`) | |
| deflation.py 285-470 `Arnoldifyer` | Model/Arnoldifyer.v | LAPACK routines are parameters; W smaller than the space |
| deflation.py 473-734 `bound_pseudo`, utils.py 2006-2033 `bound_perturbed_gmres` | Model/BoundPseudo.v (`pseudo_type="omit"`), Model/Pseudo.v | contours, eigenvalues, singular values and the scalar minimisation are parameters |
| deflation.py 737-869 `Ritz` | Model/DeflRitz.v | |
| _convenience.py `wrap_inner_product`, `cg`, `minres`, `gmres` | Model/Convenience.v | |
| recycling/generators.py, factories.py, linsys.py | Model/Recycling.v | printing not modelled |
| recycling/factories.py (RitzFactory.get, RitzFactorySimple.get on deflated solvers), linsys.py (RecyclingMinres, RecyclingGmres) | Model/RecyclingRun.v | mode ritz only; the conversion to a TimedLinearSystem is omitted (C50) |
| recycling/linsys.py (_RecyclingSolver.solve with strings), evaluators.py (RitzApriori.evaluate with strategy 'simple') | Model/Shortcuts.v | RitzApproxKrylov and the estimated times are parameters |
| recycling/evaluators.py `RitzApriori`, `RitzApproxKrylov` | Model/Evaluators.v | Bound is a parameter; sets in any order; the array of `bound_pseudo` is a parameter |

Not modelled: warnings, dtypes other than int64, float64 and complex128, `__repr__`, the packages pseudopy, scipy and numpy.

## Findings

Places where the code does not do what its documentation or the property says; each is a
theorem with suffix `_refuted` unless noted.

* LinearOperator: identity, zero and power operators and empty blocks bypass the shape checks
  (C03); `norm` accepts a negative <x,x> (C05).
* `Projection`/`qr`: absolute thresholds 1e-15 (C08, C09, C12).
* `ObliqueProjection.correct` does not apply Mr (C11).
* `Cg` with store_arnoldi divides by zero on exact convergence (C22); its P is not trimmed.
* Solvers: maxiter=0, invariant subspaces and nan end a run without exception and without
  convergence (C23); an invariant subspace skips the explicit residual (C25) and may be detected
  although the residual is not small (C28).
* `deflation.Ritz`: E and its adjoint exchanged in the residual norms, indices ignored for the
  values, M not applied in get_explicit_resnorms (C31).
* `Arnoldifyer.get` raises ValueError if the projected initial residual is 0 (C56).
* `get_residual_norms`: breakdown (C33). `Intervals.min_pos`, `max_neg` and empty sets (C36);
  `gap` with unknown mode (C37).
* `BoundCG`, `BoundMinres`: negative spectra (C38, C39). `BoundMinres` is no upper bound if the
  negative and positive eigenvalues extend over intervals of different lengths (C58), `BoundCG` with
  exclude_zeros is none if positive eigenvalues below 1e-15 of the greatest exist (C57). `strakos(1)` (C41).
* `estimate_time` raises RuntimeError, its docstring names another exception (C62).
  `RitzApproxKrylov`: mode 'direct' with the default tol=None raises TypeError, bounds that
  start with 0 give nan (C64).
* `Timer` nested in itself, `dot_adj` of empty blocks (C42). `get_ip_Minv_B` with an operator
  ip_B that does not commute with Minv (C43).
* Recycling: a generator that proposes an empty set makes the greedy loop run forever (C45),
  `RitzFactorySimple` with n_vectors=0 (C47). After a solve without iterations and deflation
  vectors the Ritz factories raise IndexError in the next solve (C81_no_pairs).
- 'RitzAprioriMinres' as vector_factory fails for negative definite systems: BoundMinres raises a ValueError (numpy.min of an empty array) that _get_best_subset does not catch, so that the second solve raises it (C82_negative). The same happens for indefinite systems whenever the Ritz value of largest magnitude is negative (C83_select, C83_solve); if it is positive, the selection succeeds (C83_positive).
- A misspelt shortcut is accepted by the first solve(); the second one raises an AttributeError (C82_misspelt).
* `operations` counts M although it is absent, the inner products of one orthogonalisation only,
  no explicit residuals, and a final residual also for no iteration and invariant subspaces (C49).
* `angles` returns principal vectors that are not orthonormal (C55).
* Convenience functions: Mr is ignored, `<` instead of `<=`, ConvergenceError instead of None,
  `wrap_inner_product` returns 1x1 arrays for blocks (C44).
* `bound_pseudo`: `pseudo_type` has no effect except for 'omit' and 'contain', the latter raises
  NotImplementedError, an invariant space gives ValueError, and the numbers for self-adjoint systems are no
  bounds, because the length of the curve is taken to be 2 delta (C69).
* `bound_pseudo`: epsilon contains the norm of Hh where a bound of <W, MA x> is needed, so epsilon is no bound of the
  perturbation of the deflated operator in general; beta contains ||M Ml b|| where ||M r0|| is needed (C71).
* `Arnoldi.dtype` ignores `ip_B`: a complex inner product with real A and v leads to complex numbers in real arrays; and it is
  int64 for integer A, v (and M), so that the normalised vectors are truncated (C73).
* `qr` with `ip_B` stores the factors in arrays with the dtype of X, also if X is integer or `ip_B` is complex (C74).
* `get_linearoperator` wraps `matvec` of a scipy LinearOperator, which raises ValueError for blocks (C75).
* `norm_MMlr` calls `norm` with an argument it does not have (C68).
* Read but not modelled: `estimate_time` refers to `utils.RuntimeError`.

## Plan per property

The plan is refined as work goes on; see `MANIFEST.json` for the theorems proved.

| Property | Model and proof idea |
|---|---|
| C01-C03 | Deep embedding of the LinearOperator classes with run-time shapes and error values; induction over expression trees. |
| C04, C05 | `inner`, `norm`, `norm_squared` over all four kinds of `ip_B`; algebra of conjugate transposes. |
| C06, C07 | `House`, `Givens` with all branches; direct algebra in C. |
| C08 | `qr` as nested loops; loop invariants for modified Gram-Schmidt. |
| C09-C11 | `Projection` and `ObliqueProjection` as matrix functions; algebra. |
| C12 | `hegedus`; completing the square. |
| C13-C18 | `Arnoldi` object as a state record with `advance`; invariants by induction on the number of calls. |
| C19, C28 | `Gmres` on top of the Arnoldi model; invariant for Givens QR; minimality by Pythagoras. |
| C20 | `Minres`; shown to compute the same minimiser as the full QR. |
| C21, C22 | `Cg`; classical induction with ghost histories. |
| C23-C26 | `_KrylovSolver` skeleton over an abstract scalar type. |
| C27 | `_RestartedSolver` over an abstract inner solver. |
| C29-C31 | `_DeflationMixin` layered over the solvers. |
| C32, C33 | `ritz`, `get_residual_norms`; eigensolver as oracle. |
| C34-C37 | `Interval`, `Intervals`, `gap` over an arbitrary real field; set iteration order is an arbitrary permutation. |
| C38, C39 | bounds over a real closed field resp. the standard library's reals (logarithms). |
| C40, C41 | polynomial product over a permutation; `strakos`. |
| C42, C50 | operator application as a state transformer over a clock oracle. |
| C43 | `get_ip_Minv_B`; refutation by a 2x2 witness plus partial result. |
| C44-C48 | wrappers, factories, recycling as functions over abstract solvers/evaluators. |
| C49 | solvers as programs over calls; the values agree with the solver models, the calls are counted. |
| C51-C56 | matrix algebra with oracles. |
| C57, C58 | eigenbasis of self-adjoint operators, Chebyshev polynomials over C; the optimality theorems of C19-C21. |
| C59-C61 | the same for the semidefinite operator P A; the optimality theorems of C29. |
| C62 | the counts of C49; sums over the kinds of operators. |
| C63, C64 | sets as lists in any order; Coq reals for the extrapolation. |
| C65 | the eigenvector basis of C57 (Krylov-Weinstein); exact residual norms of C31, C32. |
| C66 | C56 gives the compression; C33 and C21 for the small system; transfer along the orthonormal basis. |
| C67 | spectral norm as oracle; the norm of the Gram matrix is the square of the norm of the block (Cauchy-Schwarz); C13, C14 for runs. |
| C68 | unfolding. |
| C69 | the results of C56, C66; the maximum over the intervals by C35, C40 and the critical points of p; harmonic Ritz values as roots; one run evaluated for the refutation. |
| C70 | C40 for the values of p. |
| C71 | the projection of the perturbed system is P plus a correction of norm eta; triangle and Bessel inequalities; C56 for the attributes. |
| C72 | induction on the expression; the numbers of a type are closed under the operations. |
| C73 | an invariant of the states of Arnoldi and of the iterations; the square roots are taken of nonnegative numbers. |
| C74 | as C73, with the determinant formula for the inverse; Gram-Schmidt divides by norms. |
| C75 | case analysis on the kind of the objects; relates the objects to the systems of the other models. |
| C76 | uniqueness of minimisers and Galerkin approximations, applied to C19-C21; orthogonality of the CG residuals. |
| C77 | the projection P and the optimality of C29 depend on span(U) only; uniqueness of the optimal approximation. |
| C78 | induction on the number of eigenvectors; dimension of the complement of U; K_n is contained in the deflated Krylov space plus U. |
| C79 | `RestartedGmres`: C27 with the run of `Gmres` as inner solver; a GMRES step is at least as good as a step of steepest descent. |
| C80 | invariant for errnorms; the error of CG has nonnegative inner products with the search directions; MINRES approximations are averages of those of CG. |
| C81 | composition of C29, C31 and C48: Ritz vectors of a self-adjoint problem are orthonormal, hence admissible deflation vectors; induction on the sequence of calls. |
| C82 | case analysis on the string, C45 and C46 for the selection, positive Ritz values of positive definite systems for BoundCG and BoundMinres, induction on the calls as for C81. |
| C83 | induction on the greedy search: the dominant value is never chosen by RitzSmall (C46_small), so that the search reaches its complement, where BoundMinres raises a ValueError (C39). |
| C84 | unfolding one step of the sequence; a solver that returns has computed its oblique projection; C47 for the choice. |
