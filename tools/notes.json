{
 "C01": {
  "note": "All expressions built from the operator classes; every conforming expression is built and acts as the matrix it denotes."
 },
 "C03": {
  "note": "False as stated for the operators that carry no shape checks (identity, zero, powers, empty blocks): the _refuted theorems give the witnesses; the rest is proved by C03_shape_safety_partial and the rejection theorems."
 },
 "C04": {
  "status": "proved",
  "note": "The _refuted theorem records that the Hermitian hypothesis is needed."
 },
 "C05": {
  "note": "False for negative <x,x> (C05_negative_accepted_refuted); the value and the rejection of complex <x,y> are proved. Single columns."
 },
 "C36": {
  "note": "min/max/min_abs/max_abs proved; min_pos and max_neg fail when 0 belongs to the set, and queries on the empty set return an exception object (refuted theorems)."
 },
 "C37": {
  "note": "Proved for both modes; an unknown mode returns None instead of raising (refuted theorem)."
 },
 "C13": {
  "note": "All four variants; exact arithmetic; the spectral norm is a parameter, of which nothing is assumed here."
 },
 "C14": {
  "note": "All four variants, exact arithmetic."
 },
 "C15": {
  "also": [
   "C13_arnoldi_relation",
   "C14_orthonormal"
  ],
  "note": "Lanczos = any other variant on the same data by uniqueness of the relation; arn_cfg admits lanczos exactly with self-adjoint A."
 },
 "C16": {
  "also": [
   "C13_arnoldi_relation",
   "C13_matrix_form",
   "C14_orthonormal",
   "C15_C16_same_as"
  ],
  "note": "The theorems for reachable states hold for house via C16_house_admissible."
 },
 "C17": {
  "note": "Also recorded: if A M v = 0 the first step divides by zero (nan in floating point)."
 },
 "C18": {
  "note": "For every k up to the number of basis vectors, all variants."
 },
 "C23": {
  "note": "False as stated in three cases (maxiter=0, invariant Krylov subspace, nan), each given by a _refuted theorem; proved otherwise, for arbitrary scalars and comparisons. The methods Cg, Minres, Gmres are instances of the skeleton."
 },
 "C24": {
  "note": "For arbitrary scalars and comparisons, including nan."
 },
 "C25": {
  "note": "Proved for converged runs with at least one iteration and for ConvergenceError; runs that end with an invariant subspace record the updated norm (refuted theorem)."
 },
 "C26": {
  "note": "Skeleton level; the hypothesis on the initial residual is discharged for LinearSystem.get_residual in C52."
 },
 "C27": {
  "note": "For every inner solver with nonempty resnorms."
 },
 "C19": {
  "note": "All systems, preconditioners, inner products, four orthogonalisations, both exits (return and ConvergenceError); exact arithmetic."
 },
 "C28": {
  "note": "False as stated: the invariance test H_(n,n-1)/||H|| <= 1e-14 can end the run early without exception (C28_premature_stop_refuted, residual norm 1 after the run). Proved: always a normal return within N iterations, with the tolerance reached unless that test fired with H_(n,n-1) > 0. The spectral norm is a parameter bounding the entries. CG has no such test and always reaches the tolerance (C28_cg_converges)."
 },
 "C52": {
  "note": "Shape (N,1)."
 },
 "C20": {
  "note": "All four ortho variants; exact arithmetic; Ml A Mr self-adjoint in ip_B, no definiteness needed. If the (singular) operator makes the next diagonal entry of R zero the model stops with a division by zero (numpy: nan)."
 },
 "C21": {
  "note": "All SPD systems, preconditioners M, Ml, Mr (Ml A Mr self-adjoint positive definite in ip_B), initial guesses, both exits; exact arithmetic."
 },
 "C22": {
  "note": "False if the exact solution is reached: the last column of V is divided by 0 (C22_exact_convergence_refuted). Proved for every other run: full Lanczos relation with the trimmed arrays, M-orthonormality, H real symmetric tridiagonal. P is not trimmed by the code (columns beyond iter+1 may be present); after ConvergenceError the arrays are one column shorter than the run.",
  "status": "partial"
 },
 "C08": {
  "status": "proved",
  "note": "Holds whenever the columns are separated by 1e-15 (C08_qr) or R_ii >= 1e-15 (C08_qr_posteriori); spans agree in every case (C08_span). C08_threshold_refuted and C08_rank_deficient_refuted show what happens below the threshold. scipy.linalg.qr is an oracle with its documented specification, met by some_qr."
 },
 "C09": {
  "status": "proved",
  "note": "All N, k (including 0), X, Y, ip_B, orthogonalize, iterations >= 1 with nonsingular <Y,X>. With Y=None and orthogonalize=True the columns of X have to be separated by 1e-15 in a given ip_B; C09_small_refuted shows that this is needed."
 },
 "C10": {
  "status": "proved",
  "note": "Shapes that do not match are excluded by the types of the model."
 },
 "C12": {
  "status": "proved",
  "note": "Optimal above the internal threshold 1e-15, never worse than the zero guess; C12_threshold_refuted for the case below the threshold."
 },
 "C11": {
  "status": "partial",
  "note": "False as stated: correct does not apply Mr to the correction (C11_right_preconditioner_refuted). Proved: the formula of the correction for every Mr, and the projected, U-orthogonal residual whenever Mr leaves U unchanged (in particular without Mr)."
 },
 "C29": {
  "status": "proved",
  "note": "For Mr that leave U unchanged (see C11). Deflated GMRES, MINRES and CG: optimality over the deflated search space, true residual norms, orthogonality to U, finite termination, and equality with the plain solver for U=None."
 },
 "C30": {
  "status": "proved",
  "note": "U is the orthonormalised attribute projection.U, a basis of span(U). C of DeflatedCg is compared with the stored Lanczos vectors (store_arnoldi=True). The cached value of B_ is not modelled."
 },
 "C43": {
  "status": "partial",
  "note": "False for an operator ip_B that does not commute with Minv (C43_noncommuting_refuted); proved for no ip_B, callable ip_B, and commuting operators; ArgumentError without Minv."
 },
 "C33": {
  "note": "False as stated for a breakdown with a rank deficient block (C33_breakdown_refuted); proved for every leading block of full column rank, together with the start value, monotonicity, the square case and the self_adjoint shortcut."
 },
 "C40": {
  "note": "argsort is only assumed to return a permutation of the indices. C40_extrema covers minmax_candidates for real roots, assuming that the polynomial root finder returns all roots. Zero roots (division by zero) are excluded."
 },
 "C41": {
  "status": "proved",
  "note": "C41_single_refuted records that n=1 is a division by zero."
 },
 "C42": {
  "note": "C42_nested_refuted and C42_empty_adjoint_refuted are two corner cases where the claim fails: a timer nested in itself and dot_adj of a timed non-square operator on an empty block."
 },
 "C50": {
  "note": "User supplied operators and inner products are pure functions; adjoints are compared for nonempty blocks (see C42_empty_adjoint_refuted). dtypes and flat_vecs are not modelled."
 },
 "C38": {
  "note": "False in two cases: spectra of negative numbers are accepted with base 0 (C38_negative_refuted), and get_step returns 0 if base is 0 (C38_get_step_refuted). Everything else is proved for all lists of eigenvalues. get_step and real steps use the real numbers of the Coq standard library."
 },
 "C39": {
  "note": "False in two cases: negative definite spectra raise numpy's ValueError (C39_negative_refuted), and the test for non-negativity is not invariant under scaling (C39_scaling_refuted). C39_get_step is about even steps, where the bound changes."
 },
 "C45": {
  "status": "proved",
  "note": "C45_terminates is for generators that propose non-empty subsets of the remaining indices, as those of krypy do (C46_max_vectors); C45_empty_proposal_refuted shows that this is needed. The evaluator may keep a state; AssumptionErrors of it are skipped, other errors are passed on."
 },
 "C46": {
  "status": "proved",
  "note": "numpy.argsort is assumed to return a sorting permutation; list(set) may have any order. Ritz values equal to 0 are never proposed by RitzExtremal for self-adjoint problems."
 },
 "C47": {
  "note": "False for n_vectors=0 with lm, lr and li: all vectors are selected (C47_zero_refuted). Proved for all other cases. numpy.argsort is assumed to return a sorting permutation."
 },
 "C48": {
  "status": "proved",
  "note": "The deflated solver, the conversion to TimedLinearSystem and the factories are arbitrary functions that may fail. Positional arguments of solve() after the first are passed to the solver before U (they collide with U, a TypeError); the model has keyword arguments only."
 },
 "C32": {
  "status": "proved",
  "note": "The results of scipy's eigenvalue routines are assumed to satisfy the (generalised) eigenvalue equation with normalised (non-zero) columns. Stated for any relation A V_n = V H with orthonormal V in any inner product; C32_arnoldi for the output of the modelled Arnoldi process. A generalised eigenvalue 0 of the harmonic problem (division by zero) gives no value for this pair. n = 0 and dtypes are not modelled."
 },
 "C51": {
  "status": "proved",
  "note": "For all H, P (any matrix, not only projections), k and n >= 1. When the process terminates early the last column is only approximately invariant (the stopping test compares with 1e-14 times the norm), which the theorem states with the discarded remainder. C51_perturbed states the perturbation property of the docstring with the sign of E_i corrected: P H = ... holds with the error matrix -v_{n+1} F <U, .>, the docstring has +. A zero first vector is a division 0/0 in the code, which is an error value here."
 },
 "C53": {
  "status": "proved",
  "note": "For linearly independent columns (separated by 1e-15 when Gram-Schmidt is used). The SVD and QR of scipy are assumed to be correct; arccos, arcsin and pi/2 are parameters with four stated properties. Existence of an SVD (spectral theorem) and uniqueness of the singular values are proved, so that the assumptions are satisfiable and the result does not depend on the SVD."
 },
 "C55": {
  "status": "partial",
  "note": "C55_refuted: with two or more different angles up to 45 degrees the returned U is not orthonormal (in the example the first column has norm 5/4), contrary to the documentation; utils.py 788-796. Proved: U and V are bases of the ranges and the vectors of the smaller space are orthonormal (C55_bases); all documented relations hold if the angles up to 45 degrees coincide (C55_vectors_partial)."
 },
 "C31": {
  "note": "Ritz and harmonic Ritz pairs: proved for every set of attributes with the relations of Spec/DeflRitz.v, which are proved for the runs of the three deflated solvers (C31_gmres, C31_minres, C31_cg); the dense eigenvalue routines are assumed to be correct. The harmonic pairs need an Arnoldi relation without remainder. The residual norms are right if E = <U, Ml A Mr U> is Hermitian, and wrong otherwise: E and its adjoint are exchanged in the matrix S of the constructor (C31_resnorm_refuted). get_explicit_residual ignores the indices for the values (C31_explicit_indices_refuted) and get_explicit_resnorms does not apply M (C31_explicit_resnorm_refuted). For n + m = 0 coeffs has one dimension in the code; get_vectors is not modelled for it."
 },
 "C44": {
  "note": "The returned solver is the one of the class called with all arguments except Mr, which is ignored (C44_Mr_unused, C44_Mr_refuted). If the function returns, the solution is returned shaped like b exactly if the relative residual norm of out.xk is less than tol, None otherwise (all six cases, with and without U). Refuted: resnorms[-1] == tol gives None although the solver stopped as converged (C44_strict_refuted); reaching maxiter raises ConvergenceError instead of returning None (C44_Mr_refuted); wrap_inner_product returns 1x1 arrays for blocks (C44_wrap_refuted), so that U with more than one column raises ValueError."
 },
 "C54": {
  "note": "J L = M and M = <[V_n,U], M Ml A Mr [V_n,U]> hold for every set of attributes with the relations of Spec/DeflRitz.v, which the runs of the deflated solvers satisfy (C31_gmres, C31_minres, C31_cg). C54_init needs the Arnoldi relation without remainder and a correct rank decision (rank_args: every diagonal entry of the pivoted QR factor is 0 or above the threshold of 1e-14 times the norm)."
 },
 "C56": {
  "note": "Proved for runs of DeflatedGmres, DeflatedMinres and DeflatedCg with an Arnoldi relation without remainder, for a correct rank decision and for W smaller than [V_n,U]. The LAPACK routines are parameters with specifications (Spec/Arnoldifyer.v). If the projected initial residual is 0 then H has no rows and get raises ValueError (C56_no_rows_refuted)."
 },
 "C49": {
  "status": "partial",
  "note": "The solvers are written as programs over calls of A, M, Ml, Mr and ip_B (Model/Calls.v) whose results are those of the solver models (C49_*_program); C49_*_calls give the exact counts of every run (any x0, ortho, explicit_residual; no exact_solution, Ml b nonzero). operations(n) equals them for n >= 1, no initial guess, no explicit_residual, M given and, for Gmres, ortho='mgs', for Minres 'lanczos' (C49_*_operations). It does not for n = 0, for a run stopped by an invariant subspace, for the other orthogonalisations, without M, and with explicit_residual=True (C49_*_refuted). axpy is not counted. As ip_B one call per inner product with one column is counted."
 },
 "C57": {
  "note": "Proved for exclude_zeros=False without restriction and for exclude_zeros=True if the eigenvalues lie between numbers that are not ignored. With exclude_zeros=True tiny positive eigenvalues are ignored and the bound fails (C57_tiny_refuted). Proof with Chebyshev polynomials and an orthonormal eigenbasis."
 },
 "C58": {
  "note": "Positive definite case: proved. Indefinite case: proved if the negative and the positive numbers extend over intervals of equal length and none is negligible; false for different lengths (C58_unequal_refuted: eigenvalues -1, 4, 9)."
 },
 "C59": {
  "note": "Proved under the conditions of C29 (Mr leaves U unchanged). With exclude_zeros=True the remaining eigenvalues must lie between numbers that are not ignored, see C57."
 },
 "C60": {
  "note": "Proved if the negative and the positive numbers extend over intervals of equal length and none is negligible; without deflation vectors this is C58, which is false for different lengths (C58_unequal_refuted)."
 },
 "C61": {
  "note": "Proved. Example: one of two eigenvectors of a 2x2 system."
 },
 "C62": {
  "note": "Proved for the model in a real closed field; the counts are those of C49. The docstring names another exception than the RuntimeError that is raised. Example: a timed GMRES run of one step."
 },
 "C63": {
  "note": "Proved for every class Bound and all iteration orders of sets. Example: three Ritz values, one of them inexact."
 },
 "C64": {
  "note": "Coq reals. Refuted: mode direct with the default tol=None raises TypeError (C64_direct_default_refuted); if the first bound is 0 and another one is 0, the result is nan (C64_nan_refuted). Example: the bounds 1, 1/2, 1/8."
 },
 "C65": {
  "note": "Proved for exact eigendecompositions of the small matrices. Example: a 3x3 matrix with two Lanczos vectors."
 },
 "C66": {
  "note": "Proved for pseudo_type='omit'; the pseudospectral branches are not modelled. LAPACK routines are parameters with their specification. The minimal residual norms are characterised as long as the operator is injective on the Krylov spaces. Example: the run of C56_run."
 },
 "C67": {
  "note": "numpy.linalg.norm(., 2) is a parameter with its specification (its existence for every nonempty matrix is C67_oracle). Example: C67_run, C67_not_orthonormal."
 },
 "C68": {
  "note": "False for all data with Ml r != 0: TypeError, because norm is called with an argument inner_product which it does not have."
 },
 "C69": {
  "note": "The contours of the package pseudopy, eigenvalues, singular values and scipy.optimize.minimize_scalar are parameters. False: pseudo_type has no effect except for 'omit' and 'contain' (C69_pseudo_type_refuted), an invariant space gives ValueError (C69_invariant_refuted), and for self-adjoint systems the numbers are no bounds, because 2 delta is used for the length of the curve: C69_bound_refuted has a run whose residual norm is greater. Not proved: that the numbers for paths are bounds."
 },
 "C70": {
  "note": "The contour is a parameter. Example: C70_run."
 },
 "C71": {
  "note": "The theorems have a bound c0 of <W, MA x> in the place of ||Hh||; without a condition on <W, MA x> epsilon is no bound (C71_epsilon_refuted). For a nonzero x0 the norm of M r0 may exceed ||M Ml b||, then nothing is said about beta. Example: C71_run."
 },
 "C72": {
  "note": "The types int64, float64 and complex128 only. The numbers are exact: float64 stands for the real numbers. Example: C72_example."
 },
 "C73": {
  "note": "Arnoldi.dtype ignores ip_B: with a real operator, a real vector and a complex Hermitian positive definite ip_B it is float64, but H[0,0] is not real (C73_ip_refuted). For integer operators and vectors without preconditioner or with an integer preconditioner it is int64, but the normalised first basis vector is not integer (C73_int_refuted). Examples: C73_example, C73_system."
 },
 "C74": {
  "note": "scipy.linalg.qr is assumed to return real factors for real arrays (met by real_qr, C74_scipy_qr). With ip_B given, qr stores Q and R in arrays with the dtype of X: for an integer X they are int64 but Q is not integer (C74_qr_int_refuted); for a real X and a complex ip_B they are float64 but R is not real (C74_qr_ip_refuted). Examples: C74_scipy_qr, C74_system."
 },
 "C75": {
  "note": "A scipy LinearOperator is wrapped with its method matvec, so that it can be applied to a column but raises ValueError for blocks with several columns, as they occur with deflation (C75_scipy_refuted). flat_vecs is also True if no array is given (C75_x0). The branch for numpy.matrix is unreachable and not modelled. Example: C75_example."
 },
 "C76": {
  "note": "Exact arithmetic. Equality of the approximations of the minimal residual methods needs an injective Ml A Mr and equal numbers of iterations. Examples: C76_runs, C76_scaled_case, C76_left_case, C76_reduced_case, C76_peaks_example (residual norms 1/2 of Cg and 5^(-1/2) of Gmres)."
 },
 "C77": {
  "note": "Exact arithmetic; for the solvers Mr is the identity on the span of U (as in C29). Equality of the approximations of the minimal residual methods needs an injective Ml A Mr and equal numbers of iterations. Examples: C77_same_span, C77_runs."
 },
 "C78": {
  "note": "Exact arithmetic. Runs that end with ConvergenceError (maxiter reached) are included. The bound N - k for the minimal residual methods needs an injective Ml A Mr. For the deflated solvers Mr is the identity on the span of U (as in C29). Examples: C78_plain_case, C78_deflated_case, C78_runs."
 },
 "C79": {
  "note": "Exact arithmetic; the norm oracle of Arnoldi.advance bounds the entries of the matrix (true for the 2-norm and the Frobenius norm) in C79_converges. Example: C79_fov, C79_run."
 },
 "C80": {
  "note": "Exact arithmetic; the right hand side Ml b is not zero. Without the condition on M the entries of errnorms may increase (C80_M_needed). Example: C80_run."
 },
 "C81": {
  "note": "Exact arithmetic; the right hand sides Ml b are not zero; if the projections are orthogonalised, the norms of v and Ml A Mr v are at least 1e-15 times the norm of v in the inner product of M^-1. scipy.linalg.eigh is assumed to return orthonormal eigenvectors. The IndexError after a solve without Ritz pairs is a finding (C81_no_pairs). Examples: C81_run, C81_repeat_run."
 },
 "C82": {
  "note": "Assumptions as for C81. The evaluator RitzApproxKrylov is arbitrary, but raises AssumptionErrors only for positive Ritz values; that RitzApriori with BoundCG and BoundMinres does so is proved. The times that RitzApriori estimates are arbitrary elements of an ordered type. The ValueError for negative definite systems (C82_negative) and the late AttributeError (C82_misspelt) are findings. Example: C82_run."
 },
 "C83": {
  "note": "A finding: MINRES is meant for such indefinite systems. RitzSmall without max_vectors leaves the value of largest magnitude to the end (C46), BoundMinres of negative values raises a ValueError (C39), and only AssumptionErrors are caught. The deflated solver is arbitrary. The gap around 0 in C83_positive is needed: values between -1e-15 times the dominant one and -1e-15 are neither positive nor negative for BoundMinres. Example: C83_example (Ritz values -2 and 1, and 2 and -1)."
 },
 "C84": {
  "note": "C84_minres and C84_gmres relate the sequence to the models of the deflated solvers. The solver that a ConvergenceError carries is not modelled here. C84_choice combines C47 with the Ritz pairs of a deflated solver (mode 'ritz'). Example: C84_example (an InnerProductError of norm(), and a choice by residual norms)."
 }
}
