{
 "claims": [
  {
   "property": "C01",
   "status": "proved",
   "theorems": [
    "C01_composite_operator_action"
   ],
   "note": "All expressions built from the operator classes; every conforming expression is built and acts as the matrix it denotes."
  },
  {
   "property": "C02",
   "status": "proved",
   "theorems": [
    "C02_dot_adj_is_adjoint",
    "C02_adj_adj"
   ],
   "note": ""
  },
  {
   "property": "C03",
   "status": "partial",
   "theorems": [
    "C03_shape_safety_partial",
    "C03_dot_rejects_wrong_rows",
    "C03_dot_adj_rejects_wrong_rows",
    "C03_empty_block_square_partial",
    "C03_empty_block_refuted",
    "C03_zero_operator_refuted",
    "C03_identity_product_refuted",
    "C03_negative_power_refuted",
    "C03_scalar_right_of_identity_refuted"
   ],
   "note": "False as stated for the operators that carry no shape checks (identity, zero, powers, empty blocks): the _refuted theorems give the witnesses; the rest is proved by C03_shape_safety_partial and the rejection theorems."
  },
  {
   "property": "C04",
   "status": "proved",
   "theorems": [
    "C04_inner_euclid",
    "C04_inner_operator",
    "C04_nonhermitian_depends_on_shape_refuted",
    "C04_inner_is_gram"
   ],
   "note": "The _refuted theorem records that the Hermitian hypothesis is needed."
  },
  {
   "property": "C05",
   "status": "partial",
   "theorems": [
    "C05_norm_value_partial",
    "C05_norm_induced",
    "C05_negative_accepted_refuted",
    "C05_norm_squared"
   ],
   "note": "False for negative <x,x> (C05_negative_accepted_refuted); the value and the rejection of complex <x,y> are proved. Single columns."
  },
  {
   "property": "C06",
   "status": "proved",
   "theorems": [
    "C06_house",
    "C06_apply_is_matrix"
   ],
   "note": ""
  },
  {
   "property": "C07",
   "status": "proved",
   "theorems": [
    "C07_givens",
    "C07_givens_matrix_entries",
    "C07_apply_is_matrix"
   ],
   "note": ""
  },
  {
   "property": "C08",
   "status": "proved",
   "theorems": [
    "C08_qr",
    "C08_qr_euclid",
    "C08_span",
    "C08_qr_posteriori",
    "C08_rank_deficient_refuted",
    "C08_threshold_refuted"
   ],
   "note": "Holds whenever the columns are separated by 1e-15 (C08_qr) or R_ii >= 1e-15 (C08_qr_posteriori); spans agree in every case (C08_span). C08_threshold_refuted and C08_rank_deficient_refuted show what happens below the threshold. scipy.linalg.qr is an oracle with its documented specification, met by some_qr."
  },
  {
   "property": "C09",
   "status": "proved",
   "theorems": [
    "C09_formula",
    "C09_projection",
    "C09_idempotent",
    "C09_range",
    "C09_kernel",
    "C09_linear",
    "C09_matrix",
    "C09_empty",
    "C09_singular_raises",
    "C09_small_refuted"
   ],
   "note": "All N, k (including 0), X, Y, ip_B, orthogonalize, iterations >= 1 with nonsingular <Y,X>. With Y=None and orthogonalize=True the columns of X have to be separated by 1e-15 in a given ip_B; C09_small_refuted shows that this is needed."
  },
  {
   "property": "C10",
   "status": "proved",
   "theorems": [
    "C10_iterations",
    "C10_constructed",
    "C10_complement",
    "C10_adjoint",
    "C10_complement_adjoint",
    "C10_Ya",
    "C10_operators"
   ],
   "note": "Shapes that do not match are excluded by the types of the model."
  },
  {
   "property": "C11",
   "status": "partial",
   "theorems": [
    "C11_correct",
    "C11_residual",
    "C11_right_preconditioner_refuted"
   ],
   "note": "False as stated: correct does not apply Mr to the correction (C11_right_preconditioner_refuted). Proved: the formula of the correction for every Mr, and the projected, U-orthogonal residual whenever Mr leaves U unchanged (in particular without Mr)."
  },
  {
   "property": "C12",
   "status": "proved",
   "theorems": [
    "C12_hegedus_multiple",
    "C12_hegedus_optimal",
    "C12_hegedus_never_worse",
    "C12_threshold_refuted"
   ],
   "note": "Optimal above the internal threshold 1e-15, never worse than the zero guess; C12_threshold_refuted for the case below the threshold."
  },
  {
   "property": "C13",
   "status": "proved",
   "theorems": [
    "C13_arnoldi_relation",
    "C13_matrix_form",
    "C13_truncated",
    "C13_mgs_admissible",
    "C13_arnoldi_function"
   ],
   "note": "All four variants; exact arithmetic; the spectral norm is a parameter, of which nothing is assumed here."
  },
  {
   "property": "C14",
   "status": "proved",
   "theorems": [
    "C14_orthonormal"
   ],
   "note": "All four variants, exact arithmetic."
  },
  {
   "property": "C15",
   "status": "proved",
   "theorems": [
    "C15_C16_same_as",
    "C15_H_symmetric_tridiagonal",
    "C15_lanczos_admissible",
    "C13_arnoldi_relation",
    "C14_orthonormal"
   ],
   "note": "Lanczos = any other variant on the same data by uniqueness of the relation; arn_cfg admits lanczos exactly with self-adjoint A."
  },
  {
   "property": "C16",
   "status": "proved",
   "theorems": [
    "C16_house_admissible",
    "C16_house_rejects",
    "C13_arnoldi_relation",
    "C13_matrix_form",
    "C14_orthonormal",
    "C15_C16_same_as"
   ],
   "note": "The theorems for reachable states hold for house via C16_house_admissible."
  },
  {
   "property": "C17",
   "status": "proved",
   "theorems": [
    "C17_iter_bound",
    "C17_get_shapes",
    "C17_unknown_ortho",
    "C17_init",
    "C17_advance_misuse",
    "C17_terminates",
    "C17_total",
    "C17_zero_operator_divides_by_zero"
   ],
   "note": "Also recorded: if A M v = 0 the first step divides by zero (nan in floating point)."
  },
  {
   "property": "C18",
   "status": "proved",
   "theorems": [
    "C18_krylov_span"
   ],
   "note": "For every k up to the number of basis vectors, all variants."
  },
  {
   "property": "C19",
   "status": "proved",
   "theorems": [
    "C19_gmres_optimal",
    "C19_gmres_residual_norms",
    "C19_gmres_last_norm",
    "C19_gmres_monotone"
   ],
   "note": "All systems, preconditioners, inner products, four orthogonalisations, both exits (return and ConvergenceError); exact arithmetic."
  },
  {
   "property": "C20",
   "status": "proved",
   "theorems": [
    "C20_minres_optimal",
    "C20_minres_residual_norms",
    "C20_minres_last_norm",
    "C20_minres_monotone",
    "C20_minres_is_gmres"
   ],
   "note": "All four ortho variants; exact arithmetic; Ml A Mr self-adjoint in ip_B, no definiteness needed. If the (singular) operator makes the next diagonal entry of R zero the model stops with a division by zero (numpy: nan)."
  },
  {
   "property": "C21",
   "status": "proved",
   "theorems": [
    "C21_cg_optimal",
    "C21_cg_optimal_plain",
    "C21_cg_iterates",
    "C21_cg_galerkin",
    "C21_cg_last_norm"
   ],
   "note": "All SPD systems, preconditioners M, Ml, Mr (Ml A Mr self-adjoint positive definite in ip_B), initial guesses, both exits; exact arithmetic."
  },
  {
   "property": "C22",
   "status": "partial",
   "theorems": [
    "C22_cg_returns",
    "C22_exact_convergence_refuted",
    "C22_cg_lanczos",
    "C22_cg_tridiagonal"
   ],
   "note": "False if the exact solution is reached: the last column of V is divided by 0 (C22_exact_convergence_refuted). Proved for every other run: full Lanczos relation with the trimmed arrays, M-orthonormality, H real symmetric tridiagonal. P is not trimmed by the code (columns beyond iter+1 may be present); after ConvergenceError the arrays are one column shorter than the run."
  },
  {
   "property": "C23",
   "status": "partial",
   "theorems": [
    "C23_normal_return",
    "C23_converged",
    "C23_convergence_error",
    "C23_maxiter_zero_refuted",
    "C23_invariant_refuted",
    "C23_nan_refuted"
   ],
   "note": "False as stated in three cases (maxiter=0, invariant Krylov subspace, nan), each given by a _refuted theorem; proved otherwise, for arbitrary scalars and comparisons. The methods Cg, Minres, Gmres are instances of the skeleton."
  },
  {
   "property": "C24",
   "status": "proved",
   "theorems": [
    "C24_accounting",
    "C24_accounting_error",
    "C24_terminates",
    "C24_good_guess"
   ],
   "note": "For arbitrary scalars and comparisons, including nan."
  },
  {
   "property": "C25",
   "status": "partial",
   "theorems": [
    "C25_explicit",
    "C25_explicit_error",
    "C25_error_norm",
    "C25_invariant_not_explicit_refuted"
   ],
   "note": "Proved for converged runs with at least one iteration and for ConvergenceError; runs that end with an invariant subspace record the updated norm (refuted theorem)."
  },
  {
   "property": "C26",
   "status": "proved",
   "theorems": [
    "C26_cg_no_guess",
    "C26_cg_zero_rhs",
    "C26_get_residual_none",
    "C26_gmres_no_guess",
    "C26_gmres_zero_rhs",
    "C26_minres_no_guess",
    "C26_minres_zero_rhs",
    "C26_zero_rhs",
    "C26_no_guess"
   ],
   "note": "Skeleton level; the hypothesis on the initial residual is discharged for LinearSystem.get_residual in C52."
  },
  {
   "property": "C27",
   "status": "proved",
   "theorems": [
    "C27_errnorms",
    "C27_no_errnorms",
    "C27_restarted_returns",
    "C27_restarted_error",
    "C27_terminates",
    "C27_length",
    "C27_raises"
   ],
   "note": "For every inner solver with nonempty resnorms."
  },
  {
   "property": "C28",
   "status": "partial",
   "theorems": [
    "C28_cg_converges",
    "C28_gmres_finite_partial",
    "C28_gmres_converges",
    "C28_premature_stop_refuted",
    "C28_minres_finite_partial",
    "C28_minres_converges"
   ],
   "note": "False as stated: the invariance test H_(n,n-1)/||H|| <= 1e-14 can end the run early without exception (C28_premature_stop_refuted, residual norm 1 after the run). Proved: always a normal return within N iterations, with the tolerance reached unless that test fired with H_(n,n-1) > 0. The spectral norm is a parameter bounding the entries. CG has no such test and always reaches the tolerance (C28_cg_converges)."
  },
  {
   "property": "C29",
   "status": "proved",
   "theorems": [
    "C29_gmres_optimal",
    "C29_minres_optimal",
    "C29_gmres_true_residual",
    "C29_minres_true_residual",
    "C29_gmres_finite",
    "C29_minres_finite",
    "C29_cg_optimal",
    "C29_cg_finite",
    "C29_no_deflation"
   ],
   "note": "For Mr that leave U unchanged (see C11). Deflated GMRES, MINRES and CG: optimality over the deflated search space, true residual norms, orthogonality to U, finite termination, and equality with the plain solver for U=None."
  },
  {
   "property": "C30",
   "status": "proved",
   "theorems": [
    "C30_E",
    "C30_gmres_C",
    "C30_minres_C",
    "C30_cg_C",
    "C30_B"
   ],
   "note": "U is the orthonormalised attribute projection.U, a basis of span(U). C of DeflatedCg is compared with the stored Lanczos vectors (store_arnoldi=True). The cached value of B_ is not modelled."
  },
  {
   "property": "C31",
   "status": "partial",
   "theorems": [
    "C31_bad_mode",
    "C31_ritz",
    "C31_harmonic",
    "C31_resnorm_partial",
    "C31_selfadjoint",
    "C31_explicit_residual",
    "C31_explicit_resnorms",
    "C31_attributes",
    "C31_gmres",
    "C31_minres",
    "C31_cg",
    "C31_explicit_indices_refuted",
    "C31_resnorm_refuted",
    "C31_explicit_resnorm_refuted"
   ],
   "note": "Ritz and harmonic Ritz pairs: proved for every set of attributes with the relations of Spec/DeflRitz.v, which are proved for the runs of the three deflated solvers (C31_gmres, C31_minres, C31_cg); the dense eigenvalue routines are assumed to be correct. The harmonic pairs need an Arnoldi relation without remainder. The residual norms are right if E = <U, Ml A Mr U> is Hermitian, and wrong otherwise: E and its adjoint are exchanged in the matrix S of the constructor (C31_resnorm_refuted). get_explicit_residual ignores the indices for the values (C31_explicit_indices_refuted) and get_explicit_resnorms does not apply M (C31_explicit_resnorm_refuted). For n + m = 0 coeffs has one dimension in the code; get_vectors is not modelled for it."
  },
  {
   "property": "C32",
   "status": "proved",
   "theorems": [
    "C32_rejected",
    "C32_without_V",
    "C32_ritz",
    "C32_harmonic",
    "C32_improved",
    "C32_improved_le_harmonic",
    "C32_hermitian_real",
    "C32_arnoldi"
   ],
   "note": "The results of scipy's eigenvalue routines are assumed to satisfy the (generalised) eigenvalue equation with normalised (non-zero) columns. Stated for any relation A V_n = V H with orthonormal V in any inner product; C32_arnoldi for the output of the modelled Arnoldi process. A generalised eigenvalue 0 of the harmonic problem (division by zero) gives no value for this pair. n = 0 and dtypes are not modelled."
  },
  {
   "property": "C33",
   "status": "partial",
   "theorems": [
    "C33_residual_norms",
    "C33_square",
    "C33_self_adjoint",
    "C33_breakdown_refuted"
   ],
   "note": "False as stated for a breakdown with a rank deficient block (C33_breakdown_refuted); proved for every leading block of full column rank, together with the start value, monotonicity, the square case and the self_adjoint shortcut."
  },
  {
   "property": "C34",
   "status": "proved",
   "theorems": [
    "C34_constructor",
    "C34_contains",
    "C34_intersection",
    "C34_union",
    "C34_distance"
   ],
   "note": ""
  },
  {
   "property": "C35",
   "status": "proved",
   "theorems": [
    "C35_add_disjoint_union",
    "C35_order_independent",
    "C35_endpoints"
   ],
   "note": ""
  },
  {
   "property": "C36",
   "status": "partial",
   "theorems": [
    "C36_min",
    "C36_max",
    "C36_min_abs",
    "C36_max_abs",
    "C36_min_pos_partial",
    "C36_max_neg_partial",
    "C36_min_pos_refuted",
    "C36_empty_returns_exception_object_refuted"
   ],
   "note": "min/max/min_abs/max_abs proved; min_pos and max_neg fail when 0 belongs to the set, and queries on the empty set return an exception object (refuted theorems)."
  },
  {
   "property": "C37",
   "status": "partial",
   "theorems": [
    "C37_gap_individual",
    "C37_gap_interval",
    "C37_unknown_mode_refuted"
   ],
   "note": "Proved for both modes; an unknown mode returns None instead of raising (refuted theorem)."
  },
  {
   "property": "C38",
   "status": "partial",
   "theorems": [
    "C38_base",
    "C38_rejected",
    "C38_rejected_input",
    "C38_intervals",
    "C38_invariant",
    "C38_negative_refuted",
    "C38_steps",
    "C38_get_step",
    "C38_get_step_refuted"
   ],
   "note": "False in two cases: spectra of negative numbers are accepted with base 0 (C38_negative_refuted), and get_step returns 0 if base is 0 (C38_get_step_refuted). Everything else is proved for all lists of eigenvalues. get_step and real steps use the real numbers of the Coq standard library."
  },
  {
   "property": "C39",
   "status": "partial",
   "theorems": [
    "C39_nonnegative",
    "C39_indefinite",
    "C39_order",
    "C39_intervals",
    "C39_steps",
    "C39_negative_refuted",
    "C39_scaling_refuted",
    "C39_get_step"
   ],
   "note": "False in two cases: negative definite spectra raise numpy's ValueError (C39_negative_refuted), and the test for non-negativity is not invariant under scaling (C39_scaling_refuted). C39_get_step is about even steps, where the bound changes."
  },
  {
   "property": "C40",
   "status": "proved",
   "theorems": [
    "C40_value",
    "C40_normalized",
    "C40_permutation",
    "C40_extrema"
   ],
   "note": "argsort is only assumed to return a permutation of the indices. C40_extrema covers minmax_candidates for real roots, assuming that the polynomial root finder returns all roots. Zero roots (division by zero) are excluded."
  },
  {
   "property": "C41",
   "status": "proved",
   "theorems": [
    "C41_strakos",
    "C41_single_refuted"
   ],
   "note": "C41_single_refuted records that n=1 is a division by zero."
  },
  {
   "property": "C42",
   "status": "partial",
   "theorems": [
    "C42_get",
    "C42_get_ops",
    "C42_with_block",
    "C42_history",
    "C42_nested_refuted",
    "C42_empty_adjoint_refuted"
   ],
   "note": "C42_nested_refuted and C42_empty_adjoint_refuted are two corner cases where the claim fails: a timer nested in itself and dot_adj of a timed non-square operator on an empty block."
  },
  {
   "property": "C43",
   "status": "partial",
   "theorems": [
    "C43_no_preconditioner",
    "C43_Minv_missing",
    "C43_Minv_inner_product",
    "C43_noncommuting_refuted"
   ],
   "note": "False for an operator ip_B that does not commute with Minv (C43_noncommuting_refuted); proved for no ip_B, callable ip_B, and commuting operators; ArgumentError without Minv."
  },
  {
   "property": "C44",
   "status": "partial",
   "theorems": [
    "C44_asserts",
    "C44_solver",
    "C44_solver_U",
    "C44_cg_solution",
    "C44_minres_solution",
    "C44_gmres_solution",
    "C44_zero_rhs",
    "C44_cg_converges",
    "C44_cg_U_solution",
    "C44_minres_U_solution",
    "C44_gmres_U_solution",
    "C44_wrap",
    "C44_wrap_refuted",
    "C44_Mr_unused",
    "C44_Mr_refuted",
    "C44_strict_refuted"
   ],
   "note": "The returned solver is the one of the class called with all arguments except Mr, which is ignored (C44_Mr_unused, C44_Mr_refuted). If the function returns, the solution is returned shaped like b exactly if the relative residual norm of out.xk is less than tol, None otherwise (all six cases, with and without U). Refuted: resnorms[-1] == tol gives None although the solver stopped as converged (C44_strict_refuted); reaching maxiter raises ConvergenceError instead of returning None (C44_Mr_refuted); wrap_inner_product returns 1x1 arrays for blocks (C44_wrap_refuted), so that U with more than one column raises ValueError."
  },
  {
   "property": "C45",
   "status": "proved",
   "theorems": [
    "C45_best",
    "C45_best_pure",
    "C45_terminates",
    "C45_errors",
    "C45_reachable",
    "C45_empty_proposal_refuted"
   ],
   "note": "C45_terminates is for generators that propose non-empty subsets of the remaining indices, as those of krypy do (C46_max_vectors); C45_empty_proposal_refuted shows that this is needed. The evaluator may keep a state; AssumptionErrors of it are skipped, other errors are passed on."
  },
  {
   "property": "C46",
   "status": "proved",
   "theorems": [
    "C46_small",
    "C46_extremal_self_adjoint",
    "C46_extremal",
    "C46_max_vectors"
   ],
   "note": "numpy.argsort is assumed to return a sorting permutation; list(set) may have any order. Ritz values equal to 0 are never proposed by RitzExtremal for self-adjoint problems."
  },
  {
   "property": "C47",
   "status": "partial",
   "theorems": [
    "C47_smallest",
    "C47_largest",
    "C47_unknown",
    "C47_zero_refuted",
    "C47_union"
   ],
   "note": "False for n_vectors=0 with lm, lr and li: all vectors are selected (C47_zero_refuted). Proved for all other cases. numpy.argsort is assumed to return a sorting permutation."
  },
  {
   "property": "C48",
   "status": "proved",
   "theorems": [
    "C48_history",
    "C48_two"
   ],
   "note": "The deflated solver, the conversion to TimedLinearSystem and the factories are arbitrary functions that may fail. Positional arguments of solve() after the first are passed to the solver before U (they collide with U, a TypeError); the model has keyword arguments only."
  },
  {
   "property": "C49",
   "status": "partial",
   "theorems": [
    "C49_gmres_program",
    "C49_minres_program",
    "C49_cg_program",
    "C49_gmres_calls",
    "C49_minres_calls",
    "C49_cg_calls",
    "C49_gmres_operations",
    "C49_minres_operations",
    "C49_cg_operations",
    "C49_no_iteration_refuted",
    "C49_invariant_refuted",
    "C49_ortho_refuted",
    "C49_no_M_refuted",
    "C49_explicit_refuted"
   ],
   "note": "The solvers are written as programs over calls of A, M, Ml, Mr and ip_B (Model/Calls.v) whose results are those of the solver models (C49_*_program); C49_*_calls give the exact counts of every run (any x0, ortho, explicit_residual; no exact_solution, Ml b nonzero). operations(n) equals them for n >= 1, no initial guess, no explicit_residual, M given and, for Gmres, ortho='mgs', for Minres 'lanczos' (C49_*_operations). It does not for n = 0, for a run stopped by an invariant subspace, for the other orthogonalisations, without M, and with explicit_residual=True (C49_*_refuted). axpy is not counted. As ip_B one call per inner product with one column is counted."
  },
  {
   "property": "C50",
   "status": "proved",
   "theorems": [
    "C50_timed_system",
    "C50_converted_system"
   ],
   "note": "User supplied operators and inner products are pure functions; adjoints are compared for nonempty blocks (see C42_empty_adjoint_refuted). dtypes and flat_vecs are not modelled."
  },
  {
   "property": "C51",
   "status": "proved",
   "theorems": [
    "C51_shapes",
    "C51_relation",
    "C51_terminates",
    "C51_total",
    "C51_rejected",
    "C51_perturbed"
   ],
   "note": "For all H, P (any matrix, not only projections), k and n >= 1. When the process terminates early the last column is only approximately invariant (the stopping test compares with 1e-14 times the norm), which the theorem states with the discarded remainder. C51_perturbed states the perturbation property of the docstring with the sign of E_i corrected: P H = ... holds with the error matrix -v_{n+1} F <U, .>, the docstring has +. A zero first vector is a division 0/0 in the code, which is an error value here."
  },
  {
   "property": "C52",
   "status": "proved",
   "theorems": [
    "C52_get_residual",
    "C52_zero_residual"
   ],
   "note": "Shape (N,1)."
  },
  {
   "property": "C53",
   "status": "proved",
   "theorems": [
    "C53_angles",
    "C53_value",
    "C53_order",
    "C53_symmetric",
    "C53_spaces",
    "C53_same",
    "C53_orthogonal",
    "C53_intersection",
    "C53_example"
   ],
   "note": "For linearly independent columns (separated by 1e-15 when Gram-Schmidt is used). The SVD and QR of scipy are assumed to be correct; arccos, arcsin and pi/2 are parameters with four stated properties. Existence of an SVD (spectral theorem) and uniqueness of the singular values are proved, so that the assumptions are satisfiable and the result does not depend on the SVD."
  },
  {
   "property": "C54",
   "status": "proved",
   "theorems": [
    "C54_gram",
    "C54_empty",
    "C54_init"
   ],
   "note": "J L = M and M = <[V_n,U], M Ml A Mr [V_n,U]> hold for every set of attributes with the relations of Spec/DeflRitz.v, which the runs of the deflated solvers satisfy (C31_gmres, C31_minres, C31_cg). C54_init needs the Arnoldi relation without remainder and a correct rank decision (rank_args: every diagonal entry of the pivoted QR factor is 0 or above the threshold of 1e-14 times the norm)."
  },
  {
   "property": "C55",
   "status": "partial",
   "theorems": [
    "C55_bases",
    "C55_vectors_partial",
    "C55_example",
    "C55_refuted"
   ],
   "note": "C55_refuted: with two or more different angles up to 45 degrees the returned U is not orthonormal (in the example the first column has norm 5/4), contrary to the documentation; utils.py 788-796. Proved: U and V are bases of the ranges and the vectors of the smaller space are orthonormal (C55_bases); all documented relations hold if the angles up to 45 degrees coincide (C55_vectors_partial)."
  },
  {
   "property": "C56",
   "status": "partial",
   "theorems": [
    "C56_get",
    "C56_PWAW",
    "C56_start",
    "C56_no_rows_refuted",
    "C56_attributes",
    "C56_gmres",
    "C56_minres",
    "C56_cg"
   ],
   "note": "Proved for runs of DeflatedGmres, DeflatedMinres and DeflatedCg with an Arnoldi relation without remainder, for a correct rank decision and for W smaller than [V_n,U]. The LAPACK routines are parameters with specifications (Spec/Arnoldifyer.v). If the projected initial residual is 0 then H has no rows and get raises ValueError (C56_no_rows_refuted)."
  },
  {
   "property": "C57",
   "status": "partial",
   "theorems": [
    "C57_cg_bound",
    "C57_cg_bound_zeros",
    "C57_cg_bound_plain",
    "C57_tiny_refuted"
   ],
   "note": "Proved for exclude_zeros=False without restriction and for exclude_zeros=True if the eigenvalues lie between numbers that are not ignored. With exclude_zeros=True tiny positive eigenvalues are ignored and the bound fails (C57_tiny_refuted). Proof with Chebyshev polynomials and an orthonormal eigenbasis."
  },
  {
   "property": "C58",
   "status": "partial",
   "theorems": [
    "C58_minres_definite",
    "C58_gmres_definite",
    "C58_minres_indefinite_partial",
    "C58_gmres_indefinite_partial",
    "C58_unequal_refuted"
   ],
   "note": "Positive definite case: proved. Indefinite case: proved if the negative and the positive numbers extend over intervals of equal length and none is negligible; false for different lengths (C58_unequal_refuted: eigenvalues -1, 4, 9)."
  },
  {
   "property": "C59",
   "status": "proved",
   "theorems": [
    "C59_cg_bound",
    "C59_cg_bound_zeros",
    "C59_minres_definite",
    "C59_gmres_definite"
   ],
   "note": "Proved under the conditions of C29 (Mr leaves U unchanged). With exclude_zeros=True the remaining eigenvalues must lie between numbers that are not ignored, see C57."
  },
  {
   "property": "C60",
   "status": "partial",
   "theorems": [
    "C60_minres_indefinite_partial",
    "C60_gmres_indefinite_partial"
   ],
   "note": "Proved if the negative and the positive numbers extend over intervals of equal length and none is negligible; without deflation vectors this is C58, which is false for different lengths (C58_unequal_refuted)."
  },
  {
   "property": "C61",
   "status": "proved",
   "theorems": [
    "C61_remaining",
    "C61_cg_bound",
    "C61_minres_bound"
   ],
   "note": "Proved. Example: one of two eigenvectors of a 2x2 system."
  },
  {
   "property": "C62",
   "status": "proved",
   "theorems": [
    "C62_untimed",
    "C62_gmres",
    "C62_minres",
    "C62_cg",
    "C62_lower",
    "C62_deflation",
    "C62_monotone"
   ],
   "note": "Proved for the model in a real closed field; the counts are those of C49. The docstring names another exception than the RuntimeError that is raised. Example: a timed GMRES run of one step."
  },
  {
   "property": "C63",
   "status": "proved",
   "theorems": [
    "C63_simple",
    "C63_intervals",
    "C63_nothing",
    "C63_all",
    "C63_unknown",
    "C63_exact",
    "C63_order",
    "C63_result",
    "C63_queries"
   ],
   "note": "Proved for every class Bound and all iteration orders of sets. Example: three Ritz values, one of them inexact."
  },
  {
   "property": "C64",
   "status": "partial",
   "theorems": [
    "C64_extrapolate",
    "C64_extrapolate_rejected",
    "C64_nan_refuted",
    "C64_direct",
    "C64_direct_default_refuted",
    "C64_short",
    "C64_unknown"
   ],
   "note": "Coq reals. Refuted: mode direct with the default tol=None raises TypeError (C64_direct_default_refuted); if the first bound is 0 and another one is 0, the result is nan (C64_nan_refuted). Example: the bounds 1, 1/2, 1/8."
  },
  {
   "property": "C65",
   "status": "proved",
   "theorems": [
    "C65_ritz",
    "C65_harmonic",
    "C65_improved",
    "C65_zero",
    "C65_defl_ritz",
    "C65_defl_harmonic",
    "C65_attributes"
   ],
   "note": "Proved for exact eigendecompositions of the small matrices. Example: a 3x3 matrix with two Lanczos vectors."
  },
  {
   "property": "C66",
   "status": "proved",
   "theorems": [
    "C66_attributes",
    "C66_gmres",
    "C66_minres",
    "C66_cg_attributes",
    "C66_cg"
   ],
   "note": "Proved for pseudo_type='omit'; the pseudospectral branches are not modelled. LAPACK routines are parameters with their specification. The minimal residual norms are characterised as long as the operator is injective on the Krylov spaces. Example: the run of C56_run."
  },
  {
   "property": "C67",
   "status": "proved",
   "theorems": [
    "C67_norm_block",
    "C67_norm_empty",
    "C67_single",
    "C67_orthonormality",
    "C67_arnoldi_res",
    "C67_arnoldi_shapes",
    "C67_arnoldi_run"
   ],
   "note": "numpy.linalg.norm(., 2) is a parameter with its specification (its existence for every nonempty matrix is C67_oracle). Example: C67_run, C67_not_orthonormal."
  },
  {
   "property": "C68",
   "status": "partial",
   "theorems": [
    "C68_norm_MMlr_refuted",
    "C68_norm_MMlr_zero"
   ],
   "note": "False for all data with Ml r != 0: TypeError, because norm is called with an argument inner_product which it does not have."
  },
  {
   "property": "C69",
   "status": "partial",
   "theorems": [
    "C69_omit",
    "C69_pseudo_type_refuted",
    "C69_contain",
    "C69_invariant_refuted",
    "C69_intervals",
    "C69_monotone",
    "C69_attributes",
    "C69_gmres",
    "C69_minres",
    "C69_bound_refuted"
   ],
   "note": "The contours of the package pseudopy, eigenvalues, singular values and scipy.optimize.minimize_scalar are parameters. False: pseudo_type has no effect except for 'omit' and 'contain' (C69_pseudo_type_refuted), an invariant space gives ValueError (C69_invariant_refuted), and for self-adjoint systems the numbers are no bounds, because 2 delta is used for the length of the curve: C69_bound_refuted has a run whose residual norm is greater. Not proved: that the numbers for paths are bounds."
  },
  {
   "property": "C70",
   "status": "proved",
   "theorems": [
    "C70_values",
    "C70_errors",
    "C70_run"
   ],
   "note": "The contour is a parameter. Example: C70_run."
  },
  {
   "property": "C71",
   "status": "partial",
   "theorems": [
    "C71_attributes",
    "C71_gmres",
    "C71_minres",
    "C71_cg",
    "C71_run",
    "C71_epsilon_refuted"
   ],
   "note": "The theorems have a bound c0 of <W, MA x> in the place of ||Hh||; without a condition on <W, MA x> epsilon is no bound (C71_epsilon_refuted). For a nonzero x0 the norm of M r0 may exceed ||M Ml b||, then nothing is said about beta. Example: C71_run."
  },
  {
   "property": "C72",
   "status": "proved",
   "theorems": [
    "C72_find_common_dtype",
    "C72_dtype",
    "C72_operators",
    "C72_sound"
   ],
   "note": "The types int64, float64 and complex128 only. The numbers are exact: float64 stands for the real numbers. Example: C72_example."
  },
  {
   "property": "C73",
   "status": "partial",
   "theorems": [
    "C73_arnoldi",
    "C73_gmres",
    "C73_minres",
    "C73_cg",
    "C73_ip_refuted",
    "C73_int_refuted"
   ],
   "note": "Arnoldi.dtype ignores ip_B: with a real operator, a real vector and a complex Hermitian positive definite ip_B it is float64, but H[0,0] is not real (C73_ip_refuted). For integer operators and vectors without preconditioner or with an integer preconditioner it is int64, but the normalised first basis vector is not integer (C73_int_refuted). Examples: C73_example, C73_system."
  },
  {
   "property": "C74",
   "status": "partial",
   "theorems": [
    "C74_qr",
    "C74_projection",
    "C74_gmres",
    "C74_minres",
    "C74_cg",
    "C74_qr_int_refuted",
    "C74_qr_ip_refuted"
   ],
   "note": "scipy.linalg.qr is assumed to return real factors for real arrays (met by real_qr, C74_scipy_qr). With ip_B given, qr stores Q and R in arrays with the dtype of X: for an integer X they are int64 but Q is not integer (C74_qr_int_refuted); for a real X and a complex ip_B they are float64 but R is not real (C74_qr_ip_refuted). Examples: C74_scipy_qr, C74_system."
  },
  {
   "property": "C75",
   "status": "partial",
   "theorems": [
    "C75_shape_vecs",
    "C75_shape_vec",
    "C75_shape_vec_accepts",
    "C75_shape",
    "C75_accepts",
    "C75_matrix",
    "C75_scipy_refuted",
    "C75_system",
    "C75_residual",
    "C75_checked",
    "C75_x0"
   ],
   "note": "A scipy LinearOperator is wrapped with its method matvec, so that it can be applied to a column but raises ValueError for blocks with several columns, as they occur with deflation (C75_scipy_refuted). flat_vecs is also True if no array is given (C75_x0). The branch for numpy.matrix is unreachable and not modelled. Example: C75_example."
  },
  {
   "property": "C76",
   "status": "proved",
   "theorems": [
    "C76_minimal_residual",
    "C76_cg",
    "C76_peaks",
    "C76_cg_not_smaller",
    "C76_energy",
    "C76_scaling",
    "C76_cg_scaling",
    "C76_preconditioner",
    "C76_cg_preconditioner",
    "C76_reduction",
    "C76_cg_reduction"
   ],
   "note": "Exact arithmetic. Equality of the approximations of the minimal residual methods needs an injective Ml A Mr and equal numbers of iterations. Examples: C76_runs, C76_scaled_case, C76_left_case, C76_reduced_case, C76_peaks_example (residual norms 1/2 of Cg and 5^(-1/2) of Gmres)."
  },
  {
   "property": "C77",
   "status": "proved",
   "theorems": [
    "C77_correct",
    "C77_minimal_residual",
    "C77_cg"
   ],
   "note": "Exact arithmetic; for the solvers Mr is the identity on the span of U (as in C29). Equality of the approximations of the minimal residual methods needs an injective Ml A Mr and equal numbers of iterations. Examples: C77_same_span, C77_runs."
  },
  {
   "property": "C78",
   "status": "proved",
   "theorems": [
    "C78_eigen",
    "C78_cg_eigen",
    "C78_dimension",
    "C78_cg_dimension",
    "C78_no_iterations",
    "C78_deflated_eigen",
    "C78_minimal_residual",
    "C78_cg"
   ],
   "note": "Exact arithmetic. Runs that end with ConvergenceError (maxiter reached) are included. The bound N - k for the minimal residual methods needs an injective Ml A Mr. For the deflated solvers Mr is the identity on the span of U (as in C29). Examples: C78_plain_case, C78_deflated_case, C78_runs."
  },
  {
   "property": "C79",
   "status": "proved",
   "theorems": [
    "C79_errnorms",
    "C79_errnorms_monotone",
    "C79_zero_rhs",
    "C79_endpoints",
    "C79_monotone",
    "C79_returns",
    "C79_no_restarts",
    "C79_minimal_residual",
    "C79_contraction",
    "C79_converges"
   ],
   "note": "Exact arithmetic; the norm oracle of Arnoldi.advance bounds the entries of the matrix (true for the 2-norm and the Frobenius norm) in C79_converges. Example: C79_fov, C79_run."
  },
  {
   "property": "C80",
   "status": "proved",
   "theorems": [
    "C80_gmres_errnorms",
    "C80_minres_errnorms",
    "C80_cg_errnorms",
    "C80_minimal_residual",
    "C80_cg",
    "C80_cg_minimal_residual",
    "C80_gmres_monotone",
    "C80_minres_monotone",
    "C80_cg_monotone",
    "C80_cg_le_gmres",
    "C80_cg_le_minres"
   ],
   "note": "Exact arithmetic; the right hand side Ml b is not zero. Without the condition on M the entries of errnorms may increase (C80_M_needed). Example: C80_run."
  },
  {
   "property": "C81",
   "status": "proved",
   "theorems": [
    "C81_minres",
    "C81_gmres",
    "C81_vectors",
    "C81_simple_select",
    "C81_simple",
    "C81_all",
    "C81_best_select",
    "C81_repeat",
    "C81_no_pairs"
   ],
   "note": "Exact arithmetic; the right hand sides Ml b are not zero; if the projections are orthogonalised, the norms of v and Ml A Mr v are at least 1e-15 times the norm of v in the inner product of M^-1. scipy.linalg.eigh is assumed to return orthonormal eigenvectors. The IndexError after a solve without Ritz pairs is a finding (C81_no_pairs). Examples: C81_run, C81_repeat_run."
  },
  {
   "property": "C82",
   "status": "proved",
   "theorems": [
    "C82_minres",
    "C82_gmres",
    "C82_first",
    "C82_misspelt",
    "C82_negative"
   ],
   "note": "Assumptions as for C81. The evaluator RitzApproxKrylov is arbitrary, but raises AssumptionErrors only for positive Ritz values; that RitzApriori with BoundCG and BoundMinres does so is proved. The times that RitzApriori estimates are arbitrary elements of an ordered type. The ValueError for negative definite systems (C82_negative) and the late AttributeError (C82_misspelt) are findings. Example: C82_run."
  },
  {
   "property": "C83",
   "status": "proved",
   "theorems": [
    "C83_select",
    "C83_positive",
    "C83_solve"
   ],
   "note": "A finding: MINRES is meant for such indefinite systems. RitzSmall without max_vectors leaves the value of largest magnitude to the end (C46), BoundMinres of negative values raises a ValueError (C39), and only AssumptionErrors are caught. The deflated solver is arbitrary. The gap around 0 in C83_positive is needed: values between -1e-15 times the dominant one and -1e-15 are neither positive nor negative for BoundMinres. Example: C83_example (Ritz values -2 and 1, and 2 and -1)."
  },
  {
   "property": "C84",
   "status": "proved",
   "theorems": [
    "C84_minres",
    "C84_gmres",
    "C84_choice"
   ],
   "note": "C84_minres and C84_gmres relate the sequence to the models of the deflated solvers. The solver that a ConvergenceError carries is not modelled here. C84_choice combines C47 with the Ritz pairs of a deflated solver (mode 'ritz'). Example: C84_example (an InnerProductError of norm(), and a choice by residual norms)."
  }
 ]
}