{"id": "C01", "title": "Composite linear operators act like the matrix expression", "statement": "Applying a LinearOperator built with +, -, unary -, scalar *, *, ** and .adj to a block of vectors gives the same result as evaluating the corresponding matrix expression (sum, product, scaling, power, conjugate transpose) on that block.", "quantifier": "every expression tree built from matrices, identity and zero operators, every conforming shape, every block of vectors", "why_tests_cant": "Expression trees are unboundedly deep and wide; a test suite checks a handful of trees of fixed shape.", "anchors": ["krypy/utils.py:LinearOperator", "krypy/utils.py:_SumLinearOperator", "krypy/utils.py:_ProductLinearOperator", "krypy/utils.py:_ScaledLinearOperator", "krypy/utils.py:_PowerLinearOperator", "krypy/utils.py:_AdjointLinearOperator", "krypy/utils.py:MatrixLinearOperator"]}
{"id": "C02", "title": "dot_adj is the adjoint of dot", "statement": "For every LinearOperator expression, <A.dot(x), y> == <x, A.dot_adj(y)> in the Euclidean inner product, and A.adj.adj acts like A.", "quantifier": "every operator expression tree, every pair of vectors of conforming length", "why_tests_cant": "Tests sample a few matrices; the claim is universally quantified over all dimensions and all inputs.", "anchors": ["krypy/utils.py:LinearOperator.dot_adj", "krypy/utils.py:LinearOperator.adj", "krypy/utils.py:_AdjointLinearOperator"]}
{"id": "C03", "title": "Shape safety of operator algebra", "statement": "An operator expression can be built exactly when the shapes conform; applying an operator to an array whose number of rows does not match raises an error; otherwise the result has the operator's number of rows and the array's number of columns. In particular scalar multiplication from the left and from the right agree, and a negative power is rejected.", "quantifier": "every expression tree, every array shape including arrays with zero columns and non-square operators", "why_tests_cant": "The shape space is infinite; corner shapes (zero columns, identity operands, non-square operators, negative powers) are not covered by the tests.", "anchors": ["krypy/utils.py:LinearOperator.__mul__", "krypy/utils.py:LinearOperator.dot", "krypy/utils.py:ZeroLinearOperator", "krypy/utils.py:_PowerLinearOperator", "krypy/utils.py:TimedLinearOperator.dot_adj"]}
{"id": "C04", "title": "inner computes the Gram matrix of the chosen inner product", "statement": "inner(X, Y, ip_B) returns the (m,n) matrix X^* B Y for ip_B=None (B=I), a matrix/operator B or an equivalent callable; for self-adjoint B the internal evaluation order (chosen by comparing m and n) does not change the result, and the result is sesquilinear, conjugate symmetric and positive on nonzero vectors when B is self-adjoint positive definite.", "quantifier": "all N, m, n (including 0), all X, Y, all B", "why_tests_cant": "Tests sample a few matrices; the claim is universally quantified over all dimensions and all inputs.", "anchors": ["krypy/utils.py:inner", "krypy/utils.py:ip_euclid"]}
{"id": "C05", "title": "norm is the induced norm and rejects indefinite inner products", "statement": "norm(x, y, ip_B) returns sqrt(<x,y>) whenever <x,y> is real and non-negative, and raises InnerProductError when <x,y> is not a non-negative real number.", "quantifier": "all vectors x, y and all inner products ip_B", "why_tests_cant": "The error condition is a relative threshold on every possible complex value.", "anchors": ["krypy/utils.py:norm", "krypy/utils.py:norm_squared"]}
{"id": "C06", "title": "Householder transformation maps onto the first unit vector", "statement": "House(x) yields alpha with |alpha|=1, xnorm=||x||_2 and a transformation H that is Hermitian and unitary (H^2=I) with H x = alpha ||x|| e_1; apply(.) and matrix() represent the same H.", "quantifier": "every complex vector x of every length >= 1, including zero vectors, multiples of e_1 and vectors with zero first entry", "why_tests_cant": "Tests sample a few matrices; the claim is universally quantified over all dimensions and all inputs.", "anchors": ["krypy/utils.py:House"]}
{"id": "C07", "title": "Givens rotation annihilates the second entry", "statement": "Givens([a;b]) yields a unitary 2x2 matrix G=[[c,s],[-conj(s),c]] with real c and G [a;b] = [r;0]; hence |r|^2=|a|^2+|b|^2.", "quantifier": "every real or complex pair (a,b), including zeros", "why_tests_cant": "Tests sample a few matrices; the claim is universally quantified over all dimensions and all inputs.", "anchors": ["krypy/utils.py:Givens"]}
{"id": "C08", "title": "qr returns an orthonormal factorisation in the given inner product", "statement": "If no diagonal entry of R falls below the drop threshold, qr(X, ip_B, reorthos) returns Q, R with X = Q R, <Q,Q> = I_k and R upper triangular with positive diagonal, for every number of reorthogonalisations; column spans of X and Q agree.", "quantifier": "all N, k, X, inner products and reorthos", "why_tests_cant": "Tests sample a few matrices; the claim is universally quantified over all dimensions and all inputs.", "anchors": ["krypy/utils.py:qr"]}
{"id": "C09", "title": "Projection is the projection onto range X along Y-perp", "statement": "If <Y,X> is nonsingular then Projection(X,Y,ip_B).apply is linear, idempotent, has range span(X) and kernel {a : <Y,a>=0}, for both values of orthogonalize and every number of iterations; matrix() represents it, and the zero-column case is the zero operator.", "quantifier": "all N, k (including 0), X, Y, ip_B, iterations >= 1", "why_tests_cant": "Tests sample a few matrices; the claim is universally quantified over all dimensions and all inputs.", "anchors": ["krypy/utils.py:Projection", "krypy/utils.py:Projection.apply", "krypy/utils.py:Projection.matrix"]}
{"id": "C10", "title": "Projection complement, adjoint and returned inner product are consistent", "statement": "apply_complement(a) = a - apply(a); apply_adj and apply_complement_adj are the adjoints with respect to ip_B; with return_Ya=True the second result is <Y,a>; iterations < 1 and mismatching shapes are rejected with ArgumentError.", "quantifier": "all N, k (including 0), X, Y, a, b, ip_B, iterations", "why_tests_cant": "Tests sample a few matrices; the claim is universally quantified over all dimensions and all inputs.", "anchors": ["krypy/utils.py:Projection.apply_complement", "krypy/utils.py:Projection.apply_adj", "krypy/utils.py:Projection.apply_complement_adj"]}
{"id": "C11", "title": "Deflation correction removes the residual component in the deflation space", "statement": "ObliqueProjection.correct(z) returns an approximation whose residual M_l(b-A correct(z)) equals the complement projection applied to M_l(b-A z), hence is orthogonal to U, for every right preconditioner M_r.", "quantifier": "all linear systems with nonsingular <U,M_l A M_r U>, all z, all deflation bases U", "why_tests_cant": "Tests sample a few matrices; the claim is universally quantified over all dimensions and all inputs.", "anchors": ["krypy/deflation.py:ObliqueProjection.correct"]}
{"id": "C12", "title": "Hegedus rescaling never worsens and is optimal", "statement": "hegedus(A,b,x0,...) returns gamma*x0 such that the residual norm ||M M_l(b - A gamma x0)||_{M^-1} is at most ||M M_l b||_{M^-1}, and minimal over all complex gamma when <z,z>_{M^-1} exceeds the internal threshold.", "quantifier": "all A, b, x0, M, M_l, inner products, all complex gamma", "why_tests_cant": "Optimality is a statement about all complex scalars and all systems.", "anchors": ["krypy/utils.py:hegedus"]}
{"id": "C13", "title": "Arnoldi relation", "statement": "After k successful advance() calls of an Arnoldi object, A V_k = V_{k+1} H_k (with M: A V_k = P_{k+1} H_k and V = M P), H_k is upper Hessenberg with positive subdiagonal, and get() returns exactly these arrays; when invariance is flagged the truncated relation holds up to the last subdiagonal entry, which is at most 1e-14 times the norm of H.", "quantifier": "all N, A, v, M, ip_B, ortho in {mgs,dmgs}, all k", "why_tests_cant": "The relation must hold for every iteration count of every run.", "anchors": ["krypy/utils.py:Arnoldi.advance", "krypy/utils.py:Arnoldi.get"]}
{"id": "C14", "title": "Arnoldi basis is orthonormal", "statement": "The basis returned by the mgs and dmgs variants is orthonormal in the given inner product (in <x,y>_{M^-1} if a preconditioner is given).", "quantifier": "all N, A, v, M, ip_B, all iteration counts (exact arithmetic)", "why_tests_cant": "Tests sample a few matrices; the claim is universally quantified over all dimensions and all inputs.", "anchors": ["krypy/utils.py:Arnoldi.advance"]}
{"id": "C15", "title": "Lanczos short recurrence yields a full Arnoldi relation for self-adjoint operators", "statement": "If A is self-adjoint in the inner product then ortho='lanczos' produces the same basis and Hessenberg matrix as full orthogonalisation: orthonormal basis, A V_k = V_{k+1} H_k, H real, symmetric and tridiagonal.", "quantifier": "all N, self-adjoint A, v, M, ip_B, all iteration counts", "why_tests_cant": "Tests sample a few matrices; the claim is universally quantified over all dimensions and all inputs.", "anchors": ["krypy/utils.py:Arnoldi.advance"]}
{"id": "C16", "title": "Householder Arnoldi satisfies the Arnoldi relation with orthonormal basis", "statement": "ortho='house' produces an orthonormal basis V with A V_k = V_{k+1} H_k, H upper Hessenberg with non-negative subdiagonal; a non-Euclidean inner product or preconditioner is rejected with ArgumentError.", "quantifier": "all N, A, v, iteration counts", "why_tests_cant": "Tests sample a few matrices; the claim is universally quantified over all dimensions and all inputs.", "anchors": ["krypy/utils.py:Arnoldi", "krypy/utils.py:House"]}
{"id": "C17", "title": "Arnoldi protocol: termination and misuse", "statement": "arnoldi() always terminates after at most maxiter iterations; advance() raises ArgumentError exactly when maxiter is reached or the subspace is invariant, and then leaves the object unchanged; shapes returned by get() are (N,k+1),(k+1,k), or (N,k),(k,k) in the invariant case; an unknown ortho is rejected.", "quantifier": "every sequence of advance()/get() calls, all maxiter (including 0)", "why_tests_cant": "A statement about all call histories.", "anchors": ["krypy/utils.py:Arnoldi", "krypy/utils.py:arnoldi"]}
{"id": "C18", "title": "The Arnoldi basis spans the Krylov subspace", "statement": "While not invariant, span(V_1..V_k) = K_k(M A, M v) for every k.", "quantifier": "all operators, vectors and k", "why_tests_cant": "Tests sample a few matrices; the claim is universally quantified over all dimensions and all inputs.", "anchors": ["krypy/utils.py:Arnoldi.advance"]}
{"id": "C19", "title": "GMRES minimises the residual over the Krylov subspace", "statement": "After k iterations the GMRES iterate x_k lies in x0 + M_r K_k and ||M M_l(b - A x_k)||_{M^-1} <= ||M M_l(b - A z)||_{M^-1} for every z in x0 + M_r K_k; the recorded (updated) residual norm equals the true one, and residual norms are non-increasing.", "quantifier": "all linear systems, preconditioners M, M_l, M_r, inner products, initial guesses and k (exact arithmetic)", "why_tests_cant": "Optimality quantifies over an infinite affine space for every system.", "anchors": ["krypy/linsys.py:Gmres._solve", "krypy/linsys.py:Gmres._get_xk"]}
{"id": "C20", "title": "MINRES minimises the residual over the Krylov subspace", "statement": "For a self-adjoint operator the MINRES short recurrence produces an iterate x_k in x0 + M_r K_k whose residual norm is minimal there, and the recorded norm is the true one.", "quantifier": "all self-adjoint systems, preconditioners, inner products, initial guesses and k", "why_tests_cant": "As C19.", "anchors": ["krypy/linsys.py:Minres._solve"]}
{"id": "C21", "title": "CG minimises the energy norm of the error over the Krylov subspace", "statement": "For a self-adjoint positive definite operator the CG iterate lies in x0 + M_r K_k and minimises the A-norm of the error there; residuals are mutually M-orthogonal and search directions A-conjugate.", "quantifier": "all SPD systems, preconditioners, inner products, initial guesses and k", "why_tests_cant": "As C19.", "anchors": ["krypy/linsys.py:Cg._solve"]}
{"id": "C22", "title": "CG's stored Lanczos data satisfy the Lanczos relation", "statement": "With store_arnoldi=True the arrays V, H (and P) of CG satisfy M_l A M_r V_k = P_{k+1} H_k with V = M P orthonormal and H real symmetric tridiagonal, with conforming numbers of columns.", "quantifier": "all SPD systems and all iteration counts", "why_tests_cant": "Tests sample a few matrices; the claim is universally quantified over all dimensions and all inputs.", "anchors": ["krypy/linsys.py:Cg._solve", "krypy/linsys.py:Cg._finalize"]}
{"id": "C23", "title": "Solver contract: normal return means converged, otherwise ConvergenceError", "statement": "A solver constructor that returns normally has resnorms[-1] <= tol; if the tolerance is not reached within maxiter iterations, ConvergenceError is raised and carries a solver whose xk is the last approximation. This must hold for every behaviour of the arithmetic, including NaN.", "quantifier": "every system, every tolerance, every maxiter, every sequence of residual norms the arithmetic may produce", "why_tests_cant": "The set of residual histories is infinite; NaN and invariant-subspace exits are not sampled.", "anchors": ["krypy/linsys.py:_KrylovSolver", "krypy/linsys.py:_KrylovSolver._finalize_iteration"]}
{"id": "C24", "title": "Iteration accounting", "statement": "A solver performs at most maxiter iterations; len(resnorms) == number of iterations + 1; errnorms (if exact_solution is given) has the same length; the loop stops at the first iteration whose recorded relative residual norm is <= tol; a sufficiently good initial guess gives zero iterations.", "quantifier": "every system, tolerance, maxiter and residual history", "why_tests_cant": "Universal over histories.", "anchors": ["krypy/linsys.py:_KrylovSolver", "krypy/linsys.py:Cg._solve", "krypy/linsys.py:Minres._solve", "krypy/linsys.py:Gmres._solve"]}
{"id": "C25", "title": "The last recorded residual norm is the explicitly computed one", "statement": "When a solver returns after converging or raises ConvergenceError, resnorms[-1] equals ||M M_l(b-A xk)||_{M^-1}/||M M_l b||_{M^-1} evaluated explicitly for the returned xk (not the recursively updated value), and errnorms[-1] is the error norm of xk.", "quantifier": "every system, options and residual history; arbitrary arithmetic", "why_tests_cant": "Universal over histories.", "anchors": ["krypy/linsys.py:_KrylovSolver._finalize_iteration"]}
{"id": "C26", "title": "Zero right hand side and missing initial guess", "statement": "If ||M M_l b||_{M^-1} is zero the solver returns xk = 0 with resnorms == [0.0] whatever x0 is; x0=None is equivalent to x0=0; get_residual(None) agrees with get_residual(0).", "quantifier": "all systems, all x0, all tol >= 0", "why_tests_cant": "Tests sample a few matrices; the claim is universally quantified over all dimensions and all inputs.", "anchors": ["krypy/linsys.py:_KrylovSolver.__init__", "krypy/linsys.py:LinearSystem.get_residual"]}
{"id": "C27", "title": "Restarted solver contract", "statement": "RestartedGmres runs the inner solver at most max_restarts+1 times, each run starting from the previous approximation; resnorms is the concatenation with the duplicated boundary entries removed, with at most (max_restarts+1)*maxiter+1 entries; it raises ConvergenceError exactly if the last recorded residual norm exceeds tol.", "quantifier": "every inner solver behaviour, every max_restarts, maxiter", "why_tests_cant": "Universal over histories of restarts.", "anchors": ["krypy/linsys.py:_RestartedSolver"]}
{"id": "C28", "title": "GMRES, MINRES and CG find the exact solution in at most N steps", "statement": "For a nonsingular (preconditioned) operator and maxiter >= N, GMRES (MINRES for a self-adjoint operator, CG for a self-adjoint positive definite one) in exact arithmetic never raises ConvergenceError or divides by zero and returns an approximation with residual at most tol, for every tol >= 0.", "quantifier": "all N, nonsingular systems, right hand sides, initial guesses", "why_tests_cant": "Tests sample a few matrices; the claim is universally quantified over all dimensions and all inputs.", "anchors": ["krypy/linsys.py:Gmres._solve", "krypy/linsys.py:Minres._solve", "krypy/linsys.py:Cg._solve"]}
{"id": "C29", "title": "Deflated solvers report the true residual of the corrected solution", "statement": "For deflated solvers the projected residual driving the iteration equals the residual of the corrected iterate, so convergence of the deflated iteration means convergence of the original system; the residual stays orthogonal to U, and U=None (no deflation vectors) gives the undeflated method.", "quantifier": "all systems with nonsingular <U,M_l A M_r U>, all U, preconditioners", "why_tests_cant": "Tests sample a few matrices; the claim is universally quantified over all dimensions and all inputs.", "anchors": ["krypy/deflation.py:_DeflationMixin", "krypy/deflation.py:DeflatedGmres"]}
{"id": "C30", "title": "Deflation by-products E, C and B_", "statement": "After a deflated solve, E = <U,M_l A M_r U>, C = <U, M_l A M_r V_n> (for DeflatedCg through its three-term recurrence) and B_ = <V_{n+1}, M_l A M_r U>.", "quantifier": "all systems, deflation spaces and iteration counts", "why_tests_cant": "Tests sample a few matrices; the claim is universally quantified over all dimensions and all inputs.", "anchors": ["krypy/deflation.py:_DeflationMixin", "krypy/deflation.py:DeflatedCg._apply_projection", "krypy/deflation.py:_DeflationMixin.B_"]}
{"id": "C31", "title": "Ritz pairs of a deflated solve", "statement": "Ritz(solver) returns Ritz values/vectors of M M_l A M_r with respect to span[V_n,U], and resnorms are the residual norms of these pairs, also for non-self-adjoint problems; in harmonic mode they are harmonic Ritz pairs.", "quantifier": "all deflated runs, given a correct dense eigensolver", "why_tests_cant": "The corresponding assertions are commented out in the test-suite.", "anchors": ["krypy/deflation.py:Ritz"]}
{"id": "C32", "title": "Ritz pairs from a Hessenberg matrix", "statement": "ritz(H,V,type) returns pairs with A z - theta z orthogonal to the Krylov space (ritz) resp. to A K (harmonic), and resnorm is the exact residual norm of each pair; improved harmonic values never have larger residual than harmonic ones.", "quantifier": "all Arnoldi relations, given a correct dense eigensolver", "why_tests_cant": "Tests sample a few matrices; the claim is universally quantified over all dimensions and all inputs.", "anchors": ["krypy/utils.py:ritz"]}
{"id": "C33", "title": "get_residual_norms predicts GMRES residual norms", "statement": "get_residual_norms(H) returns the relative residual norms min_y ||e_1 - H_k y|| for k=0..n, starting with 1, non-increasing, ending with 0 for square nonsingular H; the self_adjoint shortcut gives the same numbers for tridiagonal H.", "quantifier": "all Hessenberg matrices of all sizes", "why_tests_cant": "Tests sample a few matrices; the claim is universally quantified over all dimensions and all inputs.", "anchors": ["krypy/utils.py:get_residual_norms"]}
{"id": "C34", "title": "Interval operations are set operations", "statement": "For closed intervals, contains is membership, a & b is the intersection (None iff disjoint), a | b is the union if they intersect and None otherwise, distance is the distance of the two sets, and left > right is rejected.", "quantifier": "all pairs of real intervals", "why_tests_cant": "Infinite ordered domain with many degenerate cases (touching, nested, single points).", "anchors": ["krypy/utils.py:Interval"]}
{"id": "C35", "title": "Intervals keeps a disjoint union", "statement": "After any sequence of add() calls an Intervals object represents exactly the union of the added intervals as pairwise disjoint intervals, independently of the iteration order of the underlying set and of the order of insertion.", "quantifier": "all insertion sequences and all set iteration orders", "why_tests_cant": "Set iteration order is not under the test's control and histories are unbounded.", "anchors": ["krypy/utils.py:Intervals.add", "krypy/utils.py:Intervals.contains", "krypy/utils.py:Intervals.get_endpoints"]}
{"id": "C36", "title": "Intervals extremal queries", "statement": "min/max/min_pos/max_neg/min_abs/max_abs return the corresponding extremum over the represented set (None where documented) and empty sets are reported as an error.", "quantifier": "all Intervals objects reachable by add()", "why_tests_cant": "Tests sample a few matrices; the claim is universally quantified over all dimensions and all inputs.", "anchors": ["krypy/utils.py:Intervals.min", "krypy/utils.py:Intervals.min_pos", "krypy/utils.py:Intervals.min_abs", "krypy/utils.py:Intervals.max_abs"]}
{"id": "C37", "title": "gap is the spectral gap", "statement": "gap(lamda, sigma) is the minimal distance between the two sets in mode 'individual'; in mode 'interval' it is the supremum of admissible delta, and None exactly if a sigma lies strictly inside the hull of lamda; other modes are rejected.", "quantifier": "all non-empty finite real sets", "why_tests_cant": "Tests sample a few matrices; the claim is universally quantified over all dimensions and all inputs.", "anchors": ["krypy/utils.py:gap"]}
{"id": "C38", "title": "CG bound", "statement": "BoundCG(evals).base lies in [0,1) and equals (sqrt(kappa)-1)/(sqrt(kappa)+1) with kappa the ratio of the largest to the smallest positive eigenvalue, independent of order and positive scaling of evals; eval_step is 2*base^n, non-increasing, and get_step(tol) is the step where the bound equals tol; non-positive spectra are rejected.", "quantifier": "all finite lists of eigenvalues, all steps, all tolerances", "why_tests_cant": "Tests sample a few matrices; the claim is universally quantified over all dimensions and all inputs.", "anchors": ["krypy/utils.py:BoundCG"]}
{"id": "C39", "title": "MINRES bound", "statement": "BoundMinres of a non-negative spectrum behaves like BoundCG; otherwise base = (a-b)/(a+b) with a=sqrt|l1 lN|, b=sqrt|ls lt|, lies in [0,1); eval_step is non-increasing and constant on pairs of steps; get_step inverts it; spectra without positive or without negative part raise a krypy error.", "quantifier": "all finite lists of real eigenvalues", "why_tests_cant": "Tests sample a few matrices; the claim is universally quantified over all dimensions and all inputs.", "anchors": ["krypy/utils.py:BoundMinres"]}
{"id": "C40", "title": "Root polynomial evaluation is independent of the internal reordering", "statement": "NormalizedRootsPolynomial(roots)(x) equals prod_i (1 - x/theta_i), in particular p(0)=1 and p(theta_i)=0; the interlaced reordering used against over/underflow is a permutation for every number of roots.", "quantifier": "all lists of nonzero roots (odd and even lengths, also empty), all points", "why_tests_cant": "Tests sample a few matrices; the claim is universally quantified over all dimensions and all inputs.", "anchors": ["krypy/utils.py:NormalizedRootsPolynomial"]}
{"id": "C41", "title": "Strakos spectrum", "statement": "strakos(n,l_min,l_max,rho) has diagonal entries increasing from l_min to l_max for 0<rho<=1, l_min<l_max and n>=2.", "quantifier": "all n, l_min, l_max, rho", "why_tests_cant": "Tests sample a few matrices; the claim is universally quantified over all dimensions and all inputs.", "anchors": ["krypy/utils.py:strakos"]}
{"id": "C42", "title": "Timings bookkeeping", "statement": "Timings.get(key) is 0 for unknown or empty keys and the minimum of recorded times otherwise; get_ops is the count-weighted sum; every timed application of an operator appends exactly one entry, the elapsed time divided by the number of columns, and returns the untimed result; nothing is recorded for empty blocks; an exception inside a timed block is still recorded and propagated.", "quantifier": "all sequences of timed operations", "why_tests_cant": "History property.", "anchors": ["krypy/utils.py:Timer", "krypy/utils.py:Timings", "krypy/utils.py:TimedLinearOperator"]}
{"id": "C43", "title": "The implicit M^{-1}-inner product", "statement": "LinearSystem.get_ip_Minv_B() returns an inner product equal to <M^{-1}x,y>_B for every self-adjoint positive definite preconditioner M, whichever way ip_B was specified, and raises ArgumentError if M is given without Minv.", "quantifier": "all M, ip_B", "why_tests_cant": "Tests sample a few matrices; the claim is universally quantified over all dimensions and all inputs.", "anchors": ["krypy/linsys.py:LinearSystem.get_ip_Minv_B"]}
{"id": "C44", "title": "Convenience wrappers pass on all arguments", "statement": "cg/minres/gmres solve the system with all given arguments (M, Ml, Mr, inner_product, U, x0, tol, maxiter); they return the solution reshaped like b when the solver converged (resnorms[-1] <= tol) and None otherwise; an inner_product callable is turned into a block inner product.", "quantifier": "all argument combinations, all outcomes", "why_tests_cant": "Argument combinations and outcomes are not enumerated by tests.", "anchors": ["krypy/_convenience.py:cg", "krypy/_convenience.py:minres", "krypy/_convenience.py:gmres", "krypy/_convenience.py:wrap_inner_product"]}
{"id": "C45", "title": "Greedy Ritz subset selection terminates and is optimal among evaluated subsets", "statement": "RitzFactory._get_best_subset terminates for every evaluator and every generator that proposes non-empty subsets of the remaining indices, returns an evaluated subset of minimal cost among all successfully evaluated subsets (including the empty one) or the empty selection if none could be evaluated, and never selects an index twice or out of range.", "quantifier": "all evaluators (including ones that always fail), all generators that return subsets of the remaining indices, all Ritz values", "why_tests_cant": "Termination and optimality over all evaluator behaviours.", "anchors": ["krypy/recycling/factories.py:RitzFactory._get_best_subset"]}
{"id": "C46", "title": "Subset generators", "statement": "RitzSmall proposes the remaining Ritz value of smallest magnitude; RitzExtremal proposes extremal remaining values; both only propose remaining indices, stop when at most one index remains or max_vectors are already selected, so a selection never exceeds max_vectors.", "quantifier": "all Ritz values, all remaining sets, all max_vectors", "why_tests_cant": "Tests sample a few matrices; the claim is universally quantified over all dimensions and all inputs.", "anchors": ["krypy/recycling/generators.py:RitzSmall", "krypy/recycling/generators.py:RitzExtremal"]}
{"id": "C47", "title": "RitzFactorySimple selects at most n_vectors by the requested criterion", "statement": "RitzFactorySimple.get returns min(n_vectors, number of Ritz pairs) vectors whose values are the extremal ones for the criterion; n_vectors=0 selects none.", "quantifier": "all Ritz values, all n_vectors >= 0, all criteria", "why_tests_cant": "n_vectors=0 and ties are not tested.", "anchors": ["krypy/recycling/factories.py:RitzFactorySimple", "krypy/recycling/factories.py:UnionFactory"]}
{"id": "C48", "title": "Recycling over a sequence of systems", "statement": "A recycling solver uses no deflation vectors in its first solve, afterwards deflates with the vectors its factory computes from the most recent successful solve; a failing solve leaves last_solver unchanged; results are those of the deflated solver.", "quantifier": "all sequences of solve() calls, with successes and failures", "why_tests_cant": "History property.", "anchors": ["krypy/recycling/linsys.py:_RecyclingSolver"]}
{"id": "C49", "title": "Operation counts", "statement": "operations(nsteps) returns the number of applications of A, M, Ml, Mr and ip_B that the solver actually performs in a run of nsteps iterations without initial guess (including the final explicit residual).", "quantifier": "all nsteps", "why_tests_cant": "Counts must match for every number of steps.", "anchors": ["krypy/linsys.py:Cg.operations", "krypy/linsys.py:Minres.operations", "krypy/linsys.py:Gmres.operations"]}
{"id": "C50", "title": "Timing wrappers do not change results", "statement": "TimedLinearSystem and ConvertedTimedLinearSystem define the same linear system: all operators, inner product, flags and residuals agree with those of the wrapped system.", "quantifier": "all linear systems, all vectors", "why_tests_cant": "Tests sample a few matrices; the claim is universally quantified over all dimensions and all inputs.", "anchors": ["krypy/linsys.py:TimedLinearSystem", "krypy/linsys.py:ConvertedTimedLinearSystem"]}
{"id": "C51", "title": "Projected Arnoldi relation", "statement": "arnoldi_projected(H,P,k) returns U,G,F with orthonormal U such that P H U_i = U_{i+1} G_i and the error row F_i = h_{n+1,n} e_n^T U_i.", "quantifier": "all Hessenberg H, projections P, k", "why_tests_cant": "Tests sample a few matrices; the claim is universally quantified over all dimensions and all inputs.", "anchors": ["krypy/utils.py:arnoldi_projected"]}
{"id": "C52", "title": "Residual computation", "statement": "LinearSystem.get_residual(z) returns M M_l(b-Az), M_l(b-Az) and the norm ||M M_l (b-Az)||_{M^-1}; the residual of an exact solution is zero; MlAMr is M_l A M_r.", "quantifier": "all systems and z", "why_tests_cant": "Tests sample a few matrices; the claim is universally quantified over all dimensions and all inputs.", "anchors": ["krypy/linsys.py:LinearSystem", "krypy/linsys.py:LinearSystem.get_residual"]}
{"id": "C53", "title": "Principal angles", "statement": "angles(F,G) returns max(k,l) angles in [0,pi/2] in non-decreasing order, the last |k-l| equal to pi/2, symmetric in F and G, depending on the spanned spaces only; they are the arccosines of the singular values of <Q_F,Q_G> for any orthonormal bases; the smallest is zero iff the spaces intersect, given a correct SVD.", "quantifier": "all F, G, ip_B", "why_tests_cant": "Tests sample a few matrices; the claim is universally quantified over all dimensions and all inputs.", "anchors": ["krypy/utils.py:angles"]}
{"id": "C54", "title": "Arnoldifyer projects the operator onto the deflated Krylov space", "statement": "The matrices J, L, M assembled by Arnoldifyer represent <[V_n,U], A[V_n,U]> = J L = M in terms of the stored by-products of a deflated solve.", "quantifier": "all deflated runs", "why_tests_cant": "Tests sample a few matrices; the claim is universally quantified over all dimensions and all inputs.", "anchors": ["krypy/deflation.py:Arnoldifyer"]}
{"id": "C55", "title": "Principal vectors", "statement": "angles(F,G,compute_vectors=True) returns orthonormal bases U, V of the ranges of F and G with <U,V> = diag(cos(theta)).", "quantifier": "all F, G, ip_B", "why_tests_cant": "Tests sample a few matrices; the claim is universally quantified over all dimensions and all inputs.", "anchors": ["krypy/utils.py:angles"]}
{"id": "C56", "title": "Arnoldifyer.get returns an Arnoldi relation of a perturbed deflated operator", "statement": "For deflation vectors W=[V_n,U]Wt, get(Wt, full=True) returns an orthonormal basis Vh of the part of K_n+span(U) that is orthogonal to W, an upper Hessenberg matrix Hh, a matrix Rh and a self-adjoint F=-Z Rh Vh^*-Vh Rh^* Z^* with P A Vh = Vh Hh + Z Rh and (P A + F) Vh = Vh Hh, where P is the projection for W; Vh starts with the component of the projected residual in the space (of norm q_norm), vdiff_norm is the norm of the other component, and PWAW_norm is the norm of P.", "quantifier": "all deflated runs with at least one row of H, all Wt with nonsingular <W, A W>", "why_tests_cant": "Tests sample a few matrices; the claim is universally quantified over all dimensions and all inputs.", "anchors": ["krypy/deflation.py:Arnoldifyer.get"]}
{"id": "C57", "title": "BoundCG bounds the error of CG", "statement": "If BoundCG accepts numbers between which all eigenvalues of M M_l A M_r lie, then after i iterations of Cg the energy norm of the error is at most eval_step(i) times the energy norm of the initial error.", "quantifier": "all self-adjoint positive definite systems, all preconditioners and inner products, all initial guesses, all i", "why_tests_cant": "Tests sample a few matrices; the claim is universally quantified over all dimensions and all inputs.", "anchors": ["krypy/utils.py:BoundCG", "krypy/linsys.py:Cg"]}
{"id": "C58", "title": "BoundMinres bounds the residual norms of MINRES and GMRES", "statement": "If BoundMinres accepts numbers between which all eigenvalues of the self-adjoint M M_l A M_r lie (negative ones between negative, positive ones between positive numbers), then resnorms[i] <= eval_step(i)*resnorms[0] for Minres and Gmres.", "quantifier": "all self-adjoint systems, all preconditioners and inner products, all initial guesses, all i", "why_tests_cant": "Tests sample a few matrices; the claim is universally quantified over all dimensions and all inputs.", "anchors": ["krypy/utils.py:BoundMinres", "krypy/linsys.py:Minres", "krypy/linsys.py:Gmres"]}
{"id": "C59", "title": "The a priori bounds for deflated solvers of positive definite systems", "statement": "If BoundCG (BoundMinres) accepts numbers between which all nonzero eigenvalues of the deflated operator M P M_l A M_r lie, then after i iterations of DeflatedCg the energy norm of the error is at most eval_step(i) times that of any initial error x0 + U c, and resnorms[i] <= eval_step(i)*resnorms[0] for DeflatedMinres and DeflatedGmres.", "quantifier": "all self-adjoint positive definite systems, all U with nonsingular <U, M_l A M_r U>, all initial guesses, all i", "why_tests_cant": "Tests sample a few matrices; the claim is universally quantified over all dimensions and all inputs.", "anchors": ["krypy/utils.py:BoundCG", "krypy/utils.py:BoundMinres", "krypy/deflation.py:DeflatedCg", "krypy/deflation.py:DeflatedMinres"]}
{"id": "C60", "title": "BoundMinres for deflated solvers of indefinite systems", "statement": "If BoundMinres accepts numbers between which all nonzero eigenvalues of the deflated self-adjoint operator M P M_l A M_r lie (negative between negative, positive between positive ones), then resnorms[i] <= eval_step(i)*resnorms[0] for DeflatedMinres and DeflatedGmres.", "quantifier": "all self-adjoint solvable systems, all U with nonsingular <U, M_l A M_r U>, all initial guesses, all i", "why_tests_cant": "Tests sample a few matrices; the claim is universally quantified over all dimensions and all inputs.", "anchors": ["krypy/utils.py:BoundMinres", "krypy/deflation.py:DeflatedMinres", "krypy/deflation.py:DeflatedGmres"]}
{"id": "C61", "title": "Deflating eigenvectors removes exactly their eigenvalues", "statement": "If the columns of U are eigenvectors of the self-adjoint M M_l A M_r, the nonzero eigenvalues of M P M_l A M_r are those of M M_l A M_r that have an eigenvector v with <U, M_l A M_r v> = 0; hence BoundCG and BoundMinres of the remaining eigenvalues bound the convergence of DeflatedCg and DeflatedMinres.", "quantifier": "all self-adjoint (for the bounds: positive definite) systems, all sets of eigenvectors U", "why_tests_cant": "Tests sample a few matrices; the claim is universally quantified over all dimensions and all inputs.", "anchors": ["krypy/recycling/evaluators.py:RitzApriori", "krypy/deflation.py:_DeflationMixin"]}
{"id": "C62", "title": "Time estimates", "statement": "estimate_time(nsteps, ndeflation) of a solver class raises RuntimeError if the linear system is not a TimedLinearSystem; without deflation vectors it returns the sum over the operators of the least recorded time times the number of applications that a run of nsteps iterations performs, hence at most the time recorded in a run; deflation vectors add the documented setup and projection costs; the estimate is nonnegative and monotone in the number of steps, vectors and the deflation weight.", "quantifier": "all recorded timings, all nsteps, all ndeflation and weights", "why_tests_cant": "Tests sample a few matrices; the claim is universally quantified over all dimensions and all inputs.", "anchors": ["krypy/deflation.py:_DeflationMixin.estimate_time", "krypy/linsys.py:Cg.operations", "krypy/linsys.py:Minres.operations", "krypy/linsys.py:Gmres.operations"]}
{"id": "C63", "title": "RitzApriori considers the spectrum that remains after deflation", "statement": "With strategy simple RitzApriori passes exactly the Ritz values outside the subset to the bound; with strategy intervals a disjoint family of intervals that covers the other Ritz values enlarged by their residual norms and the perturbation estimate, or raises AssumptionError if the perturbation is not smaller than the gap or a chosen value is 0; both agree for exact pairs. The result does not depend on the order of the set, and is estimate_time of the least step at which the bound reaches tol.", "quantifier": "all Ritz values and residual norms, all subsets, all iteration orders of sets", "why_tests_cant": "Tests sample a few matrices; the claim is universally quantified over all dimensions and all inputs.", "anchors": ["krypy/recycling/evaluators.py:RitzApriori"]}
{"id": "C64", "title": "RitzApproxKrylov extrapolates the residual bounds", "statement": "With mode extrapolate the number of steps is the least real n with b_0 alpha^n <= tol for the least alpha such that all computed bounds satisfy b_j <= b_0 alpha^j; AssumptionError is raised if the bounds do not decrease or vanish; with mode direct it is the first index at which the bound is at most tol.", "quantifier": "all arrays of residual bounds, all tol", "why_tests_cant": "Tests sample a few matrices; the claim is universally quantified over all dimensions and all inputs.", "anchors": ["krypy/recycling/evaluators.py:RitzApproxKrylov"]}
{"id": "C65", "title": "Reported residual norms enclose eigenvalues", "statement": "If the operator is self-adjoint then for every value theta and residual norm r returned by utils.ritz (types ritz, harmonic, harmonic_improved) and deflation.Ritz (modes ritz, harmonic) there is a real eigenvalue of the operator in [theta-r, theta+r]; if r=0, theta is an eigenvalue.", "quantifier": "all self-adjoint operators and Arnoldi or Lanczos bases, all deflated runs", "why_tests_cant": "Tests sample a few matrices; the claim is universally quantified over all dimensions and all inputs.", "anchors": ["krypy/utils.py:ritz", "krypy/deflation.py:Ritz"]}
{"id": "C66", "title": "bound_pseudo without pseudospectra", "statement": "For a deflated run with exact relations and deflation vectors W=[V_n,U]Wt, bound_pseudo with pseudo_type omit raises AssumptionError if the smallest singular value of <W,MAW> is not greater than WGW_norm or g_norm is not less than ||M Ml b||; otherwise its result times ||M Ml b||-g_norm are, for Q the orthogonal projection onto the complement of W in K_n+span U and P_W the projection of the next deflated system, the residual norms of the minimal residual method (solvers Gmres, Minres) or of a Galerkin method up to tol (Cg) for the operator Q P_W M A and the right hand side Q P_W M r_0.", "quantifier": "all linear systems, runs, deflation coefficients and perturbation norms", "why_tests_cant": "Tests sample a few matrices; the claim is universally quantified over all dimensions and all inputs.", "anchors": ["krypy/deflation.py:bound_pseudo", "krypy/utils.py:get_residual_norms"]}
{"id": "C67", "title": "norms of blocks, orthonormality and arnoldi_res", "statement": "For an inner product ip_B, norm(X, ip_B=B) of a nonempty block is the largest norm of X c over the coefficient vectors c of length 1; orthonormality(V, B) is the smallest t with |<V c, V d> - <c, d>| <= t |c| |d| for all c, d and 0 iff V is orthonormal; arnoldi_res(A, V, H, B) is the norm of A V_q - V H and 0 iff the relation holds. For the result of arnoldi without M, orthonormality is 0 and arnoldi_res is 0, or the neglected last subdiagonal entry of H if an invariant subspace was flagged.", "quantifier": "all blocks, inner products, operators and Arnoldi runs", "why_tests_cant": "Tests sample a few matrices; the claim is universally quantified over all dimensions and all inputs.", "anchors": ["krypy/utils.py:norm", "krypy/utils.py:orthonormality", "krypy/utils.py:arnoldi_res"]}
{"id": "C68", "title": "norm_MMlr", "statement": "norm_MMlr(M, Ml, A, Mr, b, x0, yk) returns xk = x0 + Mr yk together with Ml r, M Ml r for r = b - A xk and the norm of the latter.", "quantifier": "all operators and vectors", "why_tests_cant": "Tests sample a few matrices; the claim is universally quantified over all dimensions and all inputs.", "anchors": ["krypy/utils.py:norm_MMlr"]}
{"id": "C69", "title": "bound_pseudo with pseudospectra", "statement": "For pseudo_type other than 'omit' and 'contain', bound_pseudo returns a nonincreasing sequence that starts with the first number of pseudo_type='omit'; for residual minimising methods no number is smaller than the one of 'omit'. For a self-adjoint system number i is the minimum of the previous number and aresnorm_i + (2 delta)/(2 pi delta) (epsilon/(delta - epsilon) (q + beta) + beta) m, over ||M Ml b|| - g_norm, for some delta in the range from 1.01 epsilon to the larger of 1.01 epsilon and delta_max, where m is the maximum of |p| over the intervals of radius delta around the eigenvalues of Hh and p is the residual polynomial of step i. The numbers bound the relative residual norms of the deflated method, and pseudo_type selects the kind of pseudospectrum.", "quantifier": "all systems, deflation vectors, subspaces W, perturbation norms and pseudo types", "why_tests_cant": "Tests sample a few matrices; the claim is universally quantified over all dimensions and all inputs.", "anchors": ["krypy/deflation.py:bound_pseudo"]}
{"id": "C70", "title": "bound_perturbed_gmres", "statement": "bound_perturbed_gmres(pseudo, p, epsilon, deltas) returns for each delta epsilon/(delta - epsilon) length/(2 pi delta) max |p| over the vertices of the contour; ArgumentError is raised if some delta does not exceed epsilon, and an empty contour is an error.", "quantifier": "all contours, roots, epsilon and deltas", "why_tests_cant": "Tests sample a few matrices; the claim is universally quantified over all dimensions and all inputs.", "anchors": ["krypy/utils.py:bound_perturbed_gmres"]}
{"id": "C71", "title": "perturbation numbers of bound_pseudo", "statement": "Let the next system have the operator MA + G and the initial residual M r0 + g, with ||g|| <= g_norm, ||G|| <= G_norm, ||G|_W|| <= GW_norm and ||<W, G W>|| <= WGW_norm. If bound_pseudo does not raise AssumptionError for sigma_min then <W, (MA + G) W> is nonsingular; beta bounds the norm of the difference of the deflated initial residual of the next system and the vector that is represented by q_norm e_1, if ||M r0|| <= ||M Ml b||; and epsilon of step i bounds the difference of the deflated operator of the next system and Vh Hh Vh^* on the span of the first i columns of Vh, if the norm of <W, MA x> for x in this span is bounded by ||Hh|| ||x||.", "quantifier": "all systems, methods, deflation vectors, orthonormal W and perturbations", "why_tests_cant": "Tests sample a few matrices; the claim is universally quantified over all dimensions and all inputs.", "anchors": ["krypy/deflation.py:bound_pseudo"]}
{"id": "C72", "title": "dtype of linear operators", "statement": "find_common_dtype returns the least of the types int64, float64, complex128 that includes the types of all arrays, sparse matrices and linear operators among its arguments (float64 if there is none). The attribute dtype of an operator expression (sums, differences, negatives, products, scalar multiples, powers, adjoints) is the least type that includes the types of the operators and scalars in it, where identity factors of products do not count; and if the given operators and scalars have the types they claim then dot and dot_adj map arrays of any type from this dtype on to arrays of the same type.", "quantifier": "all argument lists and all operator expressions", "why_tests_cant": "Tests sample a few matrices; the claim is universally quantified over all dimensions and all inputs.", "anchors": ["krypy/utils.py:find_common_dtype", "krypy/utils.py:_get_dtype", "krypy/utils.py:LinearOperator"]}
{"id": "C73", "title": "dtype of the arrays of Arnoldi and the solvers", "statement": "If Arnoldi.dtype is not int64 and the inner product of two columns of this type is of this type then every number that is stored in V, P and H is of this type; with the dtype of a solver this also holds for R and y of Gmres, W and yk of Minres, the vectors of Cg, and the approximate solution: real data never lead to complex numbers in a real array.", "quantifier": "all operators, vectors, inner products, orthogonalisations, numbers of steps", "why_tests_cant": "Tests sample a few matrices; the claim is universally quantified over all dimensions and all inputs.", "anchors": ["krypy/utils.py:Arnoldi", "krypy/linsys.py:LinearSystem", "krypy/linsys.py:_KrylovSolver"]}
{"id": "C74", "title": "dtype of qr, projections and the deflated solvers", "statement": "If X is of type float64 or complex128, and so are the inner products of blocks of this type, then so are the factors Q and R of qr, and the operators of Projection(X, Y) map blocks of this type to blocks of this type. If the dtype of a deflated solver, which includes the type of U, is not int64 then the arrays V, P, H, R, y, W, yk and C and the approximate solution are of this type.", "quantifier": "all blocks, inner products, linear systems, deflation vectors, options", "why_tests_cant": "Tests sample a few matrices; the claim is universally quantified over all dimensions and all inputs.", "anchors": ["krypy/utils.py:qr", "krypy/utils.py:Projection", "krypy/deflation.py:_DeflationMixin"]}
{"id": "C75", "title": "arguments of LinearSystem", "statement": "shape_vecs makes columns of arrays with one axis and changes nothing else. get_linearoperator returns an operator of the requested shape that acts like its argument (the identity for None), raises TypeError for objects of other types and LinearOperatorError for other shapes. LinearSystem(A, b, ...) has the attributes of the system that the arguments denote (operators given as arrays, sparse matrices, scipy operators, LinearOperators or None, vectors with one or two axes, inner products as operators or functions), and get_residual returns M Ml (b - A z) with its norm; every constructed system has operators of shape (N, N), and self_adjoint implies normal.", "quantifier": "all arguments of all shapes and kinds", "why_tests_cant": "Tests sample a few matrices; the claim is universally quantified over all dimensions and all inputs.", "anchors": ["krypy/utils.py:shape_vecs", "krypy/utils.py:get_linearoperator", "krypy/linsys.py:LinearSystem"]}
{"id": "C76", "title": "the result does not depend on the implementation", "statement": "Gmres with every admissible ortho and Minres record the same residual norms, whatever maxiter and explicit_residual are, and after the same number of iterations return the same approximation; so does Cg with and without store_arnoldi. If both reach the same tolerance the lists resnorms are equal. The inverse squares of the residual norms of Minres/Gmres are the partial sums of those of Cg. Multiplying A, b, M, Ml, Mr or the inner product by scalars changes neither the residual norms nor, up to the scaling of the solution, the approximations. M is equivalent to the left preconditioner M Ml with the inner product <.,M^-1.>. The solvers return x0 + Mr y where y is what they return for Ml A Mr y = Ml (b - A x0) started from 0.", "quantifier": "all systems, initial guesses, options and scalars", "why_tests_cant": "Tests sample a few matrices; the claim is universally quantified over all dimensions and all inputs.", "anchors": ["krypy/linsys.py:Gmres", "krypy/linsys.py:Minres", "krypy/linsys.py:Cg"]}
{"id": "C77", "title": "deflation depends on the span of the deflation vectors only", "statement": "If the columns of U and V span the same space then correct of the two ObliqueProjections is the same function, and DeflatedGmres and DeflatedMinres -- with any admissible ortho, projection_kwargs, maxiter and explicit_residual -- record the same residual norms with U and with V and return the same approximation after the same number of iterations; if both reach the same tolerance the lists resnorms are equal. The same holds for DeflatedCg. A component of x0 in the span of U has no effect on the residual norms and on the approximation.", "quantifier": "all systems, deflation vectors, initial guesses and options", "why_tests_cant": "Tests sample a few matrices; the claim is universally quantified over all dimensions and all inputs.", "anchors": ["krypy/deflation.py:_DeflationMixin", "krypy/deflation.py:ObliqueProjection", "krypy/deflation.py:DeflatedGmres", "krypy/deflation.py:DeflatedMinres", "krypy/deflation.py:DeflatedCg"]}
{"id": "C78", "title": "number of iterations of plain and deflated solvers", "statement": "If the initial residual is a sum of m eigenvectors of Ml A Mr M for nonzero eigenvalues then Gmres, Minres and Cg stop after at most m iterations, after exactly m with residual norm 0 and a solution. DeflatedGmres, DeflatedMinres and DeflatedCg with k deflation vectors need at most N - k iterations, and none (resnorms = [0]) if x0 + U c is a solution for some c. If the span of U is invariant under M Ml A Mr, the part of the initial residual in the image of U does not count, the residual norms of DeflatedGmres and DeflatedMinres are at most those of Gmres and Minres in every iteration, they do not need more iterations for the same tolerance, and the energy norm of the error of DeflatedCg is at most that of Cg.", "quantifier": "all systems, initial guesses, deflation vectors and options with tol >= 0", "why_tests_cant": "Tests sample a few matrices; the claim is universally quantified over all dimensions and all inputs.", "anchors": ["krypy/linsys.py:Gmres", "krypy/linsys.py:Minres", "krypy/linsys.py:Cg", "krypy/deflation.py:_DeflationMixin", "krypy/deflation.py:DeflatedGmres", "krypy/deflation.py:DeflatedMinres", "krypy/deflation.py:DeflatedCg"]}
{"id": "C79", "title": "RestartedGmres: monotone residual norms, soundness and convergence", "statement": "For RestartedGmres, resnorms starts with the relative residual norm of x0 and ends with that of xk, and it does not increase from entry to entry, also across restarts, both on normal return and in the solver attached to ConvergenceError. On normal return the residual norm of xk is at most tol times the norm of the right hand side. With max_restarts = 0 the result is that of Gmres, and a zero right hand side gives xk = 0. If Re <v, T v> >= c <v, v> and ||T v|| <= d ||v|| for T = Ml A Mr M in the inner product of M and 0 < c <= d, every entry of resnorms is at most sqrt(1 - (c/d)^2) times the entry before (for Gmres and Minres as well), and RestartedGmres with any maxiter >= 1 returns normally if sqrt(1 - (c/d)^2)^(max_restarts+1) times the initial relative residual norm is at most tol. If exact_solution is given, errnorms has as many entries as resnorms, starts with the error of x0 and ends with the error of xk; it does not increase for positive definite systems without M and Mr.", "quantifier": "all systems, initial guesses, tolerances, maxiter and max_restarts", "why_tests_cant": "Tests sample a few matrices; the claim is universally quantified over all dimensions and all inputs.", "anchors": ["krypy/linsys.py:RestartedGmres", "krypy/linsys.py:_RestartedSolver", "krypy/linsys.py:Gmres", "krypy/linsys.py:Minres"]}
{"id": "C80", "title": "error norms", "statement": "If exact_solution is given, errnorms has as many entries as resnorms, and entry i is the ip_B-norm of exact_solution - x_i, where x_i is the i-th approximation: x0 + Mr z with z the minimiser of the residual norm over the i-th Krylov space for Gmres and Minres, and the Galerkin approximation for Cg. If Ml A Mr is self-adjoint and positive definite and there is no Mr, the error of Gmres, Minres and Cg does not grow with the number of iterations and that of Cg is at most that of Gmres and Minres after as many iterations, in the energy norm and in the norm of M^-1. In particular, without M, errnorms does not increase for all three solvers and the entries of Cg are at most those of Gmres and Minres.", "quantifier": "all systems, initial guesses and options", "why_tests_cant": "Tests sample a few matrices; the claim is universally quantified over all dimensions and all inputs.", "anchors": ["krypy/linsys.py:_KrylovSolver._finalize_iteration", "krypy/linsys.py:Gmres", "krypy/linsys.py:Minres", "krypy/linsys.py:Cg"]}
{"id": "C81", "title": "sequences of systems with recycled Ritz vectors", "statement": "A RecyclingMinres or RecyclingGmres object is used for a sequence of systems that differ in the right hand side only, with a self-adjoint nonsingular Ml A Mr, no Mr, Minv the inverse of M, maxiter >= N and vector_factory None, a RitzFactory or a RitzFactorySimple. The vectors from a factory are orthonormal in the inner product of M^-1 and E = <U, Ml A Mr U> is nonsingular (if the selected Ritz values are not zero, for instance if Ml A Mr is positive definite), so that every solve() returns a solver whose xk satisfies the tolerance (or whose Arnoldi process has met an invariant subspace), and whose last entry of resnorms is the relative residual norm of xk; otherwise the factory has raised an exception. RitzFactorySimple raises one only if the last successful solve has neither iterated nor deflated: there are no Ritz pairs then and the next solve raises an IndexError. If the first solve has to iterate and n_vectors >= 1 then all solves succeed. If the same system is solved again with all Ritz vectors and the previous xk solves it exactly, the second solve returns resnorms = [0] without an iteration.", "quantifier": "all systems, sequences of right hand sides, initial guesses and options", "why_tests_cant": "Tests sample a few matrices; the claim is universally quantified over all dimensions and all inputs.", "anchors": ["krypy/recycling/linsys.py:_RecyclingSolver.solve", "krypy/recycling/factories.py:RitzFactorySimple.get", "krypy/recycling/factories.py:RitzFactory.get", "krypy/deflation.py:Ritz"]}
{"id": "C82", "title": "strings as vector_factory", "statement": "vector_factory of RecyclingMinres and RecyclingGmres (in the constructor or in solve()) may be one of the strings 'RitzApproxKrylov', 'RitzAprioriCg' and 'RitzAprioriMinres'. For sequences of systems as in C81 with a positive definite Ml A Mr, every call of solve() does exactly one of the following: if a previous call has succeeded and the string in force is none of the three, it raises an AttributeError; if the string in force is one of the three and the last successful call has neither iterated nor deflated, it raises an IndexError; otherwise it returns a solver whose xk satisfies the tolerance (or whose Arnoldi process has met an invariant subspace). In particular the first call succeeds for every string, a misspelt one makes all the following calls fail without changing last_solver, and a later call with a shortcut succeeds again. If Ml A Mr is negative definite and the first call has iterated, then all the following calls with 'RitzAprioriMinres' raise a ValueError.", "quantifier": "all systems, sequences of right hand sides, strings and options", "why_tests_cant": "Tests sample a few matrices; the claim is universally quantified over all dimensions and all inputs.", "anchors": ["krypy/recycling/linsys.py:_RecyclingSolver.solve", "krypy/recycling/factories.py:RitzFactory.get", "krypy/recycling/evaluators.py:RitzApriori.evaluate"]}
{"id": "C83", "title": "RitzAprioriMinres with a negative dominant Ritz value", "statement": "If the Ritz value of largest magnitude of the last solver is negative (at most -1e-15, and strictly larger in magnitude than all the others, whose signs are arbitrary), then every solve() of a recycling solver with vector_factory 'RitzAprioriMinres' raises a ValueError and leaves last_solver unchanged, so that all later calls with this string fail as well: RitzFactory always evaluates the set of all Ritz vectors but the dominant one, and BoundMinres fails for a single negative value. If it is positive instead, and every Ritz value is greater than -1e-15 or less than -1e-15 times the dominant one, then the selection of the vectors succeeds.", "quantifier": "all last solvers, Ritz values, systems, sequences of calls and estimated times", "why_tests_cant": "Tests sample a few matrices; the claim is universally quantified over all dimensions and all inputs.", "anchors": ["krypy/recycling/linsys.py:_RecyclingSolver.solve", "krypy/recycling/factories.py:RitzFactory._get_best_subset", "krypy/recycling/generators.py:RitzSmall.generate", "krypy/recycling/evaluators.py:RitzApriori.evaluate", "krypy/utils.py:BoundMinres.__init__"]}
{"id": "C84", "title": "solve() of recycling solvers passes on results and exceptions", "statement": "In every sequence of calls of solve() of RecyclingMinres and RecyclingGmres, with arbitrary vector factories: if the factory raises an exception, solve() raises it; otherwise solve() does what DeflatedMinres or DeflatedGmres does for the vectors of the factory: it returns a solver with the same xk and resnorms, or raises the same exception (a ConvergenceError if there is no convergence). last_solver becomes the returned solver, and is unchanged after an exception. RitzFactorySimple with n_vectors >= 1 returns the vectors of n_vectors Ritz pairs (all, if there are fewer) of the last solver with the smallest or largest magnitudes, real parts or imaginary parts of the Ritz values, or with the smallest residual norms.", "quantifier": "all systems (no assumption on A, M and b), factories, sequences of calls and options", "why_tests_cant": "Tests sample a few matrices; the claim is universally quantified over all dimensions and all inputs.", "anchors": ["krypy/recycling/linsys.py:_RecyclingSolver.solve", "krypy/recycling/linsys.py:RecyclingMinres", "krypy/recycling/linsys.py:RecyclingGmres", "krypy/recycling/factories.py:RitzFactorySimple.get"]}
