(** Runs of the deflated solvers, seen through their attributes resnorms and xk. *)
From mathcomp Require Import all_ssreflect all_algebra.
From Verif Require Import Base Spec.LinAlg Model.Inner Spec.Inner Model.Arnoldi Spec.Arnoldi Model.Solver Model.LinearSystem.
From Verif Require Import Model.Krylov Spec.Krylov Proof.Gmres Model.Projection Spec.Projection Model.Deflation Spec.Deflation.

Set Implicit Arguments.
Unset Strict Implicit.
Unset Printing Implicit Defensive.
Import Order.TTheory GRing.Theory Num.Theory.
Local Open Scope ring_scope.

Section Spec.
Variable C : numClosedFieldType.
Variable N : nat.
Local Notation vec := 'cV[C]_N.

(** [dmr_result l x0 U tol res xk]: some run of DeflatedGmres (with any admissible ortho)
    or of DeflatedMinres (for a self-adjoint Ml A Mr) on the system l with the deflation
    vectors U, started from x0 with the tolerance tol, ended -- normally or with
    ConvergenceError -- with resnorms = res and xk.  projection_kwargs, maxiter,
    explicit_residual, the QR decomposition and the matrix norm are arbitrary. *)
Inductive dmr_result (l : lsys C N) (x0 : option vec) k (U : 'M[C]_(N, k)) : C -> seq C -> option vec -> Prop :=
| DmrGmres sqr snorm Minv same kw o ortho s : qr_spec sqr -> defl_args sqr l Minv same U kw -> ortho_ok l ortho ->
    of_run (deflated_gmres sqr snorm l Minv same U kw o ortho x0) s ->
    dmr_result l x0 U (o_tol o) (s_res s) (s_xk s)
| DmrMinres sqr snorm Minv same kw o ortho s : qr_spec sqr -> defl_args sqr l Minv same U kw -> ortho_ok l ortho ->
    self_adjoint (ip1 (lB l)) (lMlAMr l) -> of_run (deflated_minres sqr snorm l Minv same U kw o ortho x0) s ->
    dmr_result l x0 U (o_tol o) (s_res s) (s_xk s).

(** The same for DeflatedCg, with Ml A Mr self-adjoint and positive definite. *)
Inductive dcg_result (l : lsys C N) (x0 : option vec) k (U : 'M[C]_(N, k)) : C -> seq C -> option vec -> Prop :=
| DcgRun sqr Minv same kw o store s : qr_spec sqr -> defl_args sqr l Minv same U kw ->
    self_adjoint (ip1 (lB l)) (lMlAMr l) -> pos_def (ip1 (lB l)) (lMlAMr l) ->
    of_run (deflated_cg sqr l Minv same U kw o store x0) s ->
    dcg_result l x0 U (o_tol o) (s_res s) (s_xk s).

(** The columns of U and V span the same space. *)
Definition same_span k m (U : 'M[C]_(N, k)) (V : 'M[C]_(N, m)) : Prop :=
  (exists F, V = U *m F) /\ (exists G, U = V *m G).
End Spec.
