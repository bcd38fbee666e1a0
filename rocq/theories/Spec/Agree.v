(** Runs of the solvers, seen through their attributes resnorms and xk, and what it means
    that two runs agree. *)
From mathcomp Require Import all_ssreflect all_algebra.
From Verif Require Import Base Spec.LinAlg Spec.Arnoldi Model.Inner Spec.Inner Model.Arnoldi Model.Solver Model.LinearSystem.
From Verif Require Import Model.Krylov Spec.Krylov Proof.Gmres.

Set Implicit Arguments.
Unset Strict Implicit.
Unset Printing Implicit Defensive.
Import Order.TTheory GRing.Theory Num.Theory.
Local Open Scope ring_scope.

Section Spec.
Variable C : numClosedFieldType.
Variable N : nat.
Local Notation vec := 'cV[C]_N.

(** [mr_result l x0 tol res xk]: some run of Gmres (with any admissible ortho) or of Minres
    (with any admissible ortho, for a self-adjoint Ml A Mr) on the system l, started from
    x0 with the tolerance tol, ended -- normally or with ConvergenceError -- with
    resnorms = res and xk.  maxiter, explicit_residual and the matrix norm used by the
    Arnoldi process are arbitrary. *)
Inductive mr_result (l : lsys C N) (x0 : option vec) : C -> seq C -> option vec -> Prop :=
| MrGmres snorm o ortho s : ortho_ok l ortho -> of_run (gmres_solve snorm l o ortho x0) s ->
    mr_result l x0 (o_tol o) (s_res s) (s_xk s)
| MrMinres snorm o ortho s : ortho_ok l ortho -> self_adjoint (ip1 (lB l)) (lMlAMr l) ->
    of_run (minres_solve snorm l o ortho x0) s -> mr_result l x0 (o_tol o) (s_res s) (s_xk s).

(** The same for Cg, with Ml A Mr self-adjoint and positive definite. *)
Inductive cg_result (l : lsys C N) (x0 : option vec) : C -> seq C -> option vec -> Prop :=
| CgRun o store s : self_adjoint (ip1 (lB l)) (lMlAMr l) -> pos_def (ip1 (lB l)) (lMlAMr l) ->
    of_run (cg_solve l o store x0) s -> cg_result l x0 (o_tol o) (s_res s) (s_xk s).

(** The residual norms of two runs agree as far as both go; if both reach the same
    tolerance the lists are equal. *)
Definition agree (tol : C) (res : seq C) (tol' : C) (res' : seq C) : Prop :=
  (forall i, (i < size res)%N -> (i < size res')%N -> nth 0 res' i = nth 0 res i) /\
  (tol = tol' -> last 0 res <= tol -> last 0 res' <= tol -> res' = res).

(** l' is l with A, b, M, Ml, Mr and the inner product multiplied by a, be, m, p, q and g. *)
Record scaled (a be m p q g : C) (l l' : lsys C N) : Prop := Scaled {
  sc_a : a != 0; sc_be : be != 0; sc_m : 0 < m; sc_p : p != 0; sc_q : q != 0; sc_g : 0 < g;
  sc_A : forall v, lA l' v = a *: lA l v;
  sc_b : lb l' = be *: lb l;
  sc_M : forall v, lMop l' v = m *: lMop l v;
  sc_Ml : forall v, lMl l' v = p *: lMl l v;
  sc_Mr : forall v, lMr l' v = q *: lMr l v;
  sc_ip : forall u v, ip1 (lB l') u v = g * ip1 (lB l) u v }.

(** l' is l with M turned into a left preconditioner: Ml' = M Ml, M' = I, and the inner
    product of l' is <., M^-1 .>. *)
Record left_precon (l l' : lsys C N) : Prop := LeftPrecon {
  lp_A : forall v, lA l' v = lA l v;
  lp_b : lb l' = lb l;
  lp_M : forall v, lMop l' v = v;
  lp_Ml : forall v, lMl l' v = lMop l (lMl l v);
  lp_Mr : forall v, lMr l' v = lMr l v;
  lp_ip : forall u v, ip1 (lB l') u (lMop l v) = ip1 (lB l) u v }.

(** l' is the system Ml A Mr y = Ml (b - A x), without Ml and Mr. *)
Record reduced (l : lsys C N) (x : vec) (l' : lsys C N) : Prop := Reduced {
  rd_A : forall v, lA l' v = lMl l (lA l (lMr l v));
  rd_b : lb l' = lMl l (lb l - lA l x);
  rd_M : forall v, lMop l' v = lMop l v;
  rd_Ml : forall v, lMl l' v = v;
  rd_Mr : forall v, lMr l' v = v;
  rd_ip : forall u v, ip1 (lB l') u v = ip1 (lB l) u v }.
End Spec.
