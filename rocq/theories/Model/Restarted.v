(** Model of RestartedGmres (krypy/linsys.py 1069-1081): _RestartedSolver with Gmres. *)
From mathcomp Require Import all_ssreflect all_algebra.
From Verif Require Import Base Model.Inner Model.Arnoldi Model.Solver Model.LinearSystem Model.Krylov.

Set Implicit Arguments.
Unset Strict Implicit.
Unset Printing Implicit Defensive.
Import GRing.Theory Num.Theory.
Local Open Scope ring_scope.

Section Model.
Variable C : numClosedFieldType.
Variable N : nat.
Local Notation vec := 'cV[C]_N.
(** numpy.linalg.norm(., 2) in Arnoldi.advance *)
Variable snorm : nat -> nat -> (nat -> nat -> C) -> C.

(** One run of Gmres inside _RestartedSolver, linsys.py 1044-1057: [x] is the last
    approximate solution, [x0] the initial guess in kwargs.  A ConvergenceError is caught
    and its solver is used.  That xk is never None afterwards is proved, not assumed: the
    last case below is not reached. *)
Definition gmres_cycle (l : lsys C N) (o : opts C) (ortho : ortho_t) (x0 x : option vec) : res (inner_sol C vec) :=
  match gmres_solve snorm l o ortho (if x is Some v then Some v else x0) with
  | Returns s | NoConvergence s =>
      if s_xk s is Some xk then Ok (InnerSol xk (s_res s) (s_err s)) else Err AssertionError
  | Raises e => Err e
  end.

(** RestartedGmres(linear_system, max_restarts=.., x0=.., tol=.., maxiter=.., ortho=..).
    [inf] stands for numpy.Inf, which does not take part in any computation. *)
Definition restarted_gmres (inf : C) (l : lsys C N) (o : opts C) (ortho : ortho_t) (max_restarts : nat) (x0 : option vec) :
    router C vec :=
  restarted (fun a b => b < a) 0 (gmres_cycle l o ortho x0) (o_tol o) max_restarts inf.
End Model.
