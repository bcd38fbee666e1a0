(** Model of the control flow of _KrylovSolver (krypy/linsys.py 277-517), of the
    iteration loops common to Cg._solve (593-689), Minres._solve (791-853) and
    Gmres._solve (951-997), and of _RestartedSolver (1021-1072).

    The scalars are an arbitrary type [S] with arbitrary operations for the
    comparisons [>], [<=], [== 0] and the division, so that floating point numbers
    with nan (all comparisons false) are covered; the vectors are an arbitrary type
    [X].  The method (what one iteration computes) is a parameter.  Not modelled:
    warnings, dtypes, flat vectors, __repr__. *)
From mathcomp Require Import all_ssreflect.
From Verif Require Import Base.

Set Implicit Arguments.
Unset Strict Implicit.
Unset Printing Implicit Defensive.

Section Skeleton.
Variables (S X : Type).
(** x > y, x <= y, x == 0, x / y, 0.0 *)
Variables (gt le : S -> S -> bool) (isz : S -> bool) (div : S -> S -> S) (zero : S).
(** numpy.zeros((N, 1)) *)
Variable zeroX : X.

(** What the base class uses of the LinearSystem: MMlb_norm, the norm returned by
    get_residual(x, compute_norm=True), and, if exact_solution is given, the norm
    of exact_solution - x. *)
Record sys := Sys { y_bnorm : S; y_resnorm : X -> res S; y_errnorm : option (X -> res S) }.

(** tol, maxiter, explicit_residual *)
Record opts := Opts { o_tol : S; o_maxiter : nat; o_explicit : bool }.

(** A method: its local state; MMlr0_norm; the initial state (from the given initial
    guess and the possibly replaced one); iteration number; flag "Krylov subspace
    invariant"; one iteration up to the call of _finalize_iteration with the updated
    residual norm; _get_xk of the current coefficients; _get_xk(None); what is done
    with the explicit residual norm returned by _finalize_iteration (CG); whether
    self.iter is incremented at the end of the loop body (CG). *)
Record method := Method {
  m_st : Type;
  m_r0 : option X -> res S;
  m_start : option X -> X -> res m_st;
  m_iter : m_st -> nat;
  m_inv : m_st -> bool;
  m_step : m_st -> res (m_st * S);
  m_getx : m_st -> res X;
  m_getx0 : X -> res X;
  m_feed : m_st -> S -> m_st;
  m_incr : bool }.

(** The attributes of the solver object: local state, iter, x0, xk, resnorms, errnorms. *)
Record sol (T : Type) := Sol {
  s_st : T; s_iter : nat; s_x0 : X; s_xk : option X; s_res : seq S; s_err : seq S }.

(** Construction of a solver: a normal return, or an exception; a ConvergenceError
    carries the solver. *)
Inductive outcome (T : Type) := Returns of sol T | NoConvergence of sol T | Raises of exn.
Arguments Raises {T}.

Definition bindO {A T} (m : res A) (k : A -> outcome T) : outcome T :=
  match m with Ok a => k a | Err e => Raises e end.

Section Run.
Variables (y : sys) (o : opts) (m : method).
Local Notation st := (m_st m).

(** _finalize_iteration, linsys.py 430-493, in continuation-passing style; the
    continuation gets the new object and the explicit residual norm or None. *)
Definition finalize_iteration (s : sol st) (resnorm : S) (k : sol st -> option S -> outcome st) :
    outcome st :=
  bindO (if y_errnorm y is Some en then
           let! x := m_getx (s_st s) in let! e := en x in Ok (Some x, rcons (s_err s) e)
         else Ok (None, s_err s)) (fun '(xk, err) =>
  let last_it := (s_iter s).+1 == o_maxiter o in
  if [|| o_explicit o, le (div resnorm (y_bnorm y)) (o_tol o) | last_it] then
    bindO (if xk is Some x then Ok x else m_getx (s_st s)) (fun x =>
    bindO (y_resnorm y x) (fun rkn =>
    let r := div rkn (y_bnorm y) in
    let s' := Sol (s_st s) (s_iter s) (s_x0 s) (Some x) (rcons (s_res s) r) err in
    if gt r (o_tol o) && last_it then NoConvergence s'
    else k s' (Some rkn)))
  else k (Sol (s_st s) (s_iter s) (s_x0 s) xk (rcons (s_res s) (div resnorm (y_bnorm y))) err) None).

Definition more (s : sol st) : bool :=
  [&& gt (last zero (s_res s)) (o_tol o), (m_iter (s_st s) < o_maxiter o)%N & ~~ m_inv (s_st s)].

Definition with_st (s : sol st) (t : st) (i : nat) : sol st :=
  Sol t i (s_x0 s) (s_xk s) (s_res s) (s_err s).

(** The loop body and the loop: linsys.py 624-684, 824-849, 972-993. *)
Definition body (s : sol st) (k : sol st -> outcome st) : outcome st :=
  let i := m_iter (s_st s) in
  bindO (m_step (s_st s)) (fun '(t, resnorm) =>
  finalize_iteration (with_st s t i) resnorm (fun s' rkn =>
  let t := if rkn is Some r then m_feed (s_st s') r else s_st s' in
  k (with_st s' t (if m_incr m then i.+1 else i)))).

Fixpoint loop (fuel : nat) (s : sol st) : outcome st :=
  if more s then
    match fuel with
    | 0 => Raises OutOfFuel
    | f.+1 => body s (loop f)
    end
  else (* compute solution if not yet done: 686-688, 851-853, 995-997 *)
    match s_xk s with
    | Some _ => Returns s
    | None => bindO (m_getx (s_st s)) (fun x =>
        Returns (Sol (s_st s) (s_iter s) (s_x0 s) (Some x) (s_res s) (s_err s)))
    end.

(** _KrylovSolver.__init__, linsys.py 343-405 *)
Definition run (x0 : option X) : outcome st :=
  bindO (m_r0 m x0) (fun r0 =>
  let zb := isz (y_bnorm y) in
  let x0' := if zb then zeroX else if x0 is Some x then x else zeroX in
  let xk := if zb then Some zeroX else None in
  let res := [:: if zb then zero else div r0 (y_bnorm y)] in
  bindO (if y_errnorm y is Some en then
           let! x := m_getx0 m x0' in let! e := en x in Ok [:: e]
         else Ok [::]) (fun err =>
  bindO (m_start m x0 x0') (fun t =>
  loop (o_maxiter o) (Sol t 0 x0' xk res err)))).
End Run.

(** _RestartedSolver.__init__, linsys.py 1024-1066.  The inner solver is a function of
    the initial guess (None: the one in kwargs, or none) and yields xk, resnorms and
    errnorms, both on normal return and on ConvergenceError. *)
Record inner_sol := InnerSol { i_xk : X; i_res : seq S; i_err : seq S }.

Inductive router := RReturns of inner_sol | RNoConvergence of inner_sol | RRaises of exn.

Section Restart.
Variables (inner : option X -> res inner_sol) (tol : S) (max_restarts : nat).

Definition chop {T} (s : seq T) : seq T := take (size s).-1 s.

Fixpoint rloop (fuel restart : nat) (xk : option X) (rs es : seq S) : router :=
  if (restart == 0) || (gt (last zero rs) tol && (restart <= max_restarts)%N) then
    match fuel with
    | 0 => RRaises OutOfFuel
    | f.+1 =>
      match inner xk with
      | Err e => RRaises e
      | Ok sol => rloop f restart.+1 (Some (i_xk sol)) (chop rs ++ i_res sol) (chop es ++ i_err sol)
      end
    end
  else if xk is Some x then
    if gt (last zero rs) tol then RNoConvergence (InnerSol x rs es)
    else RReturns (InnerSol x rs es)
  else RRaises AssertionError.

(** [inf] is numpy.Inf *)
Definition restarted (inf : S) : router :=
  rloop max_restarts.+1 0 None [:: inf] [:: inf].
End Restart.
End Skeleton.
