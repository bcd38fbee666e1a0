(** What the functions of krypy/_convenience.py should do with their arguments. *)
From mathcomp Require Import all_ssreflect all_algebra.
From Verif Require Import Base Spec.LinAlg Model.Inner Spec.Inner Model.Solver Model.LinearSystem Model.Krylov Model.Deflation Model.Convenience.

Set Implicit Arguments.
Unset Strict Implicit.
Unset Printing Implicit Defensive.
Import Order.TTheory GRing.Theory Num.Theory.
Local Open Scope ring_scope.

Section Spec.
Variable C : numClosedFieldType.
Variable N : nat.
Local Notation vec := 'cV[C]_N.
Implicit Type a : cargs C N.

(** The inner product, M and Ml of the caller. *)
Definition u_ip a (x y : vec) : C :=
  if c_ip a is Some f then f x y else \sum_i (x i 0)^* * y i 0.
Definition u_M a (x : vec) : vec := if c_M a is Some M then M x else x.
Definition u_Ml a (x : vec) : vec := if c_Ml a is Some Ml then Ml x else x.
Definition u_Mr a (x : vec) : vec := if c_Mr a is Some Mr then Mr x else x.

(** ||M Ml v|| in the norm belonging to M^-1 *)
Definition u_norm a (v : vec) : C := sqrtC (u_ip a (u_Ml a v) (u_M a (u_Ml a v))).

(** x solves the system up to the relative tolerance tol. *)
Definition solved a (x : vec) : Prop :=
  u_norm a (bval (c_b a) - c_A a x) < c_tol a * u_norm a (bval (c_b a)).

(** Admissible arguments *)
Record args_ok a : Prop := ArgsOk {
  ao_shape : c_shape a = [:: N; N];
  ao_A : is_linear (c_A a); ao_Ml : is_linear (u_Ml a);
  ao_ip : is_ip (u_ip a);
  ao_M : is_linear (u_M a); ao_Msa : self_adjoint (u_ip a) (u_M a); ao_Mpd : pos_def (u_ip a) (u_M a) }.

(** The callable as an inner product of blocks: the matrix of the inner products of the
    columns *)
Definition block_ip (f : vec -> vec -> C) : ipB C N :=
  IpCall (fun m n X Y => \matrix_(i < m, j < n) f (col i X) (col j Y)).

(** The system with all the given arguments. *)
Definition full_lsys a : lsys C N :=
  LSys (c_A a) (bval (c_b a)) (c_M a) (u_Ml a) (u_Mr a)
    (if c_ip a is Some f then block_ip f else IpNone) (c_exact a).
Definition full_opts a : opts C :=
  Opts (c_tol a) (if c_maxiter a is Some m then m else N) (c_explicit a).

(** The solver that is returned beside the solution, or attached to the exception. *)
Definition solver_of T (r : cres C N T) : outcome C vec T :=
  match r with
  | CReturns _ s => Returns s
  | CNoConvergence s => NoConvergence s
  | CRaises e => Raises _ _ _ e
  end.

(** The returned value is [Some] array with the values x and the shape of b *)
Definition shaped_like (b : bvec C N) (x : vec) (y : option (bvec C N)) : Prop :=
  match b, y with
  | Flat _, Some (Flat v) | Column _, Some (Column v) => v = x
  | _, _ => False
  end.
End Spec.
