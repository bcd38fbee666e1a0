(** Model of RitzFactory.get (krypy/recycling/factories.py 49-51), RitzFactorySimple.get
    (166-194), RecyclingMinres and RecyclingGmres (krypy/recycling/linsys.py 101-121) on top of
    the models of the deflated solvers, of deflation.Ritz and of _RecyclingSolver.
    Simplifications: those of these models.  Ritz pairs with mode='ritz' only (all values are
    finite then).  The conversion to a TimedLinearSystem does not change the results (C50)
    and is omitted.  A ConvergenceError is an error here; the solver it carries is not
    stored in last_solver by the code either. *)
From mathcomp Require Import all_ssreflect all_algebra.
From Verif Require Import Base Model.Ritz Model.Inner Model.Arnoldi Model.Solver Model.LinearSystem Model.Krylov.
From Verif Require Import Model.Projection Model.Deflation Model.DeflRitz Model.Recycling.

Set Implicit Arguments.
Unset Strict Implicit.
Unset Printing Implicit Defensive.
Import Order.TTheory GRing.Theory Num.Theory.
Local Open Scope ring_scope.

Section RecyclingRun.
Variable C : numClosedFieldType.
Variable N : nat.
Local Notation vec := 'cV[C]_N.
Variable sqr : forall n k, 'M[C]_(n, k) -> 'M[C]_(n, k) * 'M[C]_k.
Variable snorm : nat -> nat -> (nat -> nat -> C) -> C.
Variables eig eigh : forall n, 'M[C]_n -> ('I_n -> C) * 'M[C]_n.
Variables geig geigh : forall n, 'M[C]_n -> 'M[C]_n -> ('I_n -> C) * 'M[C]_n.

(** A block with the given columns *)
Definition colmx (s : seq vec) : 'M[C]_(N, size s) := \matrix_(i, j) nth 0 s j i 0.

(** A LinearSystem: with the attributes Minv and self_adjoint, and whether MlAMr is an
    IdentityLinearOperator *)
Record rsys := RSys { rs_l : lsys C N; rs_Minv : option (vec -> vec); rs_same : bool; rs_sa : bool }.
(** The remaining arguments of solve() *)
Record rargs := RArgs { ra_o : opts C; ra_ortho : ortho_t; ra_x0 : option vec; ra_kw : pkwargs }.

(** The attributes of a deflated solver that are used afterwards: linear_system, projection,
    H, V, C, B_, xk, resnorms, and the attribute invariant of its Arnoldi object *)
Record dsolver := DSolver {
  ds_l : lsys C N; ds_sa : bool; ds_m : nat; ds_ob : obl C N ds_m; ds_n_ : nat; ds_n : nat;
  ds_b : byprod C N ds_n_ ds_n ds_m; ds_xk : option vec; ds_res : seq C; ds_inv : bool }.

(** The solver object from the state at the end of the run; deflation.py 94-128 and
    linsys.py 855-862, 999-1006 *)
Definition mk_dsolver (y : rsys) m (ob : obl C N m) (a : arn C N) (Cs : seq 'cV[C]_m)
    (xk : option vec) (res : seq C) : dsolver :=
  DSolver (rs_l y) (rs_sa y) ob (arn_byprod (rs_l y) (rs_sa y) ob a Cs) xk res (a_inv a).

(** DeflatedMinres(linear_system, U=U, store_arnoldi=True, ...), deflation.py 266-273 *)
Definition new_minres (y : rsys) (U : seq vec) (a : rargs) : res dsolver :=
  match deflated_minres sqr snorm (rs_l y) (rs_Minv y) (rs_same y) (colmx U) (ra_kw a) (ra_o a) (ra_ortho a) (ra_x0 a) with
  | Returns s =>
      let! ob := mk_oblique sqr (rs_l y) (rs_Minv y) (rs_same y) (colmx U) (ra_kw a) in
      Ok (mk_dsolver y ob (mr_a (s_st s).1) (s_st s).2 (s_xk s) (s_res s))
  | NoConvergence _ => Err ConvergenceErr
  | Raises e => Err e
  end.

(** DeflatedGmres(linear_system, U=U, store_arnoldi=True, ...), deflation.py 276-283 *)
Definition new_gmres (y : rsys) (U : seq vec) (a : rargs) : res dsolver :=
  match deflated_gmres sqr snorm (rs_l y) (rs_Minv y) (rs_same y) (colmx U) (ra_kw a) (ra_o a) (ra_ortho a) (ra_x0 a) with
  | Returns s =>
      let! ob := mk_oblique sqr (rs_l y) (rs_Minv y) (rs_same y) (colmx U) (ra_kw a) in
      Ok (mk_dsolver y ob (gm_a (s_st s).1) (s_st s).2 (s_xk s) (s_res s))
  | NoConvergence _ => Err ConvergenceErr
  | Raises e => Err e
  end.

(** Ritz(solver) and then get_vectors(indices), deflation.py 737-849.  If there are no Ritz
    pairs, coeffs has one dimension and coeffs[:, indices] is an IndexError. *)
Section Factory.
Variable select : forall s : dsolver, dritz C (ds_n s + ds_m s) -> res (seq nat).
Definition ritz_factory (s : dsolver) : res (seq vec) :=
  let! z := mk_dritz eig eigh geig geigh (ds_l s) (ds_sa s) (ds_ob s) (ds_b s) DmRitz in
  let! q := select z in
  if (ds_n s + ds_m s == 0)%N then Err IndexError else dvectors (ds_ob s) (ds_b s) z (Some q).
End Factory.

(** RitzFactorySimple.get, factories.py 166-194 *)
Definition simple_select (argsort : seq C -> seq nat) (n_vectors : nat) (w : which)
    (s : dsolver) (z : dritz C (ds_n s + ds_m s)) : res (seq nat) :=
  simple_indices argsort n_vectors w [seq odflt 0 (dz_values z i) | i <- enum 'I_(ds_n s + ds_m s)]
    [seq odflt 0 (dz_resnorms z i) | i <- enum 'I_(ds_n s + ds_m s)].

(** RitzFactory.get, factories.py 49-51, with the default generator RitzSmall.  The
    evaluator is a parameter; [flt] turns the residual norms into numbers of the ordered
    type of its values. *)
Definition best_select (R : realDomainType) (flt : C -> R) (argsort : seq C -> seq nat)
    (order : forall n, {set 'I_n} -> seq 'I_n)
    (evaluate : forall s : dsolver, dritz C (ds_n s + ds_m s) ->
       seq {set 'I_(ds_n s + ds_m s)} -> {set 'I_(ds_n s + ds_m s)} -> res R)
    (max_vectors : option nat) (fuel : nat) (print_ok : bool)
    (s : dsolver) (z : dritz C (ds_n s + ds_m s)) : res (seq nat) :=
  let! (sel, _) := best_subset (@evaluate s z)
    (ritz_small argsort (@order _) (fun i => odflt 0 (dz_values z i)) max_vectors)
    (fun i => flt (odflt 0 (dz_resnorms z i))) fuel print_ok in
  Ok [seq val i | i <- order _ sel].

(** RecyclingMinres(...).solve(...) and RecyclingGmres(...).solve(...), one after the other:
    the outcomes and the last value of last_solver *)
Definition rcall := call rsys rargs dsolver (seq vec).
Definition recycling_minres (default : option (factory dsolver (seq vec))) (cs : seq rcall) :=
  rsolves (fun y => Ok y) [::] new_minres default None cs.
Definition recycling_gmres (default : option (factory dsolver (seq vec))) (cs : seq rcall) :=
  rsolves (fun y => Ok y) [::] new_gmres default None cs.
End RecyclingRun.
