(** The contract of a Krylov solver, as a statement about the observable attributes. *)
From mathcomp Require Import all_ssreflect.
From Verif Require Import Base Model.Solver.

Set Implicit Arguments.
Unset Strict Implicit.
Unset Printing Implicit Defensive.

Section Spec.
Variables (S X : Type).
Variables (gt le : S -> S -> bool) (div : S -> S -> S) (zero : S).
Variables (y : sys S X) (o : opts S).

(** The history of a run of n iterations that ended with the approximation x:
    n+1 residual norms, of which the first n exceed tol; if exact_solution is given
    n+1 error norms, the last one being that of x. *)
Record history (n : nat) (x : X) (rs es : seq S) : Prop := History {
  h_size : size rs = n.+1;
  h_max : (n <= o_maxiter o)%N;
  h_gt : forall i, (i < n)%N -> gt (nth zero rs i) (o_tol o);
  h_err : if y_errnorm y is Some en
          then size es = n.+1 /\ ((0 < n)%N -> en x = Ok (last zero es))
          else es = [::] }.

(** The last recorded residual norm is the one computed from x itself. *)
Definition explicit_last (x : X) (rs : seq S) : Prop :=
  exists2 r, y_resnorm y x = Ok r & last zero rs = div r (y_bnorm y).

(** Laws that the parts of a method satisfy: the iteration counter starts at 0 and
    each iteration increments it; the feedback of the explicit residual norm does
    not change the iterate; no part reports that the model ran out of fuel. *)
Record good_method (m : method S X) : Prop := GoodMethod {
  gm_start : forall x0 x t, m_start m x0 x = Ok t -> m_iter t = 0;
  gm_step : forall (t t' : m_st m) r, m_step t = Ok (t', r) -> m_iter t' = (m_iter t).+1;
  gm_iter : forall (t : m_st m) r, m_iter (m_feed t r) = m_iter t;
  gm_getx : forall (t : m_st m) r, m_getx (m_feed t r) = m_getx t }.

Definition no_fuel {A} (r : res A) : bool := if r is Err OutOfFuel then false else true.

Record no_fuel_method (m : method S X) : Prop := NoFuelMethod {
  nf_r0 : forall x0, no_fuel (m_r0 m x0);
  nf_start : forall x0 x, no_fuel (m_start m x0 x);
  nf_step : forall t : m_st m, no_fuel (m_step t);
  nf_getx : forall t : m_st m, no_fuel (m_getx t);
  nf_getx0 : forall x, no_fuel (m_getx0 m x);
  nf_res : forall x, no_fuel (y_resnorm y x);
  nf_err : forall en x, y_errnorm y = Some en -> no_fuel (en x) }.
End Spec.
