(** The numbers of calls of A, M, Ml, Mr and ip_B in a run of n iterations. *)
From mathcomp Require Import all_ssreflect.
From Verif Require Import Base Model.Arnoldi Model.Calls.

Set Implicit Arguments.
Unset Strict Implicit.
Unset Printing Implicit Defensive.

Section Spec.
Variable k : kind.
Local Notation one x := (nat_of_bool (same k x)).

(** An explicitly computed residual with its norm: one call each, except of Mr *)
Definition residual_calls : nat := one KA + one KMl + one KM + one KIp.

(** Before the first iteration: Ml b, M Ml b and its norm, and the initial residual if an
    initial guess is given *)
Definition setup_calls (guess : bool) : nat :=
  one KMl + one KM + one KIp + (if guess then residual_calls else 0).

(** Iteration i (from 0) with the Arnoldi algorithm: Ml A Mr once; without Householder
    reflections M once, if given, one norm, and in each orthogonalisation pass one inner
    product with each previous basis vector (lanczos: with the last one) *)
Definition arnoldi_calls (hasM : bool) (ortho : ortho_t) (i : nat) : nat :=
  one KMr + one KA + one KMl +
  match ortho with
  | Householder => 0
  | Dmgs => 2 * (i.+1 * one KIp) + hasM * one KM + one KIp
  | Lanczos => one KIp + hasM * one KM + one KIp
  | _ => i.+1 * one KIp + hasM * one KM + one KIp
  end.

(** An iteration of CG *)
Definition cg_calls : nat := one KMr + one KA + one KMl + one KM + 2 * one KIp.

(** The loop: in iteration i [step i] calls; the approximation needs one call of Mr ([zero]
    calls for n = 0).  With explicit_residual every iteration computes the approximation and
    its residual; otherwise this is done once, at the end, and the residual only if the
    tolerance is met or maxiter is reached ([fin]). *)
Definition loop_calls (step : nat -> nat) (zero : nat) (explicit fin : bool) (n : nat) : nat :=
  if n == 0 then zero
  else if explicit then \sum_(0 <= i < n) (step i + one KMr + residual_calls)
  else \sum_(0 <= i < n) step i + one KMr + (if fin then residual_calls else 0).
End Spec.
