(** Vocabulary for the comparison of plain and deflated solvers. *)
From mathcomp Require Import all_ssreflect all_algebra.
From Verif Require Import Base Spec.LinAlg Model.Inner Spec.Inner Model.Arnoldi Model.Solver Model.LinearSystem Model.Krylov Spec.Krylov.

Set Implicit Arguments.
Unset Strict Implicit.
Unset Printing Implicit Defensive.
Import Order.TTheory GRing.Theory Num.Theory.
Local Open Scope ring_scope.

Section Spec.
Variable C : numClosedFieldType.
Variable N : nat.
Local Notation vec := 'cV[C]_N.

(** M Ml A Mr maps the span of U into itself. *)
Definition invariant (l : lsys C N) k (U : 'M[C]_(N, k)) : Prop :=
  forall c : 'cV[C]_k, exists d : 'cV[C]_k, lMop l (lMlAMr l (U *m c)) = U *m d.

(** r is a sum of m eigenvectors of Ml A Mr M for nonzero eigenvalues. *)
Definition eigen_sum (l : lsys C N) (m : nat) (r : vec) : Prop :=
  exists (v : nat -> vec) (mu : nat -> C), r = \sum_(i < m) v i /\
    forall i, (i < m)%N -> mu i != 0 /\ lMlAMr l (lMop l (v i)) = mu i *: v i.

(** The recorded residual norms res end after at most d iterations; if after exactly d, then
    with a solution of the system. *)
Definition within (l : lsys C N) (d : nat) (res : seq C) (xk : option vec) : Prop :=
  (size res <= d.+1)%N /\
  (size res = d.+1 -> last 0 res = 0 /\ exists2 x, xk = Some x & resid l x = 0).
End Spec.
