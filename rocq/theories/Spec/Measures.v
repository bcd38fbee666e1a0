(** The norm of a block of vectors. *)
From mathcomp Require Import all_ssreflect all_algebra.
From Verif Require Import Spec.LinAlg.

Set Implicit Arguments.
Unset Strict Implicit.
Unset Printing Implicit Defensive.
Import Order.TTheory GRing.Theory Num.Theory.
Local Open Scope ring_scope.

(** t is the norm of the map c |-> X c from the Euclidean norm to the norm of ip. *)
Record block_norm (C : numClosedFieldType) N (ip : 'cV[C]_N -> 'cV[C]_N -> C) n (X : 'M[C]_(N, n)) (t : C) : Prop := BlockNorm {
  bn_ge0 : 0 <= t;
  bn_le : forall c, ipnorm ip (X *m c) <= t * ipnorm (@ipE C n) c;
  bn_eq : exists2 c, c != 0 & ipnorm ip (X *m c) = t * ipnorm (@ipE C n) c }.

(** numpy.linalg.norm(X, 2) for X *)
Definition nrm_ok (C : numClosedFieldType) (nrm : forall m n, 'M[C]_(m, n) -> C) m n (X : 'M[C]_(m, n)) : Prop :=
  (0 < m)%N -> (0 < n)%N -> block_norm (@ipE C m) X (nrm m n X).
