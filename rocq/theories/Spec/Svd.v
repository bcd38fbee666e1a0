(** Vocabulary for the singular value decomposition. *)
From mathcomp Require Import all_ssreflect all_algebra.
From Verif Require Import Base Spec.LinAlg.

Set Implicit Arguments.
Unset Strict Implicit.
Unset Printing Implicit Defensive.
Import Order.TTheory GRing.Theory Num.Theory.
Local Open Scope ring_scope.

Section Spec.
Variable C : numClosedFieldType.

(** The m x n matrix with s on the diagonal. *)
Definition sdiag m n (s : seq C) : 'M[C]_(m, n) := \matrix_(i, j) (s`_i *+ (i == j :> nat)).

(** The documented behaviour of scipy.linalg.svd(A): A = Y diag(s) Z with unitary Y and Z
    and s nonnegative and in descending order. *)
Definition svd_ok m n (A : 'M[C]_(m, n)) (t : 'M[C]_m * seq C * 'M[C]_n) : Prop :=
  let '(Y, s, Z) := t in
  [/\ A = Y *m sdiag m n s *m Z, Y *m Y^h = 1%:M, Z *m Z^h = 1%:M,
      size s = minn m n /\ (forall x, x \in s -> 0 <= x)
    & forall i j : nat, (i <= j < size s)%N -> s`_j <= s`_i].
End Spec.
