(** Principal angles between subspaces. *)
From mathcomp Require Import all_ssreflect all_algebra.
From Verif Require Import Base Spec.LinAlg Model.Inner Spec.Inner Spec.Svd.

Set Implicit Arguments.
Unset Strict Implicit.
Unset Printing Implicit Defensive.
Import Order.TTheory GRing.Theory Num.Theory.
Local Open Scope ring_scope.

Section Spec.
Variable C : numClosedFieldType.
Variable N : nat.
Variable B : ipB C N.

(** The columns of Q are an orthonormal basis of the range of F, F has full rank. *)
Definition on_basis k (F Q : 'M[C]_(N, k)) : Prop :=
  inner B Q Q = 1%:M /\ exists2 W : 'M[C]_k, W \in unitmx & F = Q *m W.

(** Principal vectors U, V and cosines s of the principal angles: U and V are
    orthonormal bases of the ranges of F and G and <U, V> is the diagonal matrix
    with the nonnegative descending numbers s on the diagonal. *)
Definition principal k l (F : 'M[C]_(N, k)) (G : 'M[C]_(N, l)) (U : 'M[C]_(N, k)) (V : 'M[C]_(N, l)) (s : seq C) : Prop :=
  [/\ on_basis F U, on_basis G V, inner B U V = sdiag k l s,
      size s = minn k l /\ (forall x, x \in s -> 0 <= x)
    & forall i j : nat, (i <= j < size s)%N -> s`_j <= s`_i].
End Spec.

(** The properties of numpy.arccos, numpy.arcsin and pi/2 that are used. *)
Record trig_ok (C : numClosedFieldType) (arccos arcsin : C -> C) (pi2 : C) : Prop := TrigOk {
  tr_1 : arccos 1 = 0;
  tr_0 : arccos 0 = pi2;
  tr_lt : forall x y, 0 <= x -> x < y -> y <= 1 -> arccos y < arccos x;
  tr_sin : forall x, 0 <= x -> x <= 1 -> arcsin (sqrtC (1 - x ^+ 2)) = arccos x }.
