(** Which values of the argument ip_B represent an inner product. *)
From mathcomp Require Import all_ssreflect all_algebra.
From Verif Require Import Base Spec.LinAlg Model.Inner.

Set Implicit Arguments.
Unset Strict Implicit.
Unset Printing Implicit Defensive.
Import Order.TTheory GRing.Theory Num.Theory.
Local Open Scope ring_scope.

Section Spec.
Variable C : numClosedFieldType.
Variable N : nat.

(** ip_B is None, or a Hermitian positive definite operator, or a callable that
    computes an inner product column by column. *)
Definition valid_ip (B : ipB C N) : Prop :=
  match B with
  | IpNone => True
  | IpOp B => B^h = B /\ forall x : 'cV[C]_N, x != 0 -> 0 < (x^h *m B *m x) 0 0
  | IpCall f => is_ip (fun x y => f 1%N 1%N x y 0 0) /\
      forall m n X Y, f m n X Y = \matrix_(i, j) f 1%N 1%N (col i X) (col j Y) 0 0
  end.

End Spec.
