(** C01-C03: linear operators. *)
From mathcomp Require Import all_ssreflect all_algebra.
From Verif Require Import Base Spec.LinAlg Model.LinearOperator Spec.OperatorExpr Proof.LinearOperator.

Set Implicit Arguments.
Unset Strict Implicit.
Unset Printing Implicit Defensive.
Import Order.TTheory GRing.Theory Num.Theory.
Local Open Scope ring_scope.

Section Properties.
Variable C : numClosedFieldType.

(** C01.  Whatever matrix expression [A] an operator expression [e] stands for,
    the Python operators build an object of that shape whose [dot] multiplies
    blocks by [A] and whose [dot_adj] multiplies by its conjugate transpose. *)
Theorem C01_composite_operator_action (e : expr C) m n (A : 'M[C]_(m, n)) : means e A ->
  exists op, [/\ build e = Ok op, lrow op = m, lcol op = n,
    forall k (X : 'M[C]_(n, k)), (0 < k)%N -> dot op (Arr X) = Ok (Arr (A *m X))
  & forall k (X : 'M[C]_(m, k)), (0 < k)%N -> dot_adj op (Arr X) = Ok (Arr (A^h *m X))].
Proof. exact: composite_action. Qed.

(** Non-vacuity: (2 A B^* - I)^3 with rectangular A, B. *)
Example C01_example (A B : 'M[C]_(2, 3)) :
  means (EPow (ESub (EScale 2%:R (EMul (EMat (Arr A)) (EAdj (EMat (Arr B))))) (EId C 2 2)) 3)
        (mxpow (2%:R *: (A *m B^h) - 1%:M) 3).
Proof. exact: MPow (MSub (MScale _ (MMul (MMat A) (MAdj (MMat B)))) (MId _ 2)). Qed.

(** C02.  [dot_adj] is the adjoint of [dot]: (A X)^* Y = X^* (A^adj Y). *)
Theorem C02_dot_adj_is_adjoint (e : expr C) m n (A : 'M[C]_(m, n)) op :
  means e A -> build e = Ok op ->
  forall k l (X : 'M[C]_(n, k)) (Y : 'M[C]_(m, l)), (0 < k)%N -> (0 < l)%N ->
  exists AX AY, [/\ dot op (Arr X) = Ok (@Arr C m k AX), dot_adj op (Arr Y) = Ok (@Arr C n l AY)
                  & AX^h *m Y = X^h *m AY].
Proof. exact: adjoint_identity. Qed.

Theorem C02_adj_adj (e : expr C) m n (A : 'M[C]_(m, n)) : means e A ->
  exists op, build (EAdj (EAdj e)) = Ok op /\
    forall k (X : 'M[C]_(n, k)), (0 < k)%N -> dot op (Arr X) = Ok (Arr (A *m X)).
Proof. exact: adj_involutive. Qed.

(** C03, part that holds: expressions without identity leaves, with square
    zero operators and non-negative exponents are accepted exactly if they conform,
    and are otherwise rejected; arrays with a wrong number of rows are rejected. *)
Theorem C03_shape_safety_partial (e : expr C) : plain e ->
  ((exists op, build e = Ok op) <-> (exists m n (A : 'M[C]_(m, n)), means e A)) /\
  (~ (exists m n (A : 'M[C]_(m, n)), means e A) -> build e = Err NotImplementedFallback).
Proof. exact: build_iff_conforming. Qed.

Theorem C03_dot_rejects_wrong_rows (op : lop C) X :
  nrow X != lcol op -> dot op X = Err LinearOperatorError.
Proof. exact: dot_mismatch. Qed.

Theorem C03_dot_adj_rejects_wrong_rows (op : lop C) X :
  nrow X != lrow op -> dot_adj op X = Err LinearOperatorError.
Proof. exact: dot_adj_mismatch. Qed.

Theorem C03_empty_block_square_partial (e : expr C) n (A : 'M[C]_n) op :
  means e A -> build e = Ok op ->
  forall X : 'M[C]_(n, 0), dot op (Arr X) = Ok (Arr (A *m X)).
Proof. exact: empty_block_square. Qed.

(** Findings: the full statement of C03 is false. *)

(** A non-square operator applied to an (n,0) array returns an (n,0) array. *)
Theorem C03_empty_block_refuted : exists m n (A : 'M[C]_(m, n)) op (X : 'M[C]_(n, 0)) Y,
  [/\ build (EMat (Arr A)) = Ok op, dot op (Arr X) = Ok Y & nrow Y != m].
Proof. exact: empty_block_refuted. Qed.

(** A non-square ZeroLinearOperator returns an array of the wrong shape. *)
Theorem C03_zero_operator_refuted : exists op (X Y : arr C),
  [/\ build (EZero C 1 2) = Ok op, dot op X = Ok Y, ncol X = 1%N & nrow Y != lrow op].
Proof. exact: zero_operator_refuted. Qed.

(** A * I is accepted although the shapes do not conform. *)
Theorem C03_identity_product_refuted : exists e op,
  [/\ build e = Ok op, e = EMul (EMat (@Arr C 2 2 1%:M)) (EId C 3 3)
    & forall m n (A : 'M[C]_(m, n)), ~ means e A].
Proof. exact: identity_product_refuted. Qed.

(** A ** (-1) is accepted and acts as the identity. *)
Theorem C03_negative_power_refuted :
  exists op, build (EPow (EMat (@Arr C 1 1 (2%:R)%:M)) (-1)) = Ok op /\
  forall k (X : 'M[C]_(1, k)), (0 < k)%N -> dot op (Arr X) = Ok (Arr X).
Proof. exact: negative_power_refuted. Qed.

(** I * c is the scalar c, whereas c * I is the scaled operator. *)
Theorem C03_scalar_right_of_identity_refuted (c : C) n :
  op_mul_scalar (mkId C n n) c = Ok (inr c) /\
  exists2 op, op_rmul (mkId C n n) c = Ok op &
    forall k (X : 'M[C]_(n, k)), (0 < k)%N -> dot op (Arr X) = Ok (Arr (c *: X)).
Proof. exact: scalar_right_of_identity_refuted. Qed.
End Properties.

Print Assumptions C01_composite_operator_action.
Print Assumptions C02_dot_adj_is_adjoint.
Print Assumptions C02_adj_adj.
Print Assumptions C03_shape_safety_partial.
Print Assumptions C03_dot_rejects_wrong_rows.
Print Assumptions C03_dot_adj_rejects_wrong_rows.
Print Assumptions C03_empty_block_square_partial.
Print Assumptions C03_empty_block_refuted.
Print Assumptions C03_zero_operator_refuted.
Print Assumptions C03_identity_product_refuted.
Print Assumptions C03_negative_power_refuted.
Print Assumptions C03_scalar_right_of_identity_refuted.
