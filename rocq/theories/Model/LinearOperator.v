(** Model of the LinearOperator classes, krypy/utils.py 1365-1602.

    Simplifications.  dtypes are ignored.  Arrays are two-dimensional with
    entries in an exact field [C] (numpy arrays of any other dimension are not
    modelled).  Python's fallback protocol for [NotImplemented] is cut off at
    the value [Err NotImplementedFallback]. *)
From mathcomp Require Import all_ssreflect all_algebra.
From Verif Require Import Base.

Set Implicit Arguments.
Unset Strict Implicit.
Unset Printing Implicit Defensive.
Import Order.TTheory GRing.Theory Num.Theory.
Local Open Scope ring_scope.

Section LinearOperator.
Variable C : numClosedFieldType.

(** A two-dimensional numpy array: run-time shape and contents. *)
Record arr := Arr { nrow : nat; ncol : nat; cont : 'M[C]_(nrow, ncol) }.

(** View an array as a matrix of a given shape, if it has that shape. *)
Definition as_mx (m n : nat) (X : arr) : option 'M[C]_(m, n) :=
  match @eqP _ (nrow X) m, @eqP _ (ncol X) n with
  | ReflectT e1, ReflectT e2 => Some (castmx (e1, e2) (cont X))
  | _, _ => None
  end.

(** numpy.zeros(X.shape) *)
Definition zeros_like (X : arr) : arr := @Arr (nrow X) (ncol X) 0.

(** Broadcasting of one axis: equal lengths, or one of them is 1. *)
Definition bdim (a b : nat) : option nat :=
  if a == b then Some a else if a == 1%N then Some b else if b == 1%N then Some a else None.
Definition entry (X : arr) (i j : nat) : C :=
  match insub i, insub j with Some i', Some j' => cont X i' j' | _, _ => 0 end.
Definition bidx (n i : nat) : nat := if n == 1%N then 0%N else i.

(** X + Y of numpy arrays: same shapes, otherwise broadcasting or ValueError. *)
Definition arr_add (X Y : arr) : res arr :=
  match as_mx (nrow X) (ncol X) Y with
  | Some Y' => Ok (Arr (cont X + Y'))
  | None =>
    match bdim (nrow X) (nrow Y), bdim (ncol X) (ncol Y) with
    | Some m, Some n =>
      Ok (@Arr m n (\matrix_(i, j)
        (entry X (bidx (nrow X) i) (bidx (ncol X) j) +
         entry Y (bidx (nrow Y) i) (bidx (ncol Y) j))))
    | _, _ => Err ValueError
    end
  end.

(** alpha * X *)
Definition arr_scale (a : C) (X : arr) : arr := Arr (a *: cont X).

(** numpy.dot(A, X); ValueError if the inner dimensions differ. *)
Definition arr_dot (A X : arr) : res arr :=
  match as_mx (ncol A) (ncol X) X with
  | Some X' => Ok (Arr (cont A *m X'))
  | None => Err ValueError
  end.

(** A.T.conj() *)
Definition arr_adj (A : arr) : arr := Arr (map_mx conjC (cont A)^T).

(** A LinearOperator object: shape, the callables [_dot]/[_dot_adj]
    (None if undefined), and whether it is an instance of IdentityLinearOperator.
    utils.py 1371-1379. *)
Record lop := Lop {
  lrow : nat; lcol : nat;
  raw_dot : option (arr -> res arr);
  raw_adj : option (arr -> res arr);
  is_id : bool }.

(** LinearOperator.__init__, utils.py 1371-1379 (the shape is a pair of naturals here). *)
Definition lop_init (m n : nat) (d da : option (arr -> res arr)) : res lop :=
  match d, da with
  | None, None => Err LinearOperatorError
  | _, _ => Ok (Lop m n d da false)
  end.

(** LinearOperator.dot, utils.py 1381-1390. *)
Definition dot (A : lop) (X : arr) : res arr :=
  if nrow X != lcol A then Err LinearOperatorError else
  match raw_dot A with
  | None => Err LinearOperatorError
  | Some f => if ncol X == 0%N then Ok (zeros_like X) else f X
  end.

(** LinearOperator.dot_adj, utils.py 1392-1401. *)
Definition dot_adj (A : lop) (X : arr) : res arr :=
  if nrow X != lrow A then Err LinearOperatorError else
  match raw_adj A with
  | None => Err LinearOperatorError
  | Some f => if ncol X == 0%N then Ok (zeros_like X) else f X
  end.

(** _SumLinearOperator, utils.py 1468-1483. *)
Definition mkSum (A B : lop) : res lop :=
  if (lrow A != lrow B) || (lcol A != lcol B) then Err LinearOperatorError else
  lop_init (lrow A) (lcol A)
    (Some (fun X => let! a := dot A X in let! b := dot B X in arr_add a b))
    (Some (fun X => let! a := dot_adj A X in let! b := dot_adj B X in arr_add a b)).

(** _ProductLinearOperator, utils.py 1486-1501. *)
Definition mkProd (A B : lop) : res lop :=
  if lcol A != lrow B then Err LinearOperatorError else
  lop_init (lrow A) (lcol B)
    (Some (fun X => let! b := dot B X in dot A b))
    (Some (fun X => let! a := dot_adj A X in dot_adj B a)).

(** _ScaledLinearOperator, utils.py 1504-1519. *)
Definition mkScaled (A : lop) (alpha : C) : res lop :=
  lop_init (lrow A) (lcol A)
    (Some (fun X => let! a := dot A X in Ok (arr_scale alpha a)))
    (Some (fun X => let! a := dot_adj A X in Ok (arr_scale alpha^* a))).

(** range(p) for a Python int p is empty if p is not positive. *)
Definition range_len (p : int) : nat := match p with Posz n => n | Negz _ => 0 end.

(** _PowerLinearOperator, utils.py 1522-1545.  [_dot] iterates the checked
    [dot], [_dot_adj] iterates the raw callable [_dot_adj] (calling None is a
    TypeError). *)
Definition mkPower (A : lop) (p : int) : res lop :=
  if lrow A != lcol A then Err LinearOperatorError else
  let power (fn : arr -> res arr) (X : arr) :=
    fornE (range_len p) (fun _ r => fn r) X in
  lop_init (lrow A) (lcol A)
    (Some (power (dot A)))
    (Some (power (fun X => match raw_adj A with
                           | Some f => f X | None => Err TypeError end))).

(** _AdjointLinearOperator, utils.py 1548-1556. *)
Definition mkAdj (A : lop) : res lop :=
  lop_init (lcol A) (lrow A) (raw_adj A) (raw_dot A).

(** IdentityLinearOperator, utils.py 1559-1569. *)
Definition mkId (m n : nat) : lop :=
  Lop m n (Some (fun X => Ok X)) (Some (fun X => Ok X)) true.

(** ZeroLinearOperator, utils.py 1572-1582. *)
Definition mkZero (m n : nat) : lop :=
  Lop m n (Some (fun X => Ok (zeros_like X))) (Some (fun X => Ok (zeros_like X))) false.

(** MatrixLinearOperator, utils.py 1585-1602 (the cached adjoint is not modelled). *)
Definition mkMat (A : arr) : lop :=
  Lop (nrow A) (ncol A) (Some (arr_dot A)) (Some (arr_dot (arr_adj A))) false.

(** LinearOperatorError inside an operator method becomes NotImplemented. *)
Definition notimpl {A} (r : res A) : res A :=
  match r with Err LinearOperatorError => Err NotImplementedFallback | _ => r end.

(** __mul__ with a LinearOperator operand, utils.py 1407-1414. *)
Definition op_mul (A X : lop) : res lop :=
  notimpl (if is_id X then Ok A else if is_id A then Ok X else mkProd A X).

(** __mul__ with a scalar operand, utils.py 1407-1416: for an identity
    operator the scalar itself is returned. *)
Definition op_mul_scalar (A : lop) (x : C) : res (lop + C) :=
  notimpl (if is_id A then Ok (inr x) else rmap inl (mkScaled A x)).

(** __mul__ with an array operand, utils.py 1407-1420. *)
Definition op_mul_arr (A : lop) (X : arr) : res arr :=
  notimpl (if is_id A then Ok X else dot A X).

(** __rmul__, utils.py 1422-1426. *)
Definition op_rmul (A : lop) (x : C) : res lop := notimpl (mkScaled A x).
(** __pow__, utils.py 1428-1432. *)
Definition op_pow (A : lop) (p : int) : res lop := notimpl (mkPower A p).
(** __add__, utils.py 1434-1438. *)
Definition op_add (A B : lop) : res lop := notimpl (mkSum A B).
(** __neg__, utils.py 1440-1444. *)
Definition op_neg (A : lop) : res lop := notimpl (mkScaled A (-1)).
(** __sub__, utils.py 1446-1447. *)
Definition op_sub (A B : lop) : res lop := let! nB := op_neg B in op_add A nB.
(** adj, utils.py 1403-1405. *)
Definition op_adj (A : lop) : res lop := mkAdj A.

(** User-level expressions. *)
Inductive expr :=
| EMat of arr | EId of nat & nat | EZero of nat & nat
| EAdd of expr & expr | ESub of expr & expr | ENeg of expr
| EMul of expr & expr | EScale of C & expr | EPow of expr & int | EAdj of expr.

(** Evaluation of an expression by the Python operators. *)
Fixpoint build (e : expr) : res lop :=
  match e with
  | EMat A => Ok (mkMat A)
  | EId m n => Ok (mkId m n)
  | EZero m n => Ok (mkZero m n)
  | EAdd a b => let! x := build a in let! y := build b in op_add x y
  | ESub a b => let! x := build a in let! y := build b in op_sub x y
  | ENeg a => let! x := build a in op_neg x
  | EMul a b => let! x := build a in let! y := build b in op_mul x y
  | EScale c a => let! x := build a in op_rmul x c
  | EPow a p => let! x := build a in op_pow x p
  | EAdj a => let! x := build a in op_adj x
  end.
End LinearOperator.
