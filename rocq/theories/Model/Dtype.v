(** Model of the dtypes: numpy.find_common_type for array types, find_common_dtype (krypy/utils.py
    106-122), _get_dtype (1459-1465), the attribute dtype of the LinearOperator classes (1365-1602),
    of Arnoldi (898), LinearSystem (linsys.py 115-117) and _KrylovSolver (370-372).

    Only the types int64, float64 and complex128 are modelled.  Objects without dtype, for which
    find_common_dtype warns, do not occur. *)
From mathcomp Require Import all_ssreflect all_algebra.
From Verif Require Import Base Spec.Dtype Model.LinearOperator.

Set Implicit Arguments.
Unset Strict Implicit.
Unset Printing Implicit Defensive.

(** The greater one of two types *)
Definition djoin (d e : dtype) : dtype :=
  match d, e with DCplx, _ | _, DCplx => DCplx | DFloat, _ | _, DFloat => DFloat | _, _ => DInt end.

(** numpy.find_common_type(dtypes, []); the entry None is numpy.dtype(None) = float64, and no type is
    None, from which LinearOperator.__init__ and numpy.zeros make float64. *)
Definition find_common_type (ds : seq (option dtype)) : dtype :=
  let ds := [seq (if d is Some d then d else DFloat) | d <- ds] in
  if ds is d :: ds' then foldl djoin d ds' else DFloat.

(** An argument of find_common_dtype: an array, sparse matrix or LinearOperator with its dtype, or any
    other object, e.g., None or a function *)
Inductive dobj := DObj of dtype | DOther.

(** find_common_dtype, utils.py 106-122 *)
Definition find_common_dtype (args : seq dobj) : dtype :=
  find_common_type (pmap (fun a => if a is DObj d then Some (Some d) else None) args).

(** _get_dtype(operators, dtypes), utils.py 1459-1465 *)
Definition get_dtype (ops : seq dtype) (dtypes : seq dtype) : dtype :=
  find_common_type (map Some (dtypes ++ ops)).

Section Operators.
Variable C : numClosedFieldType.

(** Operator expressions with dtypes: matrices and LinearOperator objects given by the user with their dtype, and scalars with the dtype of their Python type *)
Inductive dexpr :=
| XMat of arr C & dtype | XOp of lop C & dtype | XId of nat & nat | XZero of nat & nat
| XAdd of dexpr & dexpr | XSub of dexpr & dexpr | XNeg of dexpr
| XMul of dexpr & dexpr | XScale of C & dtype & dexpr | XPow of dexpr & int | XAdj of dexpr.

(** The object and its attribute dtype *)
Definition dlop := (lop C * dtype)%type.

(** _ScaledLinearOperator: line 1512 *)
Definition d_scaled (alpha : dtype) (x : dtype) : dtype := get_dtype [:: x] [:: alpha].

(** The operators of Python; the dtypes are those of utils.py 1476 (sum), 1494 (product), 1512 (scaled,
    the negative has the integer factor -1), 1532 (power), 1555 (adjoint), 1562 and 1575 (numpy.dtype(None)
    for identity and zero).  A product with an identity operator is the other factor, 1407-1412. *)
Fixpoint dbuild (e : dexpr) : res dlop :=
  match e with
  | XMat A d => Ok (mkMat A, d)
  | XOp A d => Ok (A, d)
  | XId m n => Ok (mkId C m n, DFloat)
  | XZero m n => Ok (mkZero C m n, DFloat)
  | XAdd a b => let! x := dbuild a in let! y := dbuild b in
      let! z := op_add x.1 y.1 in Ok (z, get_dtype [:: x.2; y.2] [::])
  | XSub a b => let! x := dbuild a in let! y := dbuild b in
      let! z := op_sub x.1 y.1 in Ok (z, get_dtype [:: x.2; d_scaled DInt y.2] [::])
  | XNeg a => let! x := dbuild a in let! z := op_neg x.1 in Ok (z, d_scaled DInt x.2)
  | XMul a b => let! x := dbuild a in let! y := dbuild b in
      let! z := op_mul x.1 y.1 in
      Ok (z, if is_id y.1 then x.2 else if is_id x.1 then y.2 else get_dtype [:: x.2; y.2] [::])
  | XScale c d a => let! x := dbuild a in let! z := op_rmul x.1 c in Ok (z, d_scaled d x.2)
  | XPow a p => let! x := dbuild a in let! z := op_pow x.1 p in Ok (z, x.2)
  | XAdj a => let! x := dbuild a in let! z := op_adj x.1 in Ok (z, x.2)
  end.

(** The expression without dtypes, if there are no LinearOperator objects of the user *)
Fixpoint erase (e : dexpr) : option (expr C) :=
  let lift1 k a := if erase a is Some x then Some (k x) else None in
  let lift2 (k : expr C -> expr C -> expr C) a b := if erase a is Some x then if erase b is Some y then Some (k x y) else None else None in
  match e with
  | XMat A _ => Some (EMat A)
  | XOp _ _ => None
  | XId m n => Some (EId C m n)
  | XZero m n => Some (EZero C m n)
  | XAdd a b => lift2 (@EAdd C) a b
  | XSub a b => lift2 (@ESub C) a b
  | XNeg a => lift1 (@ENeg C) a
  | XMul a b => lift2 (@EMul C) a b
  | XScale c _ a => lift1 (EScale c) a
  | XPow a p => lift1 ((@EPow C)^~ p) a
  | XAdj a => lift1 (@EAdj C) a
  end.
End Operators.

(** Arnoldi.dtype for the arguments A, v, M; M=None is not recognised.  utils.py 898 *)
Definition arn_dtype (A v M : dobj) : dtype := find_common_dtype [:: A; v; M].

(** LinearSystem.dtype, linsys.py 115-117: A, M, Ml, Mr have become LinearOperators (float64 for None);
    a function ip_B is not recognised. *)
Definition ls_dtype (A b M Ml Mr : dtype) (ip_B : dobj) : dtype :=
  find_common_dtype [:: DObj A; DObj b; DObj M; DObj Ml; DObj Mr; ip_B].

(** _KrylovSolver.dtype, linsys.py 370-372; x0=None has become numpy.zeros. *)
Definition solver_dtype (ls : dtype) (x0 dt : option dtype) : dtype :=
  find_common_type [:: Some ls; x0; dt].
