(** Data types of arrays and the numbers that an array of a given type can hold. *)
From mathcomp Require Import all_ssreflect all_algebra.

Set Implicit Arguments.
Unset Strict Implicit.
Unset Printing Implicit Defensive.
Import Order.TTheory GRing.Theory Num.Theory.
Local Open Scope ring_scope.

(** int64, float64, complex128.  Other types of numpy do not occur here. *)
Inductive dtype := DInt | DFloat | DCplx.

(** Every number of type d is one of type e. *)
Definition dle (d e : dtype) : bool :=
  match d, e with DInt, _ | DFloat, DFloat | DFloat, DCplx | DCplx, DCplx => true | _, _ => false end.

Section Spec.
Variable C : numClosedFieldType.

(** The numbers of a type.  The numbers are exact: float64 stands for the real numbers. *)
Definition has_dtype (d : dtype) (x : C) : Prop :=
  match d with DInt => exists z : int, x = z%:~R | DFloat => x \is Num.real | DCplx => True end.

(** The entries of a matrix *)
Definition mx_dtype (d : dtype) m n (X : 'M[C]_(m, n)) : Prop := forall i j, has_dtype d (X i j).

(** d is the least type of ds, and float64 for no types. *)
Definition is_common (ds : seq dtype) (d : dtype) : Prop :=
  if ds is [::] then d = DFloat else (forall e, dle d e <-> all (fun d' => dle d' e) ds).

(** A map on columns that does not leave the types from d on *)
Definition honest (d : dtype) N (f : 'cV[C]_N -> 'cV[C]_N) : Prop :=
  forall e x, dle d e -> mx_dtype e x -> mx_dtype e (f x).
End Spec.
