(** Vocabulary of the specifications: conjugate transpose, inner products,
    orthonormal families, spans.  Independent of the model. *)
From mathcomp Require Import all_ssreflect all_algebra.

Set Implicit Arguments.
Unset Strict Implicit.
Unset Printing Implicit Defensive.
Import Order.TTheory GRing.Theory Num.Theory.
Local Open Scope ring_scope.

Section Ctr.
Variable C : numClosedFieldType.
(** Conjugate transpose. *)
Definition ctr m n (A : 'M[C]_(m, n)) : 'M[C]_(n, m) := map_mx conjC (A^T).
End Ctr.
Notation "A ^h" := (ctr A) (at level 2, format "A ^h") : ring_scope.

Section Spec.
Variable C : numClosedFieldType.
Variable N : nat.
Local Notation vec := 'cV[C]_N.

(** An inner product on C^N, linear in the second argument. *)
Record is_ip (ip : vec -> vec -> C) : Prop := IsIp {
  ip_linr : forall x a y z, ip x (a *: y + z) = a * ip x y + ip x z;
  ip_conj : forall x y, ip y x = (ip x y)^*;
  ip_pos  : forall x, x != 0 -> 0 < ip x x }.

(** A linear map of C^N. *)
Definition is_linear (f : vec -> vec) : Prop :=
  forall a x y, f (a *: x + y) = a *: f x + f y.

Definition self_adjoint (ip : vec -> vec -> C) (f : vec -> vec) : Prop :=
  forall x y, ip (f x) y = ip x (f y).

Definition pos_def (ip : vec -> vec -> C) (f : vec -> vec) : Prop :=
  forall x, x != 0 -> 0 < ip x (f x).

Definition injective_op (f : vec -> vec) : Prop := forall x, f x = 0 -> x = 0.

(** Orthonormality of the first k members of a family. *)
Definition orthonormal (ip : vec -> vec -> C) (v : nat -> vec) (k : nat) : Prop :=
  forall i j, (i < k)%N -> (j < k)%N -> ip (v i) (v j) = (i == j)%:R.

(** x is a linear combination of v 0, ..., v (k-1). *)
Definition in_span (v : nat -> vec) (k : nat) (x : vec) : Prop :=
  exists c : nat -> C, x = \sum_(i < k) c i *: v i.

(** The Krylov vectors r, B r, B^2 r, ... *)
Definition krylov (B : vec -> vec) (r : vec) (i : nat) : vec := iter i B r.

(** The norm belonging to an inner product. *)
Definition ipnorm (ip : vec -> vec -> C) (x : vec) : C := sqrtC (ip x x).

(** Euclidean inner product. *)
Definition ipE (x y : vec) : C := (x^h *m y) 0 0.
End Spec.
