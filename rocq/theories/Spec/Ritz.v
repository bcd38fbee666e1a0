(** Specifications for Ritz pairs. *)
From mathcomp Require Import all_ssreflect all_algebra.
From Verif Require Import Spec.LinAlg.

Set Implicit Arguments.
Unset Strict Implicit.
Unset Printing Implicit Defensive.
Import Order.TTheory GRing.Theory Num.Theory.
Local Open Scope ring_scope.

Section Ritz.
Variable C : numClosedFieldType.

(** What is assumed of the result of an eigenvalue routine: A U = U diag(theta) with
    columns of norm 1, resp. A U = B U diag(theta) with columns that are not 0. *)
Definition eig_ok n (A : 'M[C]_n) (r : ('I_n -> C) * 'M[C]_n) : Prop :=
  forall i, A *m col i r.2 = r.1 i *: col i r.2 /\ ipnorm (@ipE C n) (col i r.2) = 1.
Definition geig_ok n (A B : 'M[C]_n) (r : ('I_n -> C) * 'M[C]_n) : Prop :=
  forall i, A *m col i r.2 = r.1 i *: (B *m col i r.2) /\ col i r.2 != 0.

Variable N : nat.
Local Notation vec := 'cV[C]_N.

(** The relation A V_n = V H with orthonormal V and H of size n_ x n, n_ = n or n + 1;
    row n of H has only its last entry. *)
Record hess_rel (ip : vec -> vec -> C) (A : vec -> vec) (n_ n : nat) (V : nat -> vec) (H : nat -> nat -> C) : Prop :=
  HessRel {
    hr_size : n_ = n \/ n_ = n.+1;
    hr_orth : orthonormal ip V n_;
    hr_rel : forall j, (j < n)%N -> A (V j) = \sum_(i < n_) H i j *: V i;
    hr_hess : forall j, (j.+1 < n)%N -> H n j = 0 }.

(** z in X is a Ritz vector with value t and test space Y. *)
Definition ritz_pair (A : vec -> vec) (ip : vec -> vec -> C) (X Y : vec -> Prop) (t : C) (z : vec) : Prop :=
  [/\ X z, z != 0 & forall y, Y y -> ip y (A z - t *: z) = 0].
End Ritz.
