(** Eigenvalues of operators. *)
From mathcomp Require Import all_ssreflect all_algebra.

Set Implicit Arguments.
Unset Strict Implicit.
Unset Printing Implicit Defensive.
Import Order.TTheory GRing.Theory Num.Theory.
Local Open Scope ring_scope.

Section Spec.
Variable C : numClosedFieldType.
Variable N : nat.
Local Notation vec := 'cV[C]_N.

Definition eigenvalue_of (T : vec -> vec) (mu : C) : Prop := exists2 v, v != 0 & T v = mu *: v.

(** mu lies between two members of s. *)
Definition between (s : seq C) (mu : C) : Prop :=
  exists x y, [/\ x \in s, y \in s, x <= mu & mu <= y].

(** Every eigenvalue of T is a member of s, or at least lies between two members of s;
    with signs: between two negative or two positive ones. *)
Definition spectrum_within (T : vec -> vec) (s : seq C) : Prop :=
  forall mu, eigenvalue_of T mu -> between s mu.
Definition spectrum_within2 (T : vec -> vec) (s : seq C) : Prop :=
  forall mu, eigenvalue_of T mu ->
    between [seq x <- s | x < 0] mu \/ between [seq x <- s | 0 < x] mu.
End Spec.
