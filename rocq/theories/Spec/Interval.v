(** Specification vocabulary for intervals: plain set membership. *)
From mathcomp Require Import all_ssreflect all_algebra.
From Verif Require Import Base Model.Interval.

Set Implicit Arguments.
Unset Strict Implicit.
Unset Printing Implicit Defensive.
Import Order.TTheory GRing.Theory Num.Theory.
Local Open Scope ring_scope.

Section Spec.
Variable R : realFieldType.
Implicit Types (a b i : itv R) (s : itvs R).

(** Membership in the closed interval with the endpoints of [a]. *)
Definition mem_itv a (x : R) : Prop := left a <= x /\ x <= right a.
(** Membership in a finite union. *)
Definition mem_union (l : seq (itv R)) (x : R) : Prop := exists2 a, a \in l & mem_itv a x.
(** The constructor succeeded for this object. *)
Definition valid a : Prop := left a <= right a.
(** Different list positions hold intervals without common point. *)
Definition disjoint_family (l : seq (itv R)) : Prop :=
  forall (i j : nat) (x : R), (i < j < size l)%N -> forall d, mem_itv (nth d l i) x -> ~ mem_itv (nth d l j) x.
(** An arbitrary iteration order of Python sets. *)
Definition some_order (o : itvs R -> itvs R) : Prop := forall t, perm_eq (o t) t.

(** Invariant of objects reachable by add() (see C35). *)
Definition reachable s : Prop :=
  (forall a, a \in s -> valid a) /\ disjoint_family s.

(** A margin [e] is admissible if no sigma lies in [lmin - e, lmax + e]. *)
Definition admissible (lmin lmax e : R) (sigma : seq R) : Prop :=
  forall t, t \in sigma -> ~ (lmin - e <= t /\ t <= lmax + e).

End Spec.
