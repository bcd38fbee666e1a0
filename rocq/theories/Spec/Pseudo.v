(** Vocabulary for the bounds with pseudospectra. *)
From mathcomp Require Import all_ssreflect all_algebra.
From Verif Require Import Spec.LinAlg.

Set Implicit Arguments.
Unset Strict Implicit.
Unset Printing Implicit Defensive.
Import Order.TTheory GRing.Theory Num.Theory.
Local Open Scope ring_scope.

(** m is the maximum of f on S. *)
Definition is_max (R : numDomainType) T (S : T -> Prop) (f : T -> R) (m : R) : Prop :=
  (forall x, S x -> f x <= m) /\ exists2 x, S x & f x = m.

(** The eigenvalues of A with multiplicities *)
Definition spectrum (C : fieldType) n (A : 'M[C]_n) (s : seq C) : Prop := char_poly A = \prod_(x <- s) ('X - x%:P).

(** The generalised eigenvalues of A x = t B x for a regular matrix B *)
Definition gev_ok (C : numClosedFieldType) (gev : forall n, 'M[C]_n -> 'M[C]_n -> seq C) : Prop :=
  forall n (A B : 'M[C]_n), B \in unitmx -> spectrum (invmx B *m A) (gev n A B).

(** The union of the intervals of radius d around the numbers in s *)
Definition near (R : realFieldType) (s : seq R) (d x : R) : Prop := exists2 e, e \in s & `|x - e| <= d.

(** The polynomial with the given roots and value 1 at 0 *)
Definition npol (F : fieldType) (roots : seq F) (x : F) : F := \prod_(t <- roots) (1 - x / t).

(** The upper left part of a matrix *)
Definition lead (F : Type) r p q (H : 'M[F]_r.+1) : 'M[F]_(p, q) := \matrix_(i, j) H (inord i) (inord j).

(** The residual polynomial of the residual minimising method after i steps, for a Hessenberg matrix H with
    r + 1 rows: z |-> det(1 - z K) where K = (G^* G)^-1 H_i^* and G = H[:i+1, :i].  Its roots are the harmonic Ritz values. *)
Definition harm_mx (C : numClosedFieldType) r (H : 'M[C]_r.+1) i : 'M[C]_i :=
  let G := lead (minn i.+1 r.+1) i H in invmx (G^h *m G) *m (lead i i H)^h.
