(** What bound_pseudo computes without pseudospectra: the residual norms of an optimal Krylov
    subspace method for an approximation of the next system. *)
From mathcomp Require Import all_ssreflect all_algebra.
From Verif Require Import Spec.LinAlg.

Set Implicit Arguments.
Unset Strict Implicit.
Unset Printing Implicit Defensive.
Import Order.TTheory GRing.Theory Num.Theory.
Local Open Scope ring_scope.

Section Spec.
Variable C : numClosedFieldType.
Variable N : nat.
Local Notation vec := 'cV[C]_N.
Variables (ip : vec -> vec -> C) (T : vec -> vec) (q : vec).

(** Q is the orthogonal projection onto S. *)
Definition orth_proj (S : vec -> Prop) (Q : vec -> vec) : Prop :=
  forall x, S (Q x) /\ forall y, S y -> ip y (x - Q x) = 0.

(** t is the minimum of ||q - T z|| over K. *)
Definition least_residual (K : vec -> Prop) (t : C) : Prop :=
  (forall z, K z -> t <= ipnorm ip (q - T z)) /\ exists2 z, K z & t = ipnorm ip (q - T z).

(** T is injective on K. *)
Definition inj_on (K : vec -> Prop) : Prop := forall z, K z -> T z = 0 -> z = 0.

(** The numbers rs are the residual norms of the residual minimising method in the Krylov
    spaces K_i(T, q), for i < d, as long as T is injective there; they start with ||q||,
    do not increase, and number d is 0. *)
Record optimal_norms (d : nat) (rs : seq C) : Prop := OptimalNorms {
  on_size : size rs = d.+1;
  on_first : nth 0 rs 0 = ipnorm ip q;
  on_mono : forall i, (i < d)%N -> nth 0 rs i.+1 <= nth 0 rs i;
  on_last : nth 0 rs d = 0;
  on_min : forall i, (i < d)%N -> inj_on (in_span (krylov T q) i) ->
    least_residual (in_span (krylov T q) i) (nth 0 rs i) }.

(** The numbers rs are the residual norms of a Galerkin method: number i is ||q - T z|| for
    some z in K_i(T, q) with q - T z orthogonal to K_i(T, q).  There are at most
    d + 1 of them, and the last one does not exceed tol ||q||. *)
Record galerkin_norms (d : nat) (tol : C) (rs : seq C) : Prop := GalerkinNorms {
  gn_size : (0 < size rs <= d.+1)%N;
  gn_res : forall i, (i < size rs)%N -> exists z, [/\ in_span (krylov T q) i z,
    forall y, in_span (krylov T q) i y -> ip y (q - T z) = 0 & nth 0 rs i = ipnorm ip (q - T z)];
  gn_last : last 0 rs <= tol * ipnorm ip q }.
End Spec.
