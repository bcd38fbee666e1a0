(** Vocabulary for factorisations and projections. *)
From mathcomp Require Import all_ssreflect all_algebra.
From Verif Require Import Base Spec.LinAlg Model.Inner Spec.Inner Model.Projection.

Set Implicit Arguments.
Unset Strict Implicit.
Unset Printing Implicit Defensive.
Import Order.TTheory GRing.Theory Num.Theory.
Local Open Scope ring_scope.

Section Spec.
Variable C : numClosedFieldType.

Definition upper_tri m n (R : 'M[C]_(m, n)) : Prop := forall (i : 'I_m) (j : 'I_n), (j < i)%N -> R i j = 0.

(** The documented behaviour of scipy.linalg.qr(X, mode="economic") for k <= n. *)
Definition qr_spec (f : forall n k, 'M[C]_(n, k) -> 'M[C]_(n, k) * 'M[C]_k) : Prop :=
  forall n k (X : 'M[C]_(n, k)), (k <= n)%N ->
    [/\ X = (f n k X).1 *m (f n k X).2, (f n k X).1^h *m (f n k X).1 = 1%:M & upper_tri (f n k X).2].

(** Every column has at least the distance e to the span of the preceding columns. *)
Definition separated N (ip : 'cV[C]_N -> 'cV[C]_N -> C) (e : C) k (X : 'M[C]_(N, k)) : Prop :=
  forall (i : 'I_k) (c : 'I_k -> C), e <= ipnorm ip (col i X - \sum_(j < k | (j < i)%N) c j *: col j X).

(** Full column rank. *)
Definition full_rank N k (X : 'M[C]_(N, k)) : Prop := forall c : 'cV[C]_k, X *m c = 0 -> c = 0.

(** What is needed for a factorisation X = Q R: nothing but k <= N for scipy's qr; columns
    that are separated by at least 1e-15 for Gram-Schmidt. *)
Definition qr_hyp N (B : option (ipB C N)) k (X : 'M[C]_(N, k)) : Prop :=
  if B is Some B then separated (ip1 B) (eps15 C) X else (k <= N)%N.

(** The arguments of Projection(X, Y, ip_B, orthogonalize): <Y, X> is nonsingular, no
    more columns than rows when scipy's qr is used, and columns separated by 1e-15 if
    Gram-Schmidt replaces the inversion of <Y, X>. *)
Record proj_args N (B : option (ipB C N)) k (X : 'M[C]_(N, k)) (Yo : option 'M[C]_(N, k)) (orth : bool) : Prop :=
  ProjArgs {
    pa_B : valid_ip (ip_arg B);
    pa_unit : inner (ip_arg B) (if Yo is Some Y then Y else X) X \in unitmx;
    pa_k : orth -> B = None -> (k <= N)%N;
    pa_sep : orth -> Yo = None -> qr_hyp B X }.
End Spec.
