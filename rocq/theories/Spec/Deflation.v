(** Deflation: what the projections and the deflated solvers are to compute. *)
From mathcomp Require Import all_ssreflect all_algebra.
From Verif Require Import Base Spec.LinAlg Model.Inner Spec.Inner Model.Arnoldi Model.Solver Model.LinearSystem Model.Krylov Spec.Krylov.
From Verif Require Import Model.Projection Spec.Projection Model.Deflation.

Set Implicit Arguments.
Unset Strict Implicit.
Unset Printing Implicit Defensive.
Import Order.TTheory GRing.Theory Num.Theory.
Local Open Scope ring_scope.

Section Spec.
Variable C : numClosedFieldType.
Variable sqr : forall n k, 'M[C]_(n, k) -> 'M[C]_(n, k) * 'M[C]_k.
Variable N : nat.
Local Notation vec := 'cV[C]_N.

(** The outcome of a solver without the second component of its state. *)
Definition forget (S L : Type) (out : outcome C vec (S * L)) : outcome C vec S :=
  let f (s : sol C vec (S * L)) := Sol (s_st s).1 (s_iter s) (s_x0 s) (s_xk s) (s_res s) (s_err s) in
  match out with
  | Returns s => Returns (f s)
  | NoConvergence s => NoConvergence (f s)
  | Raises e => Raises _ _ _ e
  end.

(** The images of the columns of U. *)
Definition imcols (f : vec -> vec) k (U : 'M[C]_(N, k)) : 'M[C]_(N, k) := \matrix_(i, j) f (col j U) i 0.

(** The projection P with kernel span(A U) and range the orthogonal complement of U. *)
Definition defl_P (ip : ipB C N) (A : vec -> vec) k (U : 'M[C]_(N, k)) (a : vec) : vec :=
  a - imcols A U *m invmx (inner ip U (imcols A U)) *m inner ip U a.

(** The arguments of ObliqueProjection and of the deflated solvers: iterations >= 1;
    get_ip_Minv_B yields an inner product; <U, Ml A Mr U> is nonsingular; and, if orthogonalize is not switched off, the columns of U after the
    orthonormalisation and their images are separated by at least 1e-15. *)
Record defl_args (l : lsys C N) (Minv : option (vec -> vec)) (same : bool) k (U : 'M[C]_(N, k)) (kw : pkwargs) : Prop :=
  DeflArgs {
    da_its : pk_its kw != 0%N;
    da_ip : exists2 B, get_ip_Minv_B l Minv = Ok B & valid_ip B;
    da_same : same -> forall x, lMlAMr l x = x;
    da_unit : inner (lB l) U (imcols (lMlAMr l) U) \in unitmx;
    da_sep : pk_orth kw -> forall ob, mk_oblique sqr l Minv same U kw = Ok ob ->
       separated (ip1 (lB l)) (eps15 C) (o_U ob) /\ separated (ip1 (lB l)) (eps15 C) (o_AU ob) }.
End Spec.
