(** Vocabulary for Arnoldifyer: the documented behaviour of the LAPACK routines, and oblique
    projections. *)
From mathcomp Require Import all_ssreflect all_algebra perm.
From Verif Require Import Base Spec.LinAlg Model.Inner Spec.Inner Model.Projection Spec.Projection Spec.Deflation Spec.Krylov.

Set Implicit Arguments.
Unset Strict Implicit.
Unset Printing Implicit Defensive.
Import Order.TTheory GRing.Theory Num.Theory.
Local Open Scope ring_scope.

Section Spec.
Variable C : numClosedFieldType.

(** X = Q R with a square unitary Q *)
Definition fqr_ok n k (X : 'M[C]_(n, k)) (Q : 'M[C]_n) : Prop :=
  Q^h *m Q = 1%:M /\ exists2 R : 'M[C]_(n, k), upper_tri R & X = Q *m R.

(** The economic factorisation with column pivoting: the columns of X in the order s are
    Q R.  The diagonal entry of R in row i dominates the norm of the rest of every later column. *)
Record pqr_ok n k (X : 'M[C]_(n, k)) (Q : 'M[C]_(n, minn n k)) (R : 'M[C]_(minn n k, k)) (s : {perm 'I_k}) : Prop :=
  PqrOk {
    pq_Q : Q^h *m Q = 1%:M; pq_R : upper_tri R;
    pq_X : forall i j, X i (s j) = (Q *m R) i j;
    pq_piv : forall (i : 'I_(minn n k)) (j : 'I_k), (i <= j)%N ->
      \sum_(t < minn n k | (i <= t)%N) `|R t j| ^+ 2 <= `|R i (widen_ord (geq_minr n k) i)| ^+ 2 }.

(** A = T H T^* with T unitary, H of upper Hessenberg form, and the first column of T is the
    first unit vector. *)
Definition hessenberg n (H : 'M[C]_n) : Prop := forall i j : 'I_n, (j.+1 < i)%N -> H i j = 0.
Record hess_ok n (A : 'M[C]_n) (H T : 'M[C]_n) : Prop := HessOk {
  hk_A : A = T *m H *m T^h; hk_T : T^h *m T = 1%:M; hk_H : hessenberg H;
  hk_1 : forall i j : 'I_n, j = 0%N :> nat -> T i j = (i == j)%:R }.

(** s is the least singular value of G. *)
Record smin_ok n (G : 'M[C]_n) (s : C) : Prop := SminOk {
  sm_0 : 0 <= s;
  sm_min : forall c : 'cV[C]_n, s * ipnorm (@ipE C n) c <= ipnorm (@ipE C n) (G *m c);
  sm_vec : exists2 c : 'cV[C]_n, c != 0 & G^h *m (G *m c) = s ^+ 2 *: c }.

(** t is the operator norm of f in the norm of the inner product. *)
Definition op_norm N (ip : 'cV[C]_N -> 'cV[C]_N -> C) (f : 'cV[C]_N -> 'cV[C]_N) (t : C) : Prop :=
  (forall x, ipnorm ip (f x) <= t * ipnorm ip x) /\
  exists2 x, x != 0 & ipnorm ip (f x) = t * ipnorm ip x.
End Spec.

(** The result of Arnoldifyer.get for the operator PA: the columns of Vh are an orthonormal
    basis of the space S; Hh is a Hessenberg matrix; the columns of Z are orthonormal and
    orthogonal to Vh; PA Vh = Vh Hh + Z Rh; F = -Z Rh Vh^* - Vh Rh^* Z^* is self-adjoint and
    (PA + F) Vh = Vh Hh, so that Vh is an Arnoldi basis for PA + F. *)
Section Get.
Variable C : numClosedFieldType.
Variable N : nat.
Local Notation vec := 'cV[C]_N.
Record arnoldi_like (B : ipB C N) (PA : vec -> vec) (S : vec -> Prop) r (Vh : 'M[C]_(N, r)) (Hh : 'M[C]_r)
    p (Z : 'M[C]_(N, p)) (Rh : 'M[C]_(p, r)) (F : vec -> vec) : Prop := ArnoldiLike {
  al_on : inner B Vh Vh = 1%:M;
  al_span : forall x, (exists c, x = Vh *m c) <-> S x;
  al_hess : hessenberg Hh;
  al_Z : inner B Z Z = 1%:M;
  al_ZV : inner B Vh Z = 0;
  al_rel : imcols PA Vh = Vh *m Hh + Z *m Rh;
  al_F : forall x, F x = - (Z *m (Rh *m inner B Vh x)) - Vh *m (Rh^h *m inner B Z x);
  al_sa : self_adjoint (ip1 B) F;
  al_pert : imcols (fun x => PA x + F x) Vh = Vh *m Hh }.
End Get.
