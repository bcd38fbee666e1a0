(** The relations between the attributes of a deflated solver. *)
From mathcomp Require Import all_ssreflect all_algebra.
From Verif Require Import Base Spec.LinAlg Model.Inner Spec.Inner Spec.Deflation.

Set Implicit Arguments.
Unset Strict Implicit.
Unset Printing Implicit Defensive.
Import Order.TTheory GRing.Theory Num.Theory.
Local Open Scope ring_scope.

Section Spec.
Variable C : numClosedFieldType.
Variable N : nat.
Local Notation vec := 'cV[C]_N.

(** The first n columns of V. *)
Definition firstn p q n (hn : (n <= q)%N) (V : 'M[C]_(p, q)) : 'M[C]_(p, n) :=
  \matrix_(i, j) V i (widen_ord hn j).

(** B is the inner product of the problem, Bm the inner product <., M^-1 .>; A is the
    operator Ml A Mr and M the preconditioner.  [V, U] is orthonormal, E = <U, A U> is
    nonsingular, C = <U, A V_n>, B_ = <V, A U>, and M P A V_n = V H_ + W with the
    projection P A v = A v - A U E^-1 <U, A v>; W is orthogonal to V and U.  (W is 0 unless
    the Arnoldi process was stopped with an invariant subspace up to 1e-14.) *)
Record defl_rel (B Bm : ipB C N) (A M : vec -> vec) n_ n m (hn : (n <= n_)%N)
    (V : 'M[C]_(N, n_)) (U : 'M[C]_(N, m)) (H_ : 'M[C]_(n_, n)) (E : 'M[C]_m) (Cm : 'M[C]_(m, n))
    (B_ : 'M[C]_(n_, m)) (W : 'M[C]_(N, n)) : Prop := DeflRel {
  dr_B : valid_ip B; dr_Bm : valid_ip Bm; dr_A : is_linear A; dr_M : is_linear M;
  dr_adj : forall x y, ip1 Bm x (M y) = ip1 B x y;
  dr_VV : inner Bm V V = 1%:M; dr_UU : inner Bm U U = 1%:M; dr_UV : inner Bm U V = 0;
  dr_E : E = inner B U (imcols A U); dr_unit : E \in unitmx;
  dr_C : Cm = inner B U (imcols A (firstn hn V));
  dr_B_ : B_ = inner B V (imcols A U);
  dr_rel : imcols M (imcols A (firstn hn V) - imcols A U *m invmx E *m Cm) = V *m H_ + W;
  dr_VW : inner Bm V W = 0; dr_UW : inner Bm U W = 0 }.

(** The span of the columns of V_n and U. *)
Definition in_cols p q (V : 'M[C]_(N, p)) (U : 'M[C]_(N, q)) (x : vec) : Prop :=
  exists a c, x = V *m a + U *m c.
End Spec.
