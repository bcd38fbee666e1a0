(** Model of deflation.Arnoldifyer, krypy/deflation.py 285-470.

    As in Model/DeflRitz.v the attributes H, V, C and B_ of the deflated solver are given as
    matrices; U, AU, MAU and E come from its projection; MMlr0_norm and UMlr are arguments of
    get.  The following routines are parameters: [sqr] is scipy.linalg.qr(X, mode="economic"),
    [fqr X] the factor Q of scipy.linalg.qr(X), [pqr X] the triple Q, R, P of
    scipy.linalg.qr(X, mode="economic", pivoting=True) with P as a permutation, [hess] is
    scipy.linalg.hessenberg(X, calc_q=True), [nrm2] the spectral norm and [smin X] the least
    entry of scipy.linalg.svdvals(X).  numpy.argsort of a permutation is its inverse.  Exact
    arithmetic; dtypes are not modelled.  get computes Vh and F in every case (full=True).  If
    [smin] is 0 then PWAW_norm is Inf in the code and 0 here.  The shape of Wt is correct by
    its type. *)
From mathcomp Require Import all_ssreflect all_algebra perm.
From Verif Require Import Base Model.Inner Model.Arnoldi Model.Solver Model.LinearSystem Model.Krylov.
From Verif Require Import Model.Projection Model.Deflation Model.DeflRitz.

Set Implicit Arguments.
Unset Strict Implicit.
Unset Printing Implicit Defensive.
Import Order.TTheory GRing.Theory Num.Theory.
Local Open Scope ring_scope.

Section Arnoldifyer.
Variable C : numClosedFieldType.
Variable N : nat.
Local Notation vec := 'cV[C]_N.
Variable sqr : forall n k, 'M[C]_(n, k) -> 'M[C]_(n, k) * 'M[C]_k.
Variable fqr : forall n k, 'M[C]_(n, k) -> 'M[C]_n.
Variable pqr : forall n k, 'M[C]_(n, k) -> 'M[C]_(n, minn n k) * 'M[C]_(minn n k, k) * {perm 'I_k}.
Variable hess : forall n, 'M[C]_n -> 'M[C]_n * 'M[C]_n.
Variables nrm2 smin : forall n, 'M[C]_n -> C.

(** X[:, n:n + w] and X[n:n + w, :]; also X[:, n:] and X[n:, :] if w entries remain *)
Definition dcols p q w n (X : 'M[C]_(p, q)) : 'M[C]_(p, w) :=
  \matrix_(i, j) (if insub (n + j)%N is Some j' then X i j' else 0).
Definition drows p q w n (X : 'M[C]_(p, q)) : 'M[C]_(w, q) :=
  \matrix_(i, j) (if insub (n + i)%N is Some i' then X i' j else 0).

(** numpy.block([[numpy.zeros((p, n)), numpy.eye(p)]]), with q = n + p columns *)
Definition padeye p q n : 'M[C]_(p, q) := \matrix_(i, j) (j == (n + i)%N :> nat)%:R.

(** The threshold 1e-14 of line 329. *)
Definition eps14 : C := (10%:R ^+ 14)^-1.

Section Solver.
Variables (l : lsys C N) (Minv : option (vec -> vec)) (m : nat) (ob : obl C N m) (n_ n : nat) (b : byprod C N n_ n m).
Local Notation E := (d_E ob).
Local Notation B_ := (bp_B b).
Local Notation V := (bp_V b).

(** The number l of line 329, and the attributes R12, N and Z; EinvC is kept for L and M. *)
Record arnf := Arnf {
  af_X : 'M[C]_(m, n); af_l : nat; af_R12 : 'M[C]_(af_l, m);
  af_N : 'M[C]_(n_ - n + af_l, n_ + m); af_Z : 'M[C]_(N, n_ - n + af_l) }.

(** J, line 312; L and M, lines 311 and 313, are [dL] and [dM]. *)
Definition aJ : 'M[C]_(n + m, n_ + m) := block_mx (eye C n n_) (rows n B_) 0 E.

(** The number of entries of the diagonal of R above the threshold, line 329 *)
Definition arank (Anorm : C) (R : 'M[C]_(minn N m, m)) : nat :=
  (\sum_(i < minn N m) (eps14 * Anorm < `|R i (widen_ord (geq_minr N m) i)|)%R)%N.

(** The array of which the rank is determined, line 320 *)
Definition aproj : 'M[C]_(N, m) := o_MAU l ob - o_U ob *m E - V *m B_.

(** Arnoldifyer.__init__, lines 286-354.  numpy.linalg.norm(M, 2) raises ValueError for an
    empty matrix. *)
Definition mk_arnf : res arnf :=
  let! X := EinvC ob b in
  if (n + m == 0)%N then Err ValueError else
  if m == 0%N then
    Ok (@Arnf X 0 0 (padeye (n_ - n + 0) (n_ + m) n) (row_mx (dcols (n_ - n) n V) 0))
  else
    let '(Q, R, P) := pqr aproj in
    let l' := arank (nrm2 (dM ob b X)) R in
    let Q1 := cols l' Q in
    let R12 : 'M[C]_(l', m) := \matrix_(i, j) (if insub (i : nat) is Some i' then R i' ((perm_inv P) j) else 0) in
    let! ip := get_ip_Minv_B l Minv in
    let! (Q1, Rt) := qr sqr (Some ip) Q1 1 in
    let R12 := Rt *m R12 in
    Ok (@Arnf X l' R12
          (row_mx (eye C (n_ - n + l') (n_ - n)) (col_mx (drows (n_ - n) n B_) R12)
           *m padeye (n_ - n + m) (n_ + m) n)
          (row_mx (dcols (n_ - n) n V) Q1)).

(** The results of get(Wt, full=True) *)
Record agot (p r : nat) := Agot {
  ag_Hh : 'M[C]_r; ag_Rh : 'M[C]_(p, r); ag_q : C; ag_vdiff : C; ag_PWAW : C;
  ag_Vh : 'M[C]_(N, r); ag_F : vec -> vec }.

Variables (a : arnf) (r0norm : C) (UMlr : 'cV[C]_m).
Local Notation L := (dL b (af_X a)).
Local Notation J := aJ.

(** The vector to which Pt is applied in lines 393-408.  For n_ = 0 numpy.zeros((-1, 1))
    raises ValueError and tmp[0] raises IndexError. *)
Definition astart : res 'cV[C]_(n_ + m) :=
  if n_ == 0%N then Err (if (m == 0)%N then IndexError else ValueError) else
  let! w := if m == 0%N then Ok 0 else if E \in unitmx then Ok (invmx E *m UMlr) else Err LinAlgError in
  Ok (col_mx (\col_i (if i == 0%N :> nat then r0norm else 0)) w).

(** get, lines 356-470, for n + d - k = r > 0.  For r = 0 House raises IndexError; the part
    before can only raise the exceptions of Projection. *)
Definition aget k (Wt : 'M[C]_(n + m, k)) r (Wto : 'M[C]_(n + m, r.+1)) : res (agot (n_ - n + af_l a) r.+1) :=
  let! pt := mk_proj sqr (L *m Wt) (Some (tconj J *m Wt)) None true 2 in
  let Pt j := (p_operator_compl pt j).1 in
  let! t := astart in
  let! qt := Pt 1%N t in
  let q := tconj Wto *m (J *m qt) in
  let Q := mk_house q in
  let WtoQ := tconj (house_apply Q (tconj Wto)) in
  let! PLW := Pt r.+1 (L *m WtoQ) in
  let '(Hh, T) := hess (house_apply Q (tconj Wto *m J *m PLW)) in
  let QT := house_apply Q T in
  let! PLT := Pt r.+1 (L *m (Wto *m QT)) in
  let Rh := af_N a *m PLT in
  let vdiff := af_N a *m qt in
  let vdiff_norm := if (n_ - n + af_l a == 0)%N then 0 else sqrtC (\sum_i `|vdiff i 0| ^+ 2) in
  let PWAW_norm :=
    if (0 < k)%N then
      let Y := col_mx (block_mx 1%:M B_ 0 E) (row_mx 0 (af_R12 a)) in
      let YL_Q := (sqr (Y *m (L *m Wt))).1 in
      let WX := tconj Wt *m col_mx (rows n YL_Q) (drows m n_ YL_Q) in
      (smin WX)^-1
    else 1 in
  let Vh := dbasis ob b *m (Wto *m QT) in
  let! ip := get_ip_Minv_B l Minv in
  let F x := - (af_Z a *m (Rh *m inner ip Vh x) + Vh *m (tconj Rh *m inner ip (af_Z a) x)) in
  Ok (Agot Hh Rh (hxnorm Q) vdiff_norm PWAW_norm Vh F).

(** Lines 384-390: orthonormal bases of the range of Wt and of its complement; r + 1 = n + d - k *)
Definition arnf_get k (Wt : 'M[C]_(n + m, k)) r : res (agot (n_ - n + af_l a) r.+1) :=
  if (0 < k)%N then let Q := fqr Wt in aget (cols k Q) (dcols r.+1 k Q)
  else aget Wt (eye C (n + m) r.+1).
End Solver.
End Arnoldifyer.
