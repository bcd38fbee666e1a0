(** Model of deflation.bound_pseudo, krypy/deflation.py 473-734, with pseudospectra, and of
    bound_perturbed_gmres, krypy/utils.py 2006-2033.

    The complex numbers are R[i] for a real closed field R; real numbers are elements of R,
    and [re] takes the real part of a number that is real.  Parameters:
    - [pi] is numpy.pi;
    - [eigs] are the eigenvalues of scipy.linalg.eig, [eigh] is scipy.linalg.eigvalsh,
      [gev A B] is scipy.linalg.eigvals(A, B), where all values are assumed to be finite;
    - [nrm] is the greatest singular value of a matrix with a row and a column;
    - [evcond Hh] is numpy.linalg.cond(evecs, 2) for the eigenvectors of scipy.linalg.eig;
    - [nonnormal_paths Hh lo hi d] and [normal_paths evals d] are length() and vertices() of
      contour_paths(d) for pseudopy.NonnormalAuto(Hh, lo, hi) and pseudopy.NormalEvals(evals);
    - [pick f lo hi n] is the argument at which scipy.optimize.minimize_scalar has found the
      value that it reports; f is evaluated at this argument only;
    - [argsort], [proots], [orders] are those of Model/Poly.v and Model/Interval.v.
    Simplifications: exact arithmetic.  The minimisation is over delta instead of its
    logarithm; with lo = 1.01 epsilon the upper end of the range is the number hi such that
    hi^(delta_n + 1) = lo delta_max^delta_n.  A path of length 0 gives nan in the code, which is the
    outcome DivZero here.  NotImplementedError is [NotImplementedFallback]. *)
From mathcomp Require Import all_ssreflect all_algebra perm complex.
From Verif Require Import Base Model.Inner Model.Arnoldi Model.Solver Model.LinearSystem Model.Krylov Model.ResNorms.
From Verif Require Import Model.Interval Model.Poly.
From Verif Require Import Model.Projection Model.Deflation Model.DeflRitz Model.Arnoldifyer Model.BoundPseudo.

Set Implicit Arguments.
Unset Strict Implicit.
Unset Printing Implicit Defensive.
Import Order.TTheory GRing.Theory Num.Theory.
Local Open Scope ring_scope.
Local Open Scope complex_scope.

Section Pseudo.
Variable R : rcfType.
Local Notation C := [numClosedFieldType of R[i]].
Local Notation re := (@complex.Re R).
Variable pi : R.
Variable argsort : seq C -> seq nat.

(** numpy.max(numpy.abs(p(points))), utils.py 2020 and deflation.py 686, 697 *)
Definition polymax (roots points : seq C) : res R :=
  let! vs := eval_all argsort roots points in np_max [seq re `|v| | v <- vs].

(** utils.bound_perturbed_gmres, utils.py 2006-2033; [paths d] are length() and vertices() of
    pseudo.contour_paths(d); p is a NormalizedRootsPolynomial. *)
Fixpoint bpg_loop (paths : R -> R * seq C) (roots : seq C) (eps : R) (deltas : seq R) : res (seq R) :=
  if deltas is d :: ds then
    let! sup := polymax roots (paths d).2 in
    if d == 0 then Err DivZero else
    let! bs := bpg_loop paths roots eps ds in
    Ok (eps / (d - eps) * (paths d).1 / (2%:R * pi * d) * sup :: bs)
  else Ok [::].
Definition bound_perturbed_gmres (paths : R -> R * seq C) (roots : seq C) (eps : R) (deltas : seq R) : res (seq R) :=
  if ~~ all (fun d => eps < d) deltas then Err ArgumentError else bpg_loop paths roots eps deltas.

Variable sqr : forall n k, 'M[C]_(n, k) -> 'M[C]_(n, k) * 'M[C]_k.
Variable eigs : forall n, 'M[C]_n -> seq C.
Variable eigh : forall n, 'M[C]_n -> seq R.
Variable gev : forall n, 'M[C]_n -> 'M[C]_n -> seq C.
Variable nrm : forall p q, 'M[C]_(p, q) -> R.
Variable evcond : forall n, 'M[C]_n -> R.
Variable nonnormal_paths : forall n, 'M[C]_n -> R -> R -> R -> R * seq C.
Variable normal_paths : seq C -> R -> R * seq C.
Variable pick : (R -> res R) -> R -> R -> nat -> R.
Variable proots : {poly R} -> seq R.
Variable orders : nat -> itvs R -> itvs R.

(** The values of pseudo_type; any other value is [PtUnknown]. *)
Inductive pseudo_type := PtAuto | PtNonnormal | PtNormal | PtHermitian | PtContain | PtOmit | PtUnknown.

(** _auto, lines 585-595; here and below Hh has a row *)
Definition bp_auto r (Hh : 'M[C]_r.+1) (Hh_norm : R) : pseudo_type :=
  if nrm (Hh - tconj Hh) < (10%:R ^+ 14)^-1 * Hh_norm then PtHermitian
  else if evcond Hh < 1 + (10%:R ^+ 14)^-1 then PtNormal else PtNonnormal.

(** X[:p, :q] for p and q that do not exceed the dimensions of X *)
Definition mtake p q m n (X : 'M[C]_(m, n)) : 'M[C]_(p, q) := \matrix_(i, j) mx_ent X i j.

(** The roots, deflation.py 630-642; i <= r + 1, and Hh[:i+1, :i] has at most r + 1 rows. *)
Definition bp_roots (cg self_adjoint : bool) r (Hh : 'M[C]_r.+1) (i : nat) : seq C :=
  let roots :=
    if cg then [seq x%:C | x <- eigh (mtake i i Hh)] else
    let '(HhQ, HhR) := sqr (mtake (minn i.+1 r.+1) i Hh) in
    let roots_inv := gev (tconj (mtake i i HhQ)) HhR in
    [seq 1 / x | x <- roots_inv & (10%:R ^+ 14)^-1 < `|x|] in
  if self_adjoint then [seq (re x)%:C | x <- roots] else roots.

(** numpy.max of the singular values, lines 605-606 and 654-655 *)
Definition np_norm p q (X : 'M[C]_(p, q)) : res R :=
  if (p == 0)%N || (q == 0)%N then Err ValueError else Ok (nrm X).

(** lines 608-609 and 656-659 *)
Definition bp_eps (PWAW eta Hh_norm G_norm Rhnrm : R) : R :=
  let e := PWAW * (eta * (Hh_norm + G_norm) + G_norm) + Rhnrm in
  if e == 0 then (10%:R ^+ 16)^-1 else e.

(** The intervals, lines 673-676 *)
Fixpoint bp_itvs (delta : R) (evals : seq R) : res (seq (itv R)) :=
  if evals is ev :: evals' then
    let! t := mk_itv (ev - delta) (Some (ev + delta)) in
    let! ts := bp_itvs delta evals' in Ok (t :: ts)
  else Ok [::].

(** pseudolen and polymax for the interval case, lines 672-687 *)
Definition bp_hermitian (evals roots : seq R) (delta : R) : res (R * R) :=
  let! news := bp_itvs delta evals in
  let! s := adds orders [::] news in
  let candidates := [seq c <- minmax_candidates proots roots | itvs_contains s c] in
  let! m := polymax [seq x%:C | x <- roots] [seq x%:C | x <- endpoints s ++ candidates] in
  Ok (2%:R * delta, m).

(** pseudolen and polymax for a path, lines 689-699 *)
Definition bp_path (path : R * seq C) (roots : seq C) : res (R * R) :=
  if 0 < path.1 then let! m := polymax roots path.2 in Ok (path.1, m) else Err DivZero.

(** minimize_scalar(.., method="bounded"), lines 661-663 and 709-720.  ValueError is raised if
    the lower end of the range exceeds the upper end. *)
Definition bp_minimize (f : R -> res R) (eps delta_max : R) (delta_n : nat) : res R :=
  let lo := 101%:R / 100%:R * eps in
  let hi := re (delta_n.+1.-root (lo * delta_max ^+ delta_n)%:C) in
  if hi < lo then Err ValueError else f (pick f lo hi delta_n).

(** What the loop needs to know: the numbers of lines 527-545, pseudo, and the arguments *)
Record bp_data r p := BpData {
  bd_cg : bool; bd_sa : bool; bd_Hh : 'M[C]_r.+1; bd_Rh : 'M[C]_(p, r.+1);
  bd_PWAW : R; bd_eta : R; bd_Gn : R; bd_q : R; bd_beta : R;
  bd_evals : seq C; bd_Hn : R; bd_dmax : R; bd_path : R -> R * seq C; bd_dn : nat; bd_tf : R }.

(** compute_pseudo, lines 669-707, for given roots and epsilon *)
Definition bp_compute r p (d : bp_data r p) (roots : seq C) (eps delta : R) : res R :=
  let! (len, m) := if bd_sa d then bp_hermitian (map re (bd_evals d)) (map re roots) delta
                   else bp_path (bd_path d delta) roots in
  Ok (len / (2%:R * pi * delta) * (eps / (delta - eps) * (bd_q d + bd_beta d) + bd_beta d) * m).

(** The loop, lines 628-733: [prev] is bounds[-1]; the values that are appended are returned. *)
Fixpoint bp_loop (pt : pseudo_type) r p (d : bp_data r p) (i : nat) (prev : R) (ares : seq R) : res (seq R) :=
  if ares is aresnorm :: ares' then
    let roots := bp_roots (bd_cg d) (bd_sa d) (bd_Hh d) i in
    let! Rhnrm := np_norm (mtake p i (bd_Rh d)) in
    let eps := bp_eps (bd_PWAW d) (bd_eta d) (bd_Hn d) (bd_Gn d) Rhnrm in
    if pt is PtContain then Err NotImplementedFallback else
    if bd_dmax d <= eps then Ok [::] else
    let! min_val := bp_minimize (bp_compute d roots eps) eps (bd_dmax d) (bd_dn d) in
    let boundval := aresnorm + min_val in
    if (1 < i)%N && (if prev == 0 then 0 < boundval else bd_tf d < boundval / prev) then Ok [::] else
    let new := Num.min boundval prev in
    let! bs := bp_loop pt d i.+1 new ares' in Ok (new :: bs)
  else Ok [::].

(** Lines 577-734, after the residual norms have been computed *)
Definition bp_bounds (pt : pseudo_type) (cg normal self_adjoint : bool) r (Hh : 'M[C]_r.+1) p (Rh : 'M[C]_(p, r.+1))
    (PWAW eta G_norm q beta : R) (delta_n : nat) (terminate_factor : R) (ares : seq R) : res (seq R) :=
  let evals := if self_adjoint then [seq (re x)%:C | x <- eigs Hh] else eigs Hh in
  let! Hh_norm := np_norm Hh in
  let pt := if pt is PtAuto then bp_auto Hh Hh_norm else pt in
  let! me := np_max [seq re `|x| | x <- evals] in
  let delta_max := 100%:R * me in
  let! Rhnrm := np_norm (mtake p 1 Rh) in
  let delta_min := bp_eps PWAW eta Hh_norm G_norm Rhnrm in
  let path := if ~~ (normal || self_adjoint)
              then nonnormal_paths Hh (delta_min * (99%:R / 100%:R)) (delta_max * (101%:R / 100%:R))
              else normal_paths evals in
  if ares is a0 :: ares' then
    let! bs := bp_loop pt (BpData cg self_adjoint Hh Rh PWAW eta G_norm q beta evals Hh_norm delta_max path delta_n
                             terminate_factor) 1 a0 ares' in
    Ok (a0 :: bs)
  else Err IndexError.

Section Call.
Variable N : nat.
Local Notation vec := 'cV[C]_N.
Variable fqr : forall n k, 'M[C]_(n, k) -> 'M[C]_n.
Variable hess : forall n, 'M[C]_n -> 'M[C]_n * 'M[C]_n.
Variable smin : forall n, 'M[C]_n -> C.
Variables (l : lsys C N) (Minv : option (vec -> vec)) (m : nat) (ob : obl C N m) (n_ n : nat) (b : byprod C N n_ n m).
Variables (a : arnf C N m n_ n) (r0norm : C) (UMlr : 'cV[C]_m).

(** lines 531-541 *)
Definition bp_eta k (sigma GW_norm WGW_norm : R) : R := if (0 < k)%N then GW_norm / (sigma - WGW_norm) else 0.
(** line 543 *)
Definition bp_beta (PWAW eta b_norm g_norm vdiff : R) : R := PWAW * (eta * (b_norm + g_norm) + g_norm) + vdiff.

(** bound_pseudo, lines 473-734; the arguments are those of [BoundPseudo.bound_pseudo] and the remaining ones *)
Definition bound_pseudo_full (pt : pseudo_type) (s : bp_class C) (normal self_adjoint : bool) k (Wt : 'M[C]_(n + m, k)) r
    (g_norm G_norm GW_norm WGW_norm : R) (delta_n : nat) (terminate_factor : R) : res (seq C) :=
  let! g := arnf_get sqr fqr hess smin l Minv ob b a r0norm UMlr Wt r in
  let sigma := smin (tconj Wt *m (aJ ob b *m (dL b (af_X a) *m Wt))) in
  if (0 < k)%N && (sigma <= WGW_norm%:C) then Err AssumptionError else
  let eta := bp_eta k (re sigma) GW_norm WGW_norm in
  let! b_norm := lMMlb_norm l in
  let beta := bp_beta (re (ag_PWAW g)) eta (re b_norm) g_norm (re (ag_vdiff g)) in
  if b_norm <= g_norm%:C then Err AssumptionError else
  let! rs := bp_resnorms sqr s self_adjoint (ag_Hh g) (ag_q g) in
  let ares := [seq x * ag_q g | x <- rs] in
  if pt is PtOmit then Ok [seq x / (b_norm - g_norm%:C) | x <- ares] else
  let! bs := bp_bounds pt (if s is BpCg _ then true else false) normal self_adjoint (ag_Hh g) (ag_Rh g)
               (re (ag_PWAW g)) eta G_norm (re (ag_q g)) beta delta_n terminate_factor (map re ares) in
  Ok [seq x%:C / (b_norm - g_norm%:C) | x <- bs].
End Call.
End Pseudo.
