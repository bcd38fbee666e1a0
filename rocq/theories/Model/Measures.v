(** Model of norm for blocks of vectors, orthonormality, arnoldi_res and norm_MMlr,
    krypy/utils.py 214-238 and 276-329.

    Simplifications: exact arithmetic; the spectral norm numpy.linalg.norm(X, 2) of a matrix is the
    parameter [nrm]; arrays have two dimensions; H has as many rows as V has columns (otherwise numpy.dot
    raises ValueError). *)
From mathcomp Require Import all_ssreflect all_algebra.
From Verif Require Import Base Model.Inner Model.Deflation Model.DeflRitz.

Set Implicit Arguments.
Unset Strict Implicit.
Unset Printing Implicit Defensive.
Import Order.TTheory GRing.Theory Num.Theory.
Local Open Scope ring_scope.

Section Measures.
Variable C : numClosedFieldType.
Variable nrm : forall m n, 'M[C]_(m, n) -> C.

(** numpy.linalg.norm(X, 2) of a matrix; ValueError for an empty matrix (numpy.amax) *)
Definition np_norm m n (X : 'M[C]_(m, n)) : res C :=
  if (m == 0%N) || (n == 0%N) then Err ValueError else Ok (nrm X).

Variable N : nat.
Local Notation vec := 'cV[C]_N.

(** norm(x, ip_B=ip_B), utils.py 214-238, for blocks. *)
Definition norm_block n (X : 'M[C]_(N, n)) (B : ipB C N) : res C :=
  if B is IpNone then np_norm X else
  let ip := inner B X X in
  let nrm_diag := norm2 (\col_i ip i i) in
  let nrm_diag_imag := norm2 (\col_i 'Im (ip i i)) in
  if nrm_diag * eps10 C < nrm_diag_imag then Err InnerProductError else
  let! t := np_norm ip in Ok (sqrtC t).

(** orthonormality, utils.py 297-305 *)
Definition orthonormality n (V : 'M[C]_(N, n)) (B : ipB C N) : res C := np_norm (1%:M - inner B V V).

(** arnoldi_res, utils.py 308-329: H with shape (n, n) in the invariant case, otherwise (n, n-1);
    other shapes do not fit (ValueError; broadcasting of a single column is not modelled). *)
Definition arnoldi_res (A : vec -> vec) n (V : 'M[C]_(N, n)) q (H : 'M[C]_(n, q)) (B : ipB C N) : res C :=
  if n == q then norm_block (mapcols A (cols q V) - V *m H) B
  else if n.-1 == q then norm_block (mapcols A (cols q V) - V *m H) B
  else Err ValueError.

(** norm_MMlr, utils.py 276-294.  The call norm(Mlr, MMlr, inner_product=..) in line 292 is a
    TypeError because norm has no such argument. *)
Definition norm_MMlr (M Ml A Mr : vec -> vec) (b x0 yk : vec) : res (vec * vec * vec * C) :=
  let xk := x0 + Mr yk in
  let r := b - A xk in
  let Mlr := Ml r in
  if norm2 Mlr == 0 then Ok (xk, Mlr, 0, 0) else Err TypeError.
End Measures.
