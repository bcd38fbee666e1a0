(** Model of krypy/_convenience.py: wrap_inner_product (10-16), cg (19-79), minres (82-144),
    gmres (147-207).

    Simplifications: those of Model/Krylov.v and Model/Deflation.v.  A, M, Minv, Ml, Mr are
    the functions they apply to a column, beside the tuple A.shape; b, x0, exact_solution
    and U have N = b.shape[0] rows, and x0, U are given as reshaped to two dimensions.
    Whether A is an IdentityLinearOperator is a separate argument (see Model/Deflation.v).
    store_arnoldi of minres and gmres only selects the data that are kept.  With
    inner_product and a U that does not have one column, numpy raises ValueError, because
    the array returned by the wrapped inner product has no matching shape: for two or more
    columns in E.dot(VR) of deflation.py 110-112 or in apply_complement, for none in
    correct of deflation.py 67; exceptions and results that come before (no or a zero
    right hand side) are not modelled in this case. *)
From mathcomp Require Import all_ssreflect all_algebra.
From Verif Require Import Base Model.Inner Model.Arnoldi Model.Solver Model.LinearSystem.
From Verif Require Import Model.Krylov Model.Projection Model.Deflation Model.LinearOperator.

Set Implicit Arguments.
Unset Strict Implicit.
Unset Printing Implicit Defensive.
Import Order.TTheory GRing.Theory Num.Theory.
Local Open Scope ring_scope.

Section Wrap.
Variable C : numClosedFieldType.

(** _wrap of wrap_inner_product, 10-16: [f] is the given function of two flat vectors.  The
    arrays come with their run time shapes; a[:, 0] and b[:, 0] are given to [f] if a and b
    have N rows (otherwise [f] is responsible; ValueError here). *)
Definition wrap_arr N (f : 'cV[C]_N -> 'cV[C]_N -> C) (a b : arr C) : res (arr C) :=
  if ncol a == 0%N then Ok (@Arr C 1 0 0)
  else if ncol b == 0%N then Err IndexError
  else let col0 (X : arr C) : res 'cV[C]_N :=
         if nrow X == N then
           Ok (\col_(i < N) match insub (i : nat) : option 'I_(nrow X), insub 0%N : option 'I_(ncol X) with
                            | Some i', Some j => cont X i' j
                            | _, _ => 0
                            end)
         else Err ValueError in
       let! x := col0 a in let! y := col0 b in
       Ok (@Arr C 1 1 (f x y)%:M).
End Wrap.

Section Convenience.
Variable C : numClosedFieldType.
Variable sqr : forall n k, 'M[C]_(n, k) -> 'M[C]_(n, k) * 'M[C]_k.
Variable snorm : nat -> nat -> (nat -> nat -> C) -> C.
Variable N : nat.
Local Notation vec := 'cV[C]_N.

(** b: an array of shape (N,) or (N, 1) *)
Inductive bvec := Flat of vec | Column of vec.
Definition bval (b : bvec) : vec := match b with Flat v | Column v => v end.
(** xk.reshape(b.shape) *)
Definition reshape_like (b : bvec) (x : vec) : bvec :=
  match b with Flat _ => Flat x | Column _ => Column x end.

(** The arguments common to the three functions. *)
Record cargs := CArgs {
  c_shape : seq nat; c_A : vec -> vec; c_isI : bool; c_b : bvec;
  c_M : option (vec -> vec); c_Minv : option (vec -> vec);
  c_Ml : option (vec -> vec); c_Mr : option (vec -> vec);
  c_ip : option (vec -> vec -> C); c_exact : option vec; c_x0 : option vec;
  c_tol : C; c_maxiter : option nat; c_explicit : bool }.

(** The returned pair, or the exception; a ConvergenceError carries the solver. *)
Inductive cres (T : Type) :=
| CReturns of option bvec & sol C vec T
| CNoConvergence of sol C vec T
| CRaises of exn.
Arguments CRaises {T}.

(** wrap_inner_product as an ip_B; the same as [wrap_arr] for single columns. *)
Definition wrap_ip (f : vec -> vec -> C) : ipB C N :=
  IpCall (fun m n X Y => \matrix_(i < m, j < n) f (col i X) (col j Y)).

Section Call.
Variable a : cargs.

(** 35-37, 99-101, 164-166 *)
Definition c_asserts : res unit :=
  if size (c_shape a) != 2%N then Err AssertionError
  else if nth 0%N (c_shape a) 0 != nth 0%N (c_shape a) 1 then Err AssertionError
  else if nth 0%N (c_shape a) 1 != N then Err AssertionError
  else Ok tt.

(** 39-40 and 48-59, 103-104 and 112-122, 168-169 and 177-185 *)
Definition c_lsys : lsys C N :=
  LSys (c_A a) (bval (c_b a)) (c_M a) (odflt id (c_Ml a)) id
    (if c_ip a is Some f then wrap_ip f else IpNone) (c_exact a).

(** maxiter=None is N, linsys.py 350 *)
Definition c_opts : opts C := Opts (c_tol a) (odflt N (c_maxiter a)) (c_explicit a).

(** 79, 144, 207.  An xk that is None has no reshape (an AttributeError). *)
Definition c_finish T (out : outcome C vec T) : cres T :=
  match out with
  | Returns s =>
    if last 0 (s_res s) < o_tol c_opts then
      if s_xk s is Some x then CReturns (Some (reshape_like (c_b a) x)) s else CRaises TypeError
    else CReturns None s
  | NoConvergence s => CNoConvergence s
  | Raises e => CRaises e
  end.

Definition c_call T (out : outcome C vec T) : cres T :=
  if c_asserts is Err e then CRaises e else c_finish out.

(** MlAMr is the IdentityLinearOperator if A is and Ml, Mr are None. *)
Definition c_same : bool := c_isI a && ~~ isSome (c_Ml a).

(** The default projection_kwargs: qr_reorthos=0, orthogonalize=True, iterations=2 *)
Definition c_kw : pkwargs := PKw 0 true 2.

(** U of shape (N, k) *)
Definition c_deflated T k (out : outcome C vec T) : cres T :=
  if isSome (c_ip a) && (k != 1%N) then
    if c_asserts is Err e then CRaises e else CRaises ValueError
  else c_call out.

(** cg, 19-79, without and with U *)
Definition conv_cg (store_arnoldi : bool) := c_call (cg_solve c_lsys c_opts store_arnoldi (c_x0 a)).
Definition conv_cg_U (store_arnoldi : bool) k (U : 'M[C]_(N, k)) :=
  c_deflated k (deflated_cg sqr c_lsys (c_Minv a) c_same U c_kw c_opts store_arnoldi (c_x0 a)).

(** minres, 82-144 *)
Definition conv_minres (ortho : ortho_t) := c_call (minres_solve snorm c_lsys c_opts ortho (c_x0 a)).
Definition conv_minres_U (ortho : ortho_t) k (U : 'M[C]_(N, k)) :=
  c_deflated k (deflated_minres sqr snorm c_lsys (c_Minv a) c_same U c_kw c_opts ortho (c_x0 a)).

(** gmres, 147-207 *)
Definition conv_gmres (ortho : ortho_t) := c_call (gmres_solve snorm c_lsys c_opts ortho (c_x0 a)).
Definition conv_gmres_U (ortho : ortho_t) k (U : 'M[C]_(N, k)) :=
  c_deflated k (deflated_gmres sqr snorm c_lsys (c_Minv a) c_same U c_kw c_opts ortho (c_x0 a)).
End Call.
End Convenience.
Arguments CRaises {C N T}.
