(** Model of the treatment of arguments: shape_vec, shape_vecs (krypy/utils.py 125-143),
    get_linearoperator (241-273, without timer), inner and norm for attributes ip_B (160-193, 214-238), and
    LinearSystem.__init__ and get_residual (krypy/linsys.py 70-161) for Python objects.

    Simplifications: arrays have one or two axes.  numpy.matrix is a subclass of ndarray, so that the branch
    for numpy.matrix (line 251) is never reached; what a MatrixLinearOperator computes with a
    numpy.matrix is not modelled.  Sparse matrices behave like arrays.  dtypes are in Model/Dtype.v.  Warnings are ignored. *)
From mathcomp Require Import all_ssreflect all_algebra.
From Verif Require Import Base Model.Inner Model.Measures Model.LinearOperator.

Set Implicit Arguments.
Unset Strict Implicit.
Unset Printing Implicit Defensive.
Import Order.TTheory GRing.Theory Num.Theory.
Local Open Scope ring_scope.

Section Construct.
Variable C : numClosedFieldType.
(** numpy.linalg.norm(X, 2) of a matrix *)
Variable nrm : forall m n, 'M[C]_(m, n) -> C.

(** An ndarray with one or two axes *)
Inductive nd := Nd1 n of 'cV[C]_n | Nd2 of arr C.

(** len(x) *)
Definition nd_len (x : nd) : nat := match x with @Nd1 n _ => n | Nd2 a => nrow a end.

(** A scipy.sparse.linalg.LinearOperator: shape, whether it has the attribute dtype, and the user's functions
    for a single vector *)
Record sciop := SciOp {
  sc_row : nat; sc_col : nat; sc_dtype : bool;
  sc_mv : 'cV[C]_sc_col -> 'cV[C]_sc_row; sc_rmv : 'cV[C]_sc_row -> 'cV[C]_sc_col }.

(** Its method matvec (rmatvec): an array with shape (n, 1) is accepted and gives shape (m, 1), other arrays with
    two axes raise ValueError. *)
Definition sci_apply m n (f : 'cV[C]_n -> 'cV[C]_m) (X : arr C) : res (arr C) :=
  if as_mx n 1 X is Some x then Ok (Arr (f x)) else Err ValueError.

(** Python objects that occur as arguments: None, ndarrays, sparse matrices, scipy's and krypy's
    linear operators, functions of two arrays, and all others *)
Inductive obj :=
| PNone | PNd of nd | PSparse of arr C | PSci of sciop | PLop of lop C
| PFun of (arr C -> arr C -> res (arr C)) | POther.

(** shape_vec, utils.py 125-127: numpy.reshape raises ValueError if the sizes differ. *)
Definition shape_vec (x : nd) : res (arr C) :=
  match x with
  | Nd1 n v => Ok (Arr v)
  | Nd2 a => if (nrow a * ncol a == nrow a)%N then Ok (@Arr C (nrow a) 1 (\col_i entry a i 0)) else Err ValueError
  end.

(** shape_vecs, utils.py 130-143 *)
Fixpoint shape_vecs (args : seq obj) : bool * seq obj :=
  if args is arg :: args' then
    let '(flat_vecs, ret_args) := shape_vecs args' in
    match arg with
    | PNd (Nd1 n v) => (flat_vecs, PNd (Nd2 (Arr v)) :: ret_args)
    | PNd (Nd2 a) => (false, arg :: ret_args)
    | _ => (flat_vecs, arg :: ret_args)
    end
  else (true, [::]).

(** get_linearoperator((m, n), A), utils.py 241-273; an array with one axis is rejected by
    LinearOperator.__init__, 1372-1373. *)
Definition get_linearoperator (m n : nat) (A : obj) : res (lop C) :=
  let! ret := match A with
    | PLop a => Ok a
    | PNone => Ok (mkId C m n)
    | PNd (Nd2 a) | PSparse a => Ok (mkMat a)
    | PNd (Nd1 _ _) => Err LinearOperatorError
    | PSci s => if ~~ sc_dtype s then Err ArgumentError else
                lop_init (sc_row s) (sc_col s) (Some (sci_apply (@sc_mv s))) (Some (sci_apply (@sc_rmv s)))
    | PFun _ | POther => Err TypeError
    end in
  if (lrow ret != m) || (lcol ret != n) then Err LinearOperatorError else Ok ret.

(** The attribute ip_B, linsys.py 83-86: a LinearOperator, or the argument if get_linearoperator raises TypeError *)
Definition get_ip (N : nat) (ip_B : obj) : res obj :=
  match get_linearoperator N N ip_B with
  | Ok a => Ok (PLop a)
  | Err TypeError => Ok ip_B
  | Err e => Err e
  end.

(** inner(X, Y, ip_B), utils.py 160-193 *)
Definition pinner (X Y : arr C) (ip_B : obj) : res (arr C) :=
  if (match ip_B with PNone => true | PLop a => is_id a | _ => false end) then arr_dot (arr_adj X) Y else
  match get_linearoperator (nrow X) (nrow X) ip_B with
  | Ok B => if (ncol Y < ncol X)%N then let! BX := op_mul_arr B X in arr_dot (arr_adj BX) Y
            else let! BY := op_mul_arr B Y in arr_dot (arr_adj X) BY
  | Err TypeError => if ip_B is PFun f then f X Y else Err TypeError
  | Err e => Err e
  end.

(** norm(x, y, ip_B), utils.py 214-238, for y given *)
Definition pnorm (x y : arr C) (ip_B : obj) : res C :=
  let! ip := pinner x y ip_B in
  let d := \col_(i < minn (nrow ip) (ncol ip)) entry ip i i in
  if norm2 d * eps10 C < norm2 (map_mx (fun a => 'Im a) d) then Err InnerProductError else
  let! t := np_norm nrm (cont ip) in Ok (sqrtC t).

(** The arguments of LinearSystem, linsys.py 12-25 *)
Record lsargs := LsArgs {
  gA : obj; gb : nd; gM : obj; gMinv : obj; gMl : obj; gMr : obj; gip : obj;
  gnormal : option bool; gsa : bool; gpd : bool; gexact : option nd }.

(** The attributes *)
Record lsobj := LsObj {
  sN : nat; sA : lop C; sM : lop C; sMinv : lop C; sMl : lop C; sMr : lop C; sMlAMr : lop C; sip : obj;
  sflat : bool; sb : obj; sexact : obj; ssa : bool; snormal : bool; spd : bool;
  sMlb : arr C; sMMlb : arr C; sMMlb_norm : C }.

Definition odflt_nd (e : option nd) : obj := if e is Some x then PNd x else PNone.

(** An operator times an object that is a two-dimensional array *)
Definition mul_obj (A : lop C) (x : obj) : res (arr C) :=
  if x is PNd (Nd2 a) then op_mul_arr A a else Err TypeError.

(** LinearSystem.__init__, linsys.py 70-128 *)
Definition linear_system (g : lsargs) : res lsobj :=
  let N := nd_len (gb g) in
  let! A := get_linearoperator N N (gA g) in
  let! M := get_linearoperator N N (gM g) in
  let! Minv := get_linearoperator N N (gMinv g) in
  let! Ml := get_linearoperator N N (gMl g) in
  let! Mr := get_linearoperator N N (gMr g) in
  let! MlA := op_mul Ml A in
  let! MlAMr := op_mul MlA Mr in
  let! ip := get_ip N (gip g) in
  let '(flat_vecs, vs) := shape_vecs [:: PNd (gb g); odflt_nd (gexact g)] in
  let b := nth PNone vs 0 in
  let normal := if gsa g then true else if gnormal g is Some n then n else false in
  if gsa g && ~~ normal then Err ArgumentError else
  let! Mlb := mul_obj Ml b in
  let! MMlb := op_mul_arr M Mlb in
  let! n := pnorm Mlb MMlb ip in
  Ok (LsObj N A M Minv Ml Mr MlAMr ip flat_vecs b (nth PNone vs 1) (gsa g) normal (gpd g) Mlb MMlb n).

(** X - Y of numpy arrays *)
Definition arr_sub (X Y : arr C) : res (arr C) := arr_add X (arr_scale (-1) Y).

(** get_residual(z, compute_norm=True), linsys.py 130-161 *)
Definition ls_residual (s : lsobj) (z : option (arr C)) : res (arr C * arr C * C) :=
  match z with
  | None => Ok (sMMlb s, sMlb s, sMMlb_norm s)
  | Some z =>
    let! Az := op_mul_arr (sA s) z in
    let! r := if sb s is PNd (Nd2 b) then arr_sub b Az else Err TypeError in
    let! Mlr := op_mul_arr (sMl s) r in
    let! MMlr := op_mul_arr (sM s) Mlr in
    let! n := pnorm Mlr MMlr (sip s) in Ok (MMlr, Mlr, n)
  end.

(** _KrylovSolver.__init__, linsys.py 351: the attributes flat_vecs and x0 *)
Definition solver_x0 (x0 : option nd) : bool * obj :=
  let '(flat_vecs, vs) := shape_vecs [:: odflt_nd x0] in (flat_vecs, nth PNone vs 0).
End Construct.
