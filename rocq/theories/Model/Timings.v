(** Model of Timer and Timings (krypy/utils.py 1289-1362), TimedLinearOperator (1605-1636),
    get_linearoperator (241-273), of the parts of LinearSystem used with it (linsys.py
    72-161), TimedLinearSystem (204-252) and ConvertedTimedLinearSystem (255-274).

    The clock is an arbitrary sequence of readings: the n-th call of time.time() in the life
    of the program returns [clock n].  A computation maps a world (number of clock readings
    so far, contents of the timers of one Timings object) to a result or exception and a new
    world.  User supplied operators and inner products are pure functions; that they take
    time is expressed by the arbitrary clock readings.
    Not modelled: dtypes, numpy.matrix/sparse/scipy operators, flat vectors, __repr__,
    warnings; the matrix norm in utils.norm is a parameter. *)
From mathcomp Require Import all_ssreflect all_algebra.
From Verif Require Import Base Model.LinearOperator.

Set Implicit Arguments.
Unset Strict Implicit.
Unset Printing Implicit Defensive.
Import Order.TTheory GRing.Theory Num.Theory.
Local Open Scope ring_scope.

Section Timings.
Variable R : realFieldType.
Variable K : eqType.
Variable clock : nat -> R.

(** A Timer is a list with an attribute tstart (arbitrary before the first __enter__). *)
Record timer := Timer { t_start : R; t_list : seq R }.
(** A Timings object is a dictionary of Timers. *)
Definition timings := K -> option timer.
Record world := World { w_now : nat; w_tm : timings }.
Definition W A := world -> res A * world.

Definition ret {A} (r : res A) : W A := fun w => (r, w).
Definition bindW {A B} (m : W A) (f : A -> W B) : W B := fun w =>
  match m w with (Ok a, w') => f a w' | (Err e, w') => (Err e, w') end.

(** defaultdict access: a missing key is created with an empty Timer; utils.py 1343-1344. *)
Definition timer_of (tm : timings) k : timer := if tm k is Some t then t else Timer 0 [::].
Definition set_timer (tm : timings) k t : timings := fun j => if j == k then Some t else tm j.

(** Timer.__enter__ and Timer.__exit__, utils.py 1314-1318. *)
Definition enter k (w : world) : world :=
  World (w_now w).+1 (set_timer (w_tm w) k (Timer (clock (w_now w)) (t_list (timer_of (w_tm w) k)))).
Definition exit k (w : world) : world :=
  let t := timer_of (w_tm w) k in
  World (w_now w).+1 (set_timer (w_tm w) k (Timer (t_start t) (rcons (t_list t) (clock (w_now w) - t_start t)))).

(** [with timings[k]: body] -- __exit__ returns None, so exceptions propagate. *)
Definition with_timer {A} k (body : W A) : W A := fun w =>
  let rw := body (enter k w) in (rw.1, exit k rw.2).

(** timer[-1] /= c *)
Definition set_last (s : seq R) (x : R) : seq R := rcons (take (size s).-1 s) x.
Definition div_last k (c : nat) (w : world) : world :=
  let t := timer_of (w_tm w) k in
  World (w_now w) (set_timer (w_tm w) k (Timer (t_start t) (set_last (t_list t) (last 0 (t_list t) / c%:R)))).

(** Timings.get, utils.py 1346-1351. *)
Definition tget (tm : timings) k : R :=
  match tm k with
  | Some (Timer _ (x :: s)) => foldl Num.min x s
  | _ => 0
  end.
(** Timings.get_ops, utils.py 1353-1359. *)
Definition tget_ops (tm : timings) (ops : seq (K * R)) : R :=
  foldl (fun time oc => time + tget tm oc.1 * oc.2) 0 ops.

(** Linear operators that may be timed.  A timed operator refers to its Timer by key. *)
Variable C : numClosedFieldType.
Inductive top :=
| TBase of lop C
| TTimed of K & top
| TProd of top & top.

Fixpoint trow (T : top) : nat :=
  match T with TBase A => lrow A | TTimed _ A => trow A | TProd A _ => trow A end.
Fixpoint tcol (T : top) : nat :=
  match T with TBase A => lcol A | TTimed _ A => tcol A | TProd _ B => tcol B end.
Definition t_is_id (T : top) : bool := if T is TBase A then is_id A else false.

(** The common part of TimedLinearOperator.dot and dot_adj, utils.py 1623-1626, 1633-1636. *)
Definition timed_apply k (c : nat) (m : W (arr C)) : W (arr C) :=
  bindW (with_timer k m) (fun ret w => (Ok ret, div_last k c w)).

(** dot: LinearOperator.dot (1381-1390) with _ProductLinearOperator._dot (1497-1498), and
    TimedLinearOperator.dot (1619-1626). *)
Fixpoint tdot (T : top) (X : arr C) : W (arr C) :=
  match T with
  | TBase A => ret (dot A X)
  | TTimed k A => if ncol X == 0%N then tdot A X else timed_apply k (ncol X) (tdot A X)
  | TProd A B =>
    if nrow X != tcol B then ret (Err LinearOperatorError) else
    if ncol X == 0%N then ret (Ok (zeros_like X)) else
    bindW (tdot B X) (tdot A)
  end.

(** dot_adj: utils.py 1392-1401, 1500-1501 and 1628-1636; for an empty block the timed
    operator calls dot. *)
Fixpoint tdot_adj (T : top) (X : arr C) : W (arr C) :=
  match T with
  | TBase A => ret (dot_adj A X)
  | TTimed k A => if ncol X == 0%N then tdot A X else timed_apply k (ncol X) (tdot_adj A X)
  | TProd A B =>
    if nrow X != trow A then ret (Err LinearOperatorError) else
    if ncol X == 0%N then ret (Ok (zeros_like X)) else
    bindW (tdot_adj A X) (tdot_adj B)
  end.

(** __mul__, utils.py 1407-1420; _ProductLinearOperator.__init__ 1487-1495. *)
Definition t_mul (A X : top) : res top :=
  if t_is_id X then Ok A else if t_is_id A then Ok X else
  if tcol A != trow X then Err NotImplementedFallback else Ok (TProd A X).
Definition notimplW (m : W (arr C)) : W (arr C) := fun w => let rw := m w in (notimpl rw.1, rw.2).
Definition t_mul_arr (A : top) (X : arr C) : W (arr C) :=
  if t_is_id A then ret (Ok X) else notimplW (tdot A X).

(** Arguments of type operator: None, an ndarray, a LinearOperator, anything else. *)
Inductive oparg := ONone | OArr of arr C | OOp of top | OOther.

(** get_linearoperator, utils.py 241-273. *)
Definition get_op (N : nat) (A : oparg) (k : option K) : res top :=
  let! r := match A with
    | OOp T => Ok T | ONone => Ok (TBase (mkId C N N)) | OArr a => Ok (TBase (mkMat a))
    | OOther => Err TypeError end in
  let timed := match A, k with
    | ONone, _ | _, None => false
    | OOp T, Some _ => ~~ t_is_id T
    | _, Some _ => true end in
  let r' := if timed then (if k is Some k then TTimed k r else r) else r in
  if (trow r' != N) || (tcol r' != N) then Err LinearOperatorError else Ok r'.

(** The attribute ip_B: a linear operator or a callable. *)
Inductive iparg := IOp of oparg | IFun of (arr C -> arr C -> W (arr C)).
Inductive ipattr := AOp of top | AFun of (arr C -> arr C -> W (arr C)).

(** numpy arrays: X - Y for arrays of the same shape (broadcasting as for X + Y). *)
Definition arr_sub (X Y : arr C) : res (arr C) := arr_add X (arr_scale (-1) Y).

(** inner, utils.py 160-193, for an attribute ip_B of a LinearSystem. *)
Definition tinner (X Y : arr C) (ip : ipattr) : W (arr C) :=
  match ip with
  | AFun f => f X Y
  | AOp B =>
    if t_is_id B then ret (arr_dot (arr_adj X) Y) else
    if (trow B != nrow X) || (tcol B != nrow X) then ret (Err LinearOperatorError) else
    if (ncol Y < ncol X)%N then bindW (t_mul_arr B X) (fun BX => ret (arr_dot (arr_adj BX) Y))
    else bindW (t_mul_arr B Y) (fun BY => ret (arr_dot (arr_adj X) BY))
  end.

(** norm(x, y, ip_B), utils.py 214-238, with y given; [npost] is what is computed from the
    inner product matrix. *)
Variable npost : arr C -> res C.
Definition tnorm (x y : arr C) (ip : ipattr) : W C := bindW (tinner x y ip) (fun m => ret (npost m)).

(** Arguments of the LinearSystem constructors, linsys.py 12-25. *)
Record sysargs := SysArgs {
  g_A : oparg; g_b : arr C; g_M : oparg; g_Minv : oparg; g_Ml : oparg; g_Mr : oparg;
  g_ip : iparg; g_normal : option bool; g_sa : bool; g_pd : bool; g_exact : option (arr C) }.

(** Attributes of a LinearSystem. *)
Record tsys := TSys {
  a_A : top; a_b : arr C; a_M : top; a_Minv : top; a_Ml : top; a_Mr : top; a_MlAMr : top;
  a_ip : ipattr; a_normal : bool; a_sa : bool; a_pd : bool; a_exact : option (arr C);
  a_Mlb : arr C; a_MMlb : arr C; a_MMlb_norm : C }.

Definition bindR {A B} (r : res A) (f : A -> W B) : W B :=
  match r with Ok a => f a | Err e => ret (Err e) end.

(** LinearSystem.__init__, linsys.py 70-122. *)
Definition sys_init (g : sysargs) : W tsys :=
  let N := nrow (g_b g) in
  bindR (get_op N (g_A g) None) (fun A =>
  bindR (get_op N (g_M g) None) (fun M =>
  bindR (get_op N (g_Minv g) None) (fun Minv =>
  bindR (get_op N (g_Ml g) None) (fun Ml =>
  bindR (get_op N (g_Mr g) None) (fun Mr =>
  bindR (let! MlA := t_mul Ml A in t_mul MlA Mr) (fun MlAMr =>
  bindR (match g_ip g with
         | IFun f => Ok (AFun f)
         | IOp o => rmap AOp (get_op N o None) end) (fun ip =>
  let normal := if g_sa g then true else if g_normal g is Some b then b else false in
  bindW (t_mul_arr Ml (g_b g)) (fun Mlb =>
  bindW (t_mul_arr M Mlb) (fun MMlb =>
  bindW (tnorm Mlb MMlb ip) (fun n =>
  ret (Ok (TSys A (g_b g) M Minv Ml Mr MlAMr ip normal (g_sa g) (g_pd g) (g_exact g)
                Mlb MMlb n)))))))))))).

(** get_residual(z, compute_norm=True), linsys.py 130-161. *)
Definition tresidual (s : tsys) (z : option (arr C)) : W (arr C * arr C * C) :=
  match z with
  | None => ret (Ok (a_MMlb s, a_Mlb s, a_MMlb_norm s))
  | Some z =>
    bindW (t_mul_arr (a_A s) z) (fun Az =>
    bindR (arr_sub (a_b s) Az) (fun r =>
    bindW (t_mul_arr (a_Ml s) r) (fun Mlr =>
    bindW (t_mul_arr (a_M s) Mlr) (fun MMlr =>
    bindW (tnorm Mlr MMlr (a_ip s)) (fun n => ret (Ok (MMlr, Mlr, n)))))))
  end.

(** The keys "A", "M", "Minv", "Ml", "Mr", "ip_B". *)
Variables (kA kM kMinv kMl kMr kB : K).

(** The timed callable inner product, linsys.py 230-238. *)
Definition timed_ip (f : arr C -> arr C -> W (arr C)) (X Y : arr C) : W (arr C) :=
  if (ncol X == 0%N) || (ncol Y == 0%N) then f X Y
  else timed_apply kB (ncol X * ncol Y) (f X Y).

(** TimedLinearSystem.__init__, linsys.py 204-252 (timings[k] is created on first use). *)
Definition timed_init (g : sysargs) : W tsys :=
  let N := nrow (g_b g) in
  bindR (match g_ip g with
         | IFun f => Ok (IFun (timed_ip f))
         | IOp o => rmap (fun T => IOp (OOp T)) (get_op N o (Some kB)) end) (fun ip =>
  bindR (get_op N (g_A g) (Some kA)) (fun A =>
  bindR (get_op N (g_M g) (Some kM)) (fun M =>
  bindR (get_op N (g_Minv g) (Some kMinv)) (fun Minv =>
  bindR (get_op N (g_Ml g) (Some kMl)) (fun Ml =>
  bindR (get_op N (g_Mr g) (Some kMr)) (fun Mr =>
  sys_init (SysArgs (OOp A) (g_b g) (OOp M) (OOp Minv) (OOp Ml) (OOp Mr) ip
                    (g_normal g) (g_sa g) (g_pd g) (g_exact g)))))))).

(** ConvertedTimedLinearSystem.__init__, linsys.py 255-274. *)
Definition converted_init (s : tsys) : W tsys :=
  timed_init (SysArgs (OOp (a_A s)) (a_b s) (OOp (a_M s)) (OOp (a_Minv s)) (OOp (a_Ml s))
    (OOp (a_Mr s)) (match a_ip s with AOp T => IOp (OOp T) | AFun f => IFun f end)
    (Some (a_normal s)) (a_sa s) (a_pd s) (a_exact s)).
End Timings.
