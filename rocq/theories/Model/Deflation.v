(** Model of LinearSystem.get_ip_Minv_B (krypy/linsys.py 163-176), ObliqueProjection
    (krypy/deflation.py 32-76), _DeflationMixin (79-192), DeflatedCg (236-263),
    DeflatedMinres and DeflatedGmres (266-283).

    Simplifications: those of Model/Projection.v and Model/Krylov.v.  The attribute ip_B
    of a LinearSystem is never None (None is turned into an IdentityLinearOperator), so
    that qr always uses Gram-Schmidt here.  Not modelled: estimate_time. *)
From mathcomp Require Import all_ssreflect all_algebra.
From Verif Require Import Base Model.Inner Model.Arnoldi Model.Solver Model.LinearSystem Model.Krylov Model.Projection.

Set Implicit Arguments.
Unset Strict Implicit.
Unset Printing Implicit Defensive.
Import Order.TTheory GRing.Theory Num.Theory.
Local Open Scope ring_scope.

Section Deflation.
Variable C : numClosedFieldType.
Variable sqr : forall n k, 'M[C]_(n, k) -> 'M[C]_(n, k) * 'M[C]_k.
Variable N : nat.
Local Notation vec := 'cV[C]_N.

(** A LinearOperator, given as the function it applies to a column, applied to a block. *)
Definition mapcols (f : vec -> vec) k (X : 'M[C]_(N, k)) : 'M[C]_(N, k) :=
  \matrix_(i, j) f (col j X) i 0.

(** The matrix of a LinearOperator *)
Definition opmx (f : vec -> vec) : 'M[C]_N := mapcols f 1%:M.

(** get_ip_Minv_B, linsys.py 163-176.  Minv=None is an IdentityLinearOperator. *)
Definition get_ip_Minv_B (l : lsys C N) (Minv : option (vec -> vec)) : res (ipB C N) :=
  match lM l, Minv with
  | None, _ => Ok (lB l)
  | Some _, None => Err ArgumentError
  | Some _, Some Mi =>
    Ok (match lB l with
        | IpNone => IpOp (opmx Mi)
        | IpOp B => IpOp (opmx Mi *m B)
        | IpCall f => IpCall (fun m n X Y => f m n X (mapcols Mi Y))
        end)
  end.

Section Oblique.
Variable l : lsys C N.
Variable Minv : option (vec -> vec).
(** Is MlAMr the IdentityLinearOperator?  Then MlAMr * U is the same object as U. *)
Variable same : bool.
Variable k : nat.

(** The attributes U and AU of an ObliqueProjection, and the attributes of Projection *)
Record obl := Obl { o_U : 'M[C]_(N, k); o_AU : 'M[C]_(N, k); o_p : proj C N k }.

(** projection_kwargs: qr_reorthos, orthogonalize, iterations *)
Record pkwargs := PKw { pk_reorthos : nat; pk_orth : bool; pk_its : nat }.

(** ObliqueProjection.__init__, deflation.py 33-57 *)
Definition mk_oblique (U : 'M[C]_(N, k)) (kw : pkwargs) : res obl :=
  let! B := get_ip_Minv_B l Minv in
  let! (U, _) := qr sqr (Some B) U (pk_reorthos kw) in
  let AU := mapcols (lMlAMr l) U in
  let! p := mk_proj sqr AU (if same then None else Some U) (Some (lB l)) (pk_orth kw) (pk_its kw) in
  Ok (Obl U AU p).

Variable ob : obl.
Local Notation p := (o_p ob).

(** correct, deflation.py 59-68 *)
Definition o_correct (z : vec) : res vec :=
  let c := inner (lB l) (pW p) (lMl l (lb l - lA l z)) in
  let! c := p_solve p c in
  let! c := if p_same p then Ok c else
            match pVR p, pWR p with
            | Some VR, Some WR => let! t := solve_upper VR c in Ok (WR *m t)
            | _, _ => Err TypeError
            end in
  Ok (z + pW p *m c).

(** MAU, deflation.py 70-76 *)
Definition o_MAU : 'M[C]_(N, k) := mapcols (lMop l) (o_AU ob).

(** E, deflation.py 107-114 *)
Definition d_E : 'M[C]_k :=
  let E := if pQR p is Some (Q, R) then Q *m R else 1%:M in
  match pVR p, pWR p with
  | Some VR, Some WR => tconj WR *m (E *m VR)
  | _, _ => E
  end.

(** The operator P * MlAMr of _solve, deflation.py 130-136 and 138-146.  Whether
    apply_complement raises LinAlgError depends on the projection only, and then it was
    already raised by _get_initial_residual; the value 0 is never used. *)
Definition d_op (v : vec) : vec := if p_compl p (lMlAMr l v) is Ok w then w else 0.

(** _get_initial_residual, deflation.py 148-162, and the attribute UMlr *)
Definition d_Mlr (x0 : option vec) : vec :=
  if x0 is Some x then lMl l (lb l - lA l x) else lMlb l.
Definition d_res0 (x0 : option vec) : res (vec * vec * C) :=
  let! PMlr := p_compl p (d_Mlr x0) in
  let MPMlr := lMop l PMlr in
  let! n := norm PMlr (Some MPMlr) (lB l) in
  Ok (MPMlr, PMlr, n).
Definition d_UMlr (x0 : option vec) : 'cV[C]_k := p_Ya p (d_Mlr x0).

(** What the iterations use *)
Definition d_kdata : kdata C N :=
  KData d_op (lM l) (lB l) (lMr l) d_res0 o_correct.

(** The column that _apply_projection appends to C when MlAMr * v is projected,
    deflation.py 138-146 *)
Definition d_UAv (v : vec) : 'cV[C]_k := p_Ya p (lMlAMr l v).

(** B_, deflation.py 168-192: the row of index i.  [n] is H.shape[1], [n_] is H.shape[0];
    [Cs] are the columns of C.  The cached value is not modelled. *)
Definition d_B_ (self_adjoint : bool) (n n_ : nat) (V : nat -> vec) (Cs : seq 'cV[C]_k) (i : nat) : 'rV[C]_k :=
  if self_adjoint && ((i < n)%N || (n_ <= n)%N) then tconj (nth 0 Cs i)
  else inner (lB l) (V i) (o_AU ob).
End Oblique.

(** A method whose iterations also update a log: [up] is applied to the state before the
    iteration. *)
Definition logged (L : Type) (m : method C vec) (l0 : L) (up : m_st m -> L -> L) : method C vec :=
  Method (m_r0 m) (fun x0 x => let! t := m_start m x0 x in Ok (t, l0))
    (fun t => m_iter t.1) (fun t => m_inv t.1)
    (fun t => let! (t', r) := m_step t.1 in Ok ((t', up t.1 t.2), r))
    (fun t => m_getx t.1) (m_getx0 m) (fun t r => (m_feed t.1 r, t.2)) (m_incr m).

Section Solvers.
Variable snorm : nat -> nat -> (nat -> nat -> C) -> C.
Variable l : lsys C N.
Variable Minv : option (vec -> vec).
Variable same : bool.
Variable k : nat.
Variable U : 'M[C]_(N, k).
Variable kw : pkwargs.

(** The operator is applied once per iteration, to the newest Arnoldi vector (utils.py
    968). *)
Definition d_gmres (ob : obl k) (maxiter : nat) (ortho : ortho_t) : method C vec :=
  logged (m := gmres snorm (d_kdata l ob) maxiter ortho) [::]
    (fun t Cs => rcons Cs (d_UAv l ob (a_V (gm_a t) (a_iter (gm_a t))))).

Definition d_minres (ob : obl k) (maxiter : nat) (ortho : ortho_t) : method C vec :=
  logged (m := minres snorm (d_kdata l ob) maxiter ortho) [::]
    (fun t Cs => rcons Cs (d_UAv l ob (a_V (mr_a t) (a_iter (mr_a t))))).

(** The search direction of the next iteration, linsys.py 626-632 *)
Definition cg_nextp (t : cgst C N) : vec :=
  if (0 < cg_it t)%N then cg_MMlr t + (nth 0 (cg_rhos t) 0 / nth 0 (cg_rhos t) 1) *: cg_p t
  else cg_p t.

(** DeflatedCg._apply_projection, deflation.py 247-263; the log is (_UAps, C), both with
    the newest entry first.  A division by zero in C does not stop the iteration; it
    gives 0 here instead of nan. *)
Definition cg_log (ob : obl k) (t : cgst C N) (lg : seq 'cV[C]_k * seq 'cV[C]_k) :
    seq 'cV[C]_k * seq 'cV[C]_k :=
  let '(UAps, Cs) := lg in
  let it := cg_it t in
  let rho j := nth 0 (cg_rhos t) j in
  let UAps := d_UAv l ob (cg_nextp t) :: UAps in
  let c := nth 0 UAps 0 in
  let c := if (0 < it)%N then c - (1 + rho 0%N / rho 1%N) *: nth 0 UAps 1 else c in
  let c := if (1 < it)%N then c + (rho 1%N / rho 2%N) *: nth 0 UAps 2 else c in
  let c := ((-1) ^+ it / sqrtC (rho 0%N)) *: c in
  let c := if (0 < it)%N then c - sqrtC (rho 1%N / rho 0%N) *: nth 0 Cs 0 else c in
  (UAps, c :: Cs).

Definition d_cg (ob : obl k) (store_arnoldi : bool) : method C vec :=
  logged (m := cg (d_kdata l ob) store_arnoldi) ([::], [::]) (cg_log ob).

(** DeflatedGmres(LinearSystem(...), U=U, projection_kwargs=kw, ...), etc.  The state comes
    with C (and _UAps, for CG). *)
Definition deflated_gmres (o : opts C) (ortho : ortho_t) (x0 : option vec) :
    outcome C vec (gmst C N * seq 'cV[C]_k) :=
  bindO (lMMlb_norm l) (fun bn =>
  bindO (mk_oblique l Minv same U kw) (fun ob =>
    (krun (lsys_sys l bn) o (d_gmres ob (o_maxiter o) ortho) x0 : outcome C vec (gmst C N * seq 'cV[C]_k)))).

Definition deflated_minres (o : opts C) (ortho : ortho_t) (x0 : option vec) :
    outcome C vec (mrst C N * seq 'cV[C]_k) :=
  bindO (lMMlb_norm l) (fun bn =>
  bindO (mk_oblique l Minv same U kw) (fun ob =>
    (krun (lsys_sys l bn) o (d_minres ob (o_maxiter o) ortho) x0 : outcome C vec (mrst C N * seq 'cV[C]_k)))).

Definition deflated_cg (o : opts C) (store_arnoldi : bool) (x0 : option vec) :
    outcome C vec (cgst C N * (seq 'cV[C]_k * seq 'cV[C]_k)) :=
  bindO (lMMlb_norm l) (fun bn =>
  bindO (mk_oblique l Minv same U kw) (fun ob =>
    (krun (lsys_sys l bn) o (d_cg ob store_arnoldi) x0 : outcome C vec (cgst C N * (seq 'cV[C]_k * seq 'cV[C]_k))))).
End Solvers.
End Deflation.
