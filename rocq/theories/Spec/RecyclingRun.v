(** Specification of sequences of solves with recycled Ritz vectors. *)
From mathcomp Require Import all_ssreflect all_algebra.
From Verif Require Import Base Spec.LinAlg Spec.Ritz Model.Inner Spec.Inner Model.Arnoldi Model.Solver Model.LinearSystem Model.Krylov Spec.Krylov.
From Verif Require Import Model.Projection Spec.Projection Model.Deflation Model.DeflRitz Model.Recycling Model.RecyclingRun.

Set Implicit Arguments.
Unset Strict Implicit.
Unset Printing Implicit Defensive.
Import Order.TTheory GRing.Theory Num.Theory.
Local Open Scope ring_scope.

Section Spec.
Variable C : numClosedFieldType.

(** What is assumed of scipy.linalg.eigh for a Hermitian matrix: eigenpairs with
    orthonormal eigenvectors. *)
Definition eigh_ok n (X : 'M[C]_n) (r : ('I_n -> C) * 'M[C]_n) : Prop :=
  geig_ok X 1%:M r /\ r.2^h *m r.2 = 1%:M.

Variable N : nat.
Local Notation vec := 'cV[C]_N.

(** The system with another right hand side (and exact solution). *)
Definition with_rhs (l : lsys C N) (b : vec) (e : option vec) : lsys C N :=
  LSys (lA l) b (lM l) (lMl l) (lMr l) (lB l) e.

(** The solver has solved the system l to the tolerance tol, unless its Arnoldi process
    has stopped, after at least one step, with an (almost) invariant subspace; the last recorded residual norm is the one of
    the solution. *)
Definition solved (l : lsys C N) (tol : C) (s : dsolver C N) : Prop :=
  exists2 xk, ds_xk s = Some xk &
  [/\ last 0 (ds_res s) = resid_norm l xk / rhs_norm l, (ds_n s <= N)%N
    & ds_inv s = false \/ ds_n s = 0%N -> resid_norm l xk <= tol * rhs_norm l].

(** A call of solve() with a system that differs from l in the right hand side only:
    maxiter >= N, tol >= 0, and, if the projections are orthogonalised, norms that do not
    differ by more than 1e-15. *)
Record call_ok (l : lsys C N) (Minv : option (vec -> vec)) (same : bool) (Bm : ipB C N) (y : rsys C N) (a : rargs C N) : Prop :=
  CallOk {
    co_sys : exists b e, rs_l y = with_rhs l b e;
    co_b : lMl l (lb (rs_l y)) <> 0;
    co_Minv : rs_Minv y = Minv; co_same : rs_same y = same; co_sa : rs_sa y = true;
    co_ortho : ortho_ok l (ra_ortho a);
    co_its : pk_its (ra_kw a) != 0%N;
    co_orth : pk_orth (ra_kw a) -> forall v,
      eps15 C * ipnorm (ip1 Bm) v <= ipnorm (ip1 (lB l)) v /\
      eps15 C * ipnorm (ip1 Bm) v <= ipnorm (ip1 (lB l)) (lMlAMr l v);
    co_maxiter : (N <= o_maxiter (ra_o a))%N; co_tol : 0 <= o_tol (ra_o a) }.

(** A selection of Ritz pairs with real residual norms: different existing indices, whose
    values are not 0 unless the system is positive definite (they cannot be 0 then). *)
Definition select_ok (l : lsys C N) (sel : forall s : dsolver C N, dritz C (ds_n s + ds_m s) -> res (seq nat)) : Prop :=
  forall s z q, (forall i, odflt 0 (dz_resnorms z i) \is Num.real) -> sel s z = Ok q ->
  [/\ uniq q, all (fun i => i < ds_n s + ds_m s)%N q &
      pos_def (ip1 (lB l)) (lMlAMr l) \/
      forall i : 'I_(ds_n s + ds_m s), val i \in q -> dz_values z i <> Some 0].

(** Why the factory fails for the solver s: there are no Ritz pairs at all, or the selection
    fails for the Ritz pairs of s. *)
Definition fails eig eigh geig geigh (sel : forall s : dsolver C N, dritz C (ds_n s + ds_m s) -> res (seq nat))
    (s : dsolver C N) (x : exn) : Prop :=
  (ds_n s + ds_m s = 0)%N /\ x = IndexError \/
  exists2 z, mk_dritz eig eigh geig geigh (ds_l s) (ds_sa s) (ds_ob s) (ds_b s) DmRitz = Ok z & sel s z = Err x.

(** vector_factory: None or a RitzFactory with such a selection *)
Definition fac_ok eig eigh geig geigh (l : lsys C N) (f : option (factory (dsolver C N) (seq vec))) : Prop :=
  f = None \/ exists2 sel, f = Some (ritz_factory eig eigh geig geigh sel) & select_ok l sel.

(** All calls in the list cs are of this kind. *)
Definition calls_ok eig eigh geig geigh l Minv same Bm (cs : seq (rcall C N)) : Prop :=
  forall i c, nth None (map Some cs) i = Some c ->
    call_ok l Minv same Bm (c_sys c) (c_args c) /\ fac_ok eig eigh geig geigh l (c_fac c).

(** The factory of a call *)
Definition used (default : option (factory (dsolver C N) (seq vec))) (c : rcall C N) :=
  if c_fac c is Some f then Some f else default.

(** The outcome r of the call c, where last is the solver of the previous successful call:
    the system is solved, or the factory has failed for last. *)
Definition outcome_ok eig eigh geig geigh default (last : option (dsolver C N)) (c : rcall C N) (r : res (dsolver C N)) : Prop :=
  (exists2 s, r = Ok s & solved (rs_l (c_sys c)) (o_tol (ra_o (c_args c))) s) \/
  (exists s sel x, [/\ last = Some s, used default c = Some (ritz_factory eig eigh geig geigh sel),
                       r = Err x & fails eig eigh geig geigh sel s x]).
End Spec.
