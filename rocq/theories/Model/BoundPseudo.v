(** Model of deflation.bound_pseudo with pseudo_type="omit", krypy/deflation.py 473-577.

    The other values of pseudo_type need the package pseudopy and are not modelled.  For
    "omit" the numbers eta and beta are computed but not used; GW_norm and G_norm have no
    effect.  b_norm is linear_system.MMlb_norm of the deflated solver.  As in
    Model/Arnoldifyer.v the number of columns of Wt is less than n + d.  A division by the
    positive number b_norm - g_norm.  Exact arithmetic; [smin X] is the least entry of
    scipy.linalg.svdvals(X). *)
From mathcomp Require Import all_ssreflect all_algebra perm.
From Verif Require Import Base Model.Inner Model.Arnoldi Model.Solver Model.LinearSystem Model.Krylov Model.ResNorms.
From Verif Require Import Model.Projection Model.Deflation Model.DeflRitz Model.Arnoldifyer.

Set Implicit Arguments.
Unset Strict Implicit.
Unset Printing Implicit Defensive.
Import Order.TTheory GRing.Theory Num.Theory.
Local Open Scope ring_scope.

Section BoundPseudo.
Variable C : numClosedFieldType.
Variable N : nat.
Local Notation vec := 'cV[C]_N.
Variable sqr : forall n k, 'M[C]_(n, k) -> 'M[C]_(n, k) * 'M[C]_k.
Variable fqr : forall n k, 'M[C]_(n, k) -> 'M[C]_n.
Variable hess : forall n, 'M[C]_n -> 'M[C]_n * 'M[C]_n.
Variable smin : forall n, 'M[C]_n -> C.
Variables (l : lsys C N) (Minv : option (vec -> vec)) (m : nat) (ob : obl C N m) (n_ n : nat) (b : byprod C N n_ n m).
Variables (a : arnf C N m n_ n) (r0norm : C) (UMlr : 'cV[C]_m).

(** The entries of a matrix as a function *)
Definition mx_ent p q (X : 'M[C]_(p, q)) (i j : nat) : C :=
  match insub i, insub j with Some i', Some j' => X i' j' | _, _ => 0 end.

(** LinearSystem(Hh, numpy.eye(r, 1) * q_norm), lines 551-557 *)
Definition small_lsys r (Hh : 'M[C]_r.+1) (q : C) : lsys C r.+1 :=
  LSys (fun x => Hh *m x) (q *: delta_mx 0 0) None id id IpNone None.

(** The class of the deflated solver: DeflatedMinres and DeflatedGmres, or DeflatedCg, for
    which tol is used *)
Inductive bp_class := BpMinimal | BpCg of C.

(** The residual norms, lines 559-572: get_residual_norms, or the resnorms of DeflatedCg
    without deflation vectors, also after a ConvergenceError. *)
Definition bp_resnorms (s : bp_class) (self_adjoint : bool) r (Hh : 'M[C]_r.+1) (q : C) : res (seq C) :=
  match s with
  | BpMinimal => get_residual_norms r.+1 r.+1 (mx_ent Hh) self_adjoint
  | BpCg tol =>
      match deflated_cg sqr (small_lsys Hh q) None false (0 : 'M[C]_(r.+1, 0)) (PKw 0 true 2)
              (Opts tol r.+1 false) false None with
      | Returns s => Ok (s_res s)
      | NoConvergence s => Ok (s_res s)
      | Raises e => Err e
      end
  end.

(** bound_pseudo(arnoldifyer, Wt, g_norm=.., WGW_norm=.., tol=.., pseudo_type="omit") *)
Definition bound_pseudo (s : bp_class) (self_adjoint : bool) k (Wt : 'M[C]_(n + m, k)) r (g_norm WGW_norm : C) :
    res (seq C) :=
  let! g := arnf_get sqr fqr hess smin l Minv ob b a r0norm UMlr Wt r in
  let sigma := smin (tconj Wt *m (aJ ob b *m (dL b (af_X a) *m Wt))) in
  if (0 < k)%N && (sigma <= WGW_norm) then Err AssumptionError else
  let! b_norm := lMMlb_norm l in
  if b_norm <= g_norm then Err AssumptionError else
  let! rs := bp_resnorms s self_adjoint (ag_Hh g) (ag_q g) in
  Ok [seq x * ag_q g / (b_norm - g_norm) | x <- rs].
End BoundPseudo.
