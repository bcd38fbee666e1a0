(** C20, C26: MINRES. *)
From mathcomp Require Import all_ssreflect all_algebra.
From Verif Require Import Base Spec.LinAlg Model.Inner Spec.Inner Proof.Algebra Proof.Inner Proof.IpTheory.
From Verif Require Import Model.Arnoldi Spec.Arnoldi Proof.Arnoldi Proof.ArnoldiAll Proof.ArnoldiExample.
From Verif Require Import Model.Solver Spec.Solver Model.LinearSystem Model.Krylov Spec.Krylov.
From Verif Require Import Proof.ArnoldiRel Proof.SolverInv Proof.Gmres Proof.LinearSystem Proof.Minres.
From Verif Require Properties.Solver.
From Verif Require Import Properties.Gmres.

Set Implicit Arguments.
Unset Strict Implicit.
Unset Printing Implicit Defensive.
Import Order.TTheory GRing.Theory Num.Theory.
Local Open Scope ring_scope.

Local Arguments norm : simpl never.

(** Reading guide: see Properties/Gmres.v.  [minres_solve snorm l o ortho x0] is the
    constructor Minres(LinearSystem(...), ...).  MINRES needs a self-adjoint Ml A Mr. *)
Section Properties.
Variable C : numClosedFieldType.
Variable N : nat.
Local Notation vec := 'cV[C]_N.
Variable snorm : nat -> nat -> (nat -> nat -> C) -> C.
Implicit Types (l : lsys C N) (o : opts C).

Theorem C26_minres_no_guess l o ortho : lsys_ok l ->
  minres_solve snorm l o ortho None = minres_solve snorm l o ortho (Some 0).
Proof.
move=> hl; rewrite /minres_solve (bnorm_ok hl) /bindO /krun.
apply: (@Properties.Solver.C26_no_guess C vec _ _ _ _ _ _ _ o (minres snorm (kdata_lsys l (rhs_norm l)) (o_maxiter o) ortho)) => /=.
  by rewrite /r0_norm !(ko_res (lsys_kd hl _)).
by rewrite /minres_start /k_arn !(ko_res (lsys_kd hl _)).
Qed.

(** If Ml b = 0 the approximation is 0 with resnorms = [0], whatever x0 is. *)
Theorem C26_minres_zero_rhs l o ortho x0 : lsys_ok l -> ortho_ok l ortho -> 0 <= o_tol o ->
  lMl l (lb l) = 0 ->
  exists2 s, minres_solve snorm l o ortho x0 = Returns s &
    [/\ s_xk s = Some 0, s_x0 s = 0 & s_res s = [:: 0]].
Proof.
move=> hl ho tol0 hb; rewrite /minres_solve (bnorm_ok hl) /=.
have hd := lsys_kd hl; have hc := lsys_cfg hl (o_maxiter o) (rhs_norm l) ho.
have [a [E _ _ _ _]] := k_arn_ok (hd x0) hc.
apply: (@Properties.Solver.C26_zero_rhs C vec _ _ _ _ _ _ _ o (minres snorm (kdata_lsys l (rhs_norm l)) (o_maxiter o) ortho)) => /=.
- by rewrite rhs_norm_eq0 // hb.
- by rewrite le_gtF.
- by rewrite /r0_norm (ko_res (hd x0)).
- by rewrite /minres_start E.
- move=> en; case: (lexact l) => // e [<-]; eexists; first by [].
  by rewrite norm_ip; [eexists|exact: lo_B hl].
Qed.

Section Run.
Variables (l : lsys C N) (o : opts C) (ortho : ortho_t) (x0 : option vec).
Hypothesis hl : lsys_ok l.
Hypothesis ho : ortho_ok l ortho.
Hypothesis hsa : self_adjoint (ip1 (lB l)) (lMlAMr l).
Let x := x0_of x0.
Local Notation K := (in_krylov (lMlAMr l) (lMop l) (resid l x)).
Local Notation f := (fun z => resid_norm l (x + lMr l z)).
Local Notation st s := (mr_a (s_st s)).

Let rnE z : rnorm (ip1 (lB l)) (lMlAMr l) (lMop l) (resid l x) z = f z.
Proof. by rewrite /resid_norm resid_update. Qed.

Let runE s : lMl l (lb l) <> 0 -> of_run (minres_solve snorm l o ortho x0) s ->
  [/\ mr_inv (kdata_lsys l (rhs_norm l)) x0 (resid l x) (o_maxiter o) snorm ortho (s_st s),
      size (s_res s) = (a_iter (st s)).+1,
      forall i, (i <= a_iter (st s))%N ->
         exists2 z, minimizer f (K i) z & nth 0 (s_res s) i = f z / rhs_norm l
    & exists z, s_xk s = Some (x + lMr l z) /\ minimizer f (K (a_iter (st s))) z].
Proof.
move=> /eqP nb; rewrite /minres_solve (bnorm_ok hl) /= => hs.
have nb' : y_bnorm (lsys_sys l (rhs_norm l)) != 0 by rewrite /= rhs_norm_eq0.
have [h1 h2 h3 [z [x' [ex hz]]]] := minres_run (lsys_kd hl x0) (lsys_cfg hl _ _ ho) hsa nb' hs.
have tr n z' : minimizer (rnorm (ip1 (lB l)) (lMlAMr l) (lMop l) (resid l x)) (K n) z' -> minimizer f (K n) z'.
  by case=> k1 k2; split=> // z'' /k2; rewrite !rnE.
case=> ex'; split=> //.
  move=> i hi; have [r [z' k1 ->] ->] := h3 i hi; exists z'; first exact: tr.
  by rewrite -rnE.
by exists z; split; [rewrite ex -ex'|apply: tr].
Qed.

(** C20.  After n iterations the approximation lies in x0 + Mr K_n and minimises the
    residual norm there; every recorded residual norm is the minimum over the
    corresponding Krylov space, divided by the norm of the right hand side. *)
Theorem C20_minres_optimal s : lMl l (lb l) <> 0 ->
  of_run (minres_solve snorm l o ortho x0) s ->
  exists z, [/\ s_xk s = Some (x + lMr l z), K (a_iter (st s)) z
    & forall z', K (a_iter (st s)) z' -> resid_norm l (x + lMr l z) <= resid_norm l (x + lMr l z')].
Proof. by move=> h1 h2; have [_ _ _ [z [h3 [h4 h5]]]] := runE h1 h2; exists z. Qed.

Theorem C20_minres_residual_norms s i : lMl l (lb l) <> 0 ->
  of_run (minres_solve snorm l o ortho x0) s -> (i < size (s_res s))%N ->
  exists z, [/\ K i z, nth 0 (s_res s) i = resid_norm l (x + lMr l z) / rhs_norm l
    & forall z', K i z' -> resid_norm l (x + lMr l z) <= resid_norm l (x + lMr l z')].
Proof.
move=> h1 h2; have [_ -> h _] := runE h1 h2; rewrite ltnS => hi.
by have [z [k1 k2] k3] := h i hi; exists z.
Qed.

(** The recorded norms therefore belong to the approximation, and do not increase. *)
Theorem C20_minres_last_norm s : lMl l (lb l) <> 0 ->
  of_run (minres_solve snorm l o ortho x0) s ->
  size (s_res s) = (a_iter (st s)).+1 /\
  exists2 xk, s_xk s = Some xk & last 0 (s_res s) = resid_norm l xk / rhs_norm l.
Proof.
move=> h1 h2; have [_ hs h [z [h3 [h4 h5]]]] := runE h1 h2; split=> //; exists (x + lMr l z) => //.
have -> : last 0 (s_res s) = nth 0 (s_res s) (a_iter (st s)).
  by rewrite (last_nth 0); case: (s_res s) hs => //= a q [->].
have [z' [k1 k2] ->] := h _ (leqnn _); congr (_ / _).
by apply/eqP; rewrite eq_le k2 // h5.
Qed.

Theorem C20_minres_monotone s i j : lMl l (lb l) <> 0 ->
  of_run (minres_solve snorm l o ortho x0) s -> (i <= j)%N -> (j < size (s_res s))%N ->
  nth 0 (s_res s) j <= nth 0 (s_res s) i.
Proof.
move=> h1 h2 hij hj; have [z [k1 -> _]] := C20_minres_residual_norms h1 h2 (leq_ltn_trans hij hj).
have [z' [_ -> k3]] := C20_minres_residual_norms h1 h2 hj.
rewrite ler_wpmul2r ?k3 //; last exact: (span_widen hij).
by rewrite invr_ge0 sqrtC_ge0; apply: (ip_ge0' (lmip hl)).
Qed.

(** For an injective Ml A Mr and maxiter >= N the constructor returns: neither
    ConvergenceError, nor any other exception, nor a division by zero, after at most N
    iterations; the tolerance is reached unless the iteration was stopped because
    0 < H_(n,n-1) <= 1e-14 ||H||. *)
Theorem C28_minres_finite_partial : injective_op (lMlAMr l) -> bounds_entries snorm ->
  lMl l (lb l) <> 0 -> (N <= o_maxiter o)%N -> 0 <= o_tol o ->
  exists2 s, minres_solve snorm l o ortho x0 = Returns s &
    (a_iter (st s) <= N)%N /\
    (last 0 (s_res s) <= o_tol o \/
     exists k, a_iter (st s) = k.+1 /\
       0 < a_H (st s) k.+1 k <= (10%:R ^+ 14)^-1 * snorm k.+2 k.+1 (a_H (st s))).
Proof.
move=> inj hb /eqP nb hm tol0.
have N0 : (0 < N)%N.
  case: (posnP N) => // e; exfalso; move/negP: nb; apply; apply/eqP/matrixP => i.
  by case: i => i hi; exfalso; rewrite e in hi.
rewrite /minres_solve (bnorm_ok hl) /=.
apply: (minres_finite (lsys_kd hl x0) (lsys_cfg hl _ _ ho) hsa (fun _ z _ => inj z) hb) => //=.
  by rewrite lt_def rhs_norm_eq0 // nb sqrtC_ge0; apply: (ip_ge0' (lmip hl)).
move=> en y; case: (lexact l) => // e [<-].
by rewrite norm_ip; [eexists|exact: lo_B hl].
Qed.

(** If no such near-breakdown occurs, every tolerance is reached. *)
Theorem C28_minres_converges : injective_op (lMlAMr l) -> bounds_entries snorm ->
  lMl l (lb l) <> 0 -> (N <= o_maxiter o)%N -> 0 <= o_tol o ->
  (forall s k, minres_solve snorm l o ortho x0 = Returns s -> a_iter (st s) = k.+1 ->
     a_H (st s) k.+1 k <> 0 -> ~ (a_H (st s) k.+1 k <= (10%:R ^+ 14)^-1 * snorm k.+2 k.+1 (a_H (st s)))) ->
  exists2 s, minres_solve snorm l o ortho x0 = Returns s &
    (a_iter (st s) <= N)%N /\
    exists2 xk, s_xk s = Some xk & resid_norm l xk <= o_tol o * rhs_norm l.
Proof.
move=> inj hb nb hm tol0 hn; have [s E [h1 h2]] := C28_minres_finite_partial inj hb nb hm tol0.
exists s => //; split=> //.
have [||_ [xk ex el]] := @C20_minres_last_norm s; [by []|by left|].
exists xk => //; case: h2 => [|[k [ek /andP[k1 k2]]]]; last first.
  by case: (hn s k E ek) => //; apply/eqP; rewrite gt_eqF.
rewrite el ler_pdivr_mulr // lt_def rhs_norm_eq0 //; move/eqP: nb => ->.
by rewrite sqrtC_ge0; apply: (ip_ge0' (lmip hl)).
Qed.

(** MINRES computes the iterates of GMRES: the recorded residual norms agree. *)
Theorem C20_minres_is_gmres s s' i ortho' : ortho_ok l ortho' -> lMl l (lb l) <> 0 ->
  of_run (minres_solve snorm l o ortho x0) s -> of_run (gmres_solve snorm l o ortho' x0) s' ->
  (i < size (s_res s))%N -> (i < size (s_res s'))%N -> nth 0 (s_res s) i = nth 0 (s_res s') i.
Proof.
move=> ho' nb h1 h2 i1 i2.
have [z [k1 -> k3]] := C20_minres_residual_norms nb h1 i1.
have [z' [k1' -> k3']] := C19_gmres_residual_norms hl ho' nb h2 i2.
by congr (_ / _); apply/eqP; rewrite eq_le k3 // k3'.
Qed.
End Run.
End Properties.

Section Example.
Variable C : numClosedFieldType.

Lemma ex_sa h : self_adjoint (ip1 (lB (ex_lsys C h))) (lMlAMr (ex_lsys C h)).
Proof. exact: (@ex_ortho C h Lanczos). Qed.

Example C20_run o (h : bool) tol : o <> OrthoOther -> (o = Householder -> h) -> 0 <= tol ->
  exists2 s, minres_solve (@frob C) (ex_lsys C h) (Opts tol 2 false) o (Some (e1 C)) = Returns s &
    (a_iter (mr_a (s_st s)) <= 2)%N.
Proof.
move=> h1 h2 ht; have [||s E [h3 _]] := @C28_minres_finite_partial C 2 (@frob C) (ex_lsys C h) (Opts tol 2 false) o
  (Some (e1 C)) (ex_ok C h) (ex_ortho C h1 h2) (ex_sa h) (@ex_inj C h) (@frob_bounds C) (@ex_nz C h) => //.
by exists s.
Qed.
End Example.

Print Assumptions C26_minres_no_guess.
Print Assumptions C26_minres_zero_rhs.
Print Assumptions C20_minres_optimal.
Print Assumptions C20_minres_residual_norms.
Print Assumptions C20_minres_last_norm.
Print Assumptions C20_minres_monotone.
Print Assumptions C28_minres_finite_partial.
Print Assumptions C28_minres_converges.
Print Assumptions C20_minres_is_gmres.
