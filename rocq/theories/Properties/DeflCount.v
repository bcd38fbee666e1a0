(** C78: how many iterations plain and deflated solvers need. *)
From mathcomp Require Import all_ssreflect all_algebra.
From mathcomp Require Import ring.
From Verif Require Import Base Spec.LinAlg Model.Inner Spec.Inner Proof.Algebra Proof.Inner Proof.IpTheory.
From Verif Require Import Model.Arnoldi Spec.Arnoldi Proof.Arnoldi Proof.ArnoldiAll Proof.ArnoldiExample.
From Verif Require Import Model.Solver Spec.Solver Model.LinearSystem Model.Krylov Spec.Krylov Spec.Agree.
From Verif Require Import Proof.ArnoldiRel Proof.Gmres Proof.LinearSystem Proof.Agree.
From Verif Require Import Model.Projection Spec.Projection Proof.Qr Proof.QrExist Model.Deflation Spec.Deflation Proof.Deflation.
From Verif Require Import Spec.DeflAgree Proof.DeflAgree Spec.DeflCount Proof.DeflCount.
From Verif Require Import Properties.Deflation Properties.DeflAgree.
From Verif Require Properties.Gmres Properties.Cg.

Set Implicit Arguments.
Unset Strict Implicit.
Unset Printing Implicit Defensive.
Import Order.TTheory GRing.Theory Num.Theory.
Local Open Scope ring_scope.

(** Reading guide: Spec/DeflCount.v ([invariant], [eigen_sum], [within]), Spec/Agree.v
    ([mr_result]: a run of Gmres or Minres, [cg_result]: of Cg), Spec/DeflAgree.v
    ([dmr_result], [dcg_result]: runs of the deflated solvers). *)
Section Properties.
Variable C : numClosedFieldType.
Variable N : nat.
Local Notation vec := 'cV[C]_N.
Variable l : lsys C N.
Hypothesis hl : lsys_ok l.
Hypothesis nb : lMl l (lb l) <> 0.
Variable x0 : option vec.
Local Notation x := (x0_of x0).
Local Notation A := (lMlAMr l).
Local Notation M := (lMop l).
Local Notation ip := (inner (lB l)).
Local Notation ip_ := (ip1 (lB l)).
Local Notation energy v := (ip_ v (A v)).

(** An initial residual that is a sum of m eigenvectors takes at most m iterations. *)
Theorem C78_eigen m tol res xk : 0 <= tol -> eigen_sum l m (resid l x) ->
  mr_result l x0 tol res xk -> within l m res xk.
Proof. by move=> t0 /(eigen_reach hl)[z kz ez]; apply: (mr_within hl nb t0 kz ez). Qed.

Theorem C78_cg_eigen m tol res xk : 0 <= tol -> eigen_sum l m (resid l x) ->
  cg_result l x0 tol res xk -> within l m res xk.
Proof. by move=> t0 /(eigen_reach hl)[z kz ez]; apply: (cg_within hl nb t0 kz ez). Qed.

Section Deflated.
Variables (k : nat) (U : 'M[C]_(N, k)).
Hypothesis hU : forall c, lMr l (U *m c) = U *m c.
Local Notation P := (defl_P (lB l) A U).

(** Deflation of k vectors leaves at most N - k iterations. *)
Theorem C78_dimension tol res xk : 0 <= tol -> injective_op A ->
  dmr_result l x0 U tol res xk -> within l (N - k) res xk.
Proof.
move=> t0 inj h; have [[_ u] _ _ _] := dmr_facts hl hU nb h.
have [z kz ez] := dim_reach hl u inj (resid l x); have [c ec] := P_reach hl hU ez.
exact: (dmr_within hl hU nb t0 kz ec h).
Qed.

Theorem C78_cg_dimension tol res xk : 0 <= tol ->
  dcg_result l x0 U tol res xk -> within l (N - k) res xk.
Proof.
move=> t0 h; have [[_ u _ pd] _ _ _] := dcg_facts hl hU nb h.
have inj : injective_op A.
  by move=> v e; apply/eqP; apply: contraT => /pd; rewrite e (ipr0 (valid_is_ip (lo_B hl))) ltxx.
have [z kz ez] := dim_reach hl u inj (resid l x); have [c ec] := P_reach hl hU ez.
exact: (dcg_within hl hU nb t0 kz ec h).
Qed.

(** If x0 + U c is a solution then the deflated solvers return one without iterating. *)
Theorem C78_no_iterations c tol res xk : 0 <= tol -> resid l (x + U *m c) = 0 ->
  dmr_result l x0 U tol res xk \/ dcg_result l x0 U tol res xk ->
  res = [:: 0] /\ exists2 y, xk = Some y & resid l y = 0.
Proof.
move=> t0 e h; have e' : resid l (x + lMr l 0 + U *m c) = 0 by rewrite (lin0 (lo_Mr hl)) addr0.
have k0 : in_krylov (fun v => P (A v)) M (P (resid l x)) 0 0 by exact: span0.
have [s0 [s1 w]] : (0 < size res)%N /\ within l 0 res xk.
  case: h => h.
    by have [[s0 _] _ _ _] := dmr_facts hl hU nb h; split=> //; exact: (dmr_within hl hU nb t0 k0 e' h).
  by have [[s0 _ _ _] _ _ _] := dcg_facts hl hU nb h; split=> //; exact: (dcg_within hl hU nb t0 k0 e' h).
have es : size res = 1%N by apply/eqP; rewrite eqn_leq s1.
by have [e1 e2] := w es; split=> //; case: res es e1 {h s0 s1 w} => [|a []] //= _ ->.
Qed.

Section Invariant.
Hypothesis inv : invariant l U.

(** The part of the initial residual in the image of U does not count. *)
Theorem C78_deflated_eigen m c s tol res xk : 0 <= tol -> resid l x = A (U *m c) + s -> eigen_sum l m s ->
  dmr_result l x0 U tol res xk \/ dcg_result l x0 U tol res xk -> within l m res xk.
Proof.
move=> t0 er /(eigen_reach hl)[z kz ez] h.
have u : ip U (imcols A U) \in unitmx.
  by case: h => h; [have [[_ u] _ _ _] := dmr_facts hl hU nb h|have [[_ u _ _] _ _ _] := dcg_facts hl hU nb h].
have [z' [c' [kz' ew]]] := contain hl inv kz.
have Ps : P s = P (resid l x) by rewrite er (linD (P_lin hl U)) (P_AU hl u) add0r.
rewrite Ps in kz'.
have e : resid l (x + lMr l z' + U *m (c' + c)) = 0.
  rewrite (resid_c hl hU) mulmxDr addrA -ew (linD (lMlAMr_lin hl)) ez er.
  by rewrite [s + _]addrC subrr.
by case: h => h; [exact: (dmr_within hl hU nb t0 kz' e h)|exact: (dcg_within hl hU nb t0 kz' e h)].
Qed.

(** Deflating an invariant subspace does not increase the residual norms and the number
    of iterations of the minimal residual methods. *)
Theorem C78_minimal_residual tol res xk tol' res' xk' :
  mr_result l x0 tol res xk -> dmr_result l x0 U tol' res' xk' ->
  (forall i, (i < size res)%N -> (i < size res')%N -> nth 0 res' i <= nth 0 res i) /\
  (tol = tol' -> last 0 res <= tol -> (size res' <= size res)%N).
Proof.
move=> /(mr_facts hl nb)[s0 _ h1 _] /(dmr_facts hl hU nb)[[s1 u] g1 h2 _].
have le i : (i < size res)%N -> (i < size res')%N -> nth 0 res' i <= nth 0 res i.
  move=> i1 i2; have [z [kz _] ->] := h1 i i1; have [y [_ [z1 [c1 [_ _ hy]]]] ->] := h2 i i2.
  apply: ler_wpmul2r; first by rewrite invr_ge0; exact: (ipnorm_ge0 (lmip hl)).
  have [z' [c [kz' ez]]] := contain hl inv kz.
  have [d ed _] := PE hl U (resid l x - A z').
  have e : resid l (x + lMr l z' + U *m d) = P (resid l (x + lMr l z)).
    rewrite (resid_c hl hU) (linD (lMlAMr_lin hl)) opprD addrA -ed (resid_update hl) ez.
    by rewrite (linD (lMlAMr_lin hl)) opprD addrA (linB (P_lin hl U) _ (A (U *m c))) (P_AU hl u) subr0.
  apply: le_trans (hy z' d kz' _) _; first by rewrite e; exact: (defl_P_orth hl).
  by rewrite {1}/resid_norm e; exact: (P_contract hl u inv).
split=> // et hc; rewrite leqNgt; apply/negP => h.
have i1 : ((size res).-1 < size res)%N by rewrite prednK.
have := g1 (size res).-1; rewrite prednK // => /(_ h).
have := le _ i1 (ltn_trans i1 h); rewrite nth_last -et => h3 h4.
by have := le_lt_trans (le_trans h3 hc) h4; rewrite ltxx.
Qed.

(** The same for the energy norm of the error of CG. *)
Theorem C78_cg tol res xk tol' res' xk' ys : resid l (x + lMr l ys) = 0 ->
  cg_result l x0 tol res xk -> dcg_result l x0 U tol' res' xk' -> (size res <= size res')%N ->
  exists y y', [/\ xk = Some (x + lMr l y), xk' = Some (x + lMr l y') & energy (ys - y') <= energy (ys - y)].
Proof.
move=> hys h; have [s0 _ h1 [ex sa pd _]] := cg_facts hl nb h.
move=> /(dcg_facts hl hU nb)[[s1 u _ _] _ _ [v ev [_ [z1 [c1 [e1 _ hv]]]]]] hs.
have i1 : ((size res).-1 < size res)%N by rewrite prednK.
have [_ ky _] := h1 _ i1; eexists; exists (z1 + U *m c1); split; first exact: ex.
  by rewrite ev e1 (linD (lo_Mr hl)) hU addrA.
have [z' [c [kz' ->]]] := contain hl inv ky; apply: hv => //.
by apply: span_widen kz'; rewrite -!subn1 leq_sub2r.
Qed.
End Invariant.
End Deflated.
End Properties.

(** The system of C29, Ml A Mr = 2 [[2,1],[1,2]], M = 5 I, x0 = 0: the initial residual is
    the sum of the eigenvectors wp = e_0 + e_1 and wm = e_0 - e_1; after deflation of wp
    one is left. *)
Section Examples.
Variable C : numClosedFieldType.
Local Notation l := (dex_lsys C).
Local Notation A := (lMlAMr l).
Definition wp : 'cV[C]_2 := e0 C + e1 C.
Definition wm : 'cV[C]_2 := e0 C - e1 C.

Let lin := lMlAMr_lin (dex_ok C).

Let Ae a b : A (a *: e0 C + b *: e1 C) = (4%:R * a + 2%:R * b) *: e0 C + (4%:R * b + 2%:R * a) *: e1 C.
Proof.
rewrite /lMlAMr /= /Properties.Cg.spd_op (linD (@swap_lin C)) !(linZ (@swap_lin C)) swap_e0 swap_e1.
by apply/colP => i; rewrite !mxE; ring.
Qed.

Lemma A_wp : A wp = 6%:R *: wp.
Proof.
have := Ae 1 1; rewrite !scale1r => ->.
by apply/colP => i; rewrite !mxE; ring.
Qed.

Lemma A_wm : A wm = 2%:R *: wm.
Proof.
have := Ae 1 (-1); rewrite scale1r scaleN1r => ->.
by apply/colP => i; rewrite !mxE; ring.
Qed.

Let sM (v : 'cV[C]_2) : lMop l v = 5%:R *: v. Proof. by []. Qed.

Let AM_wp : A (lMop l wp) = 30%:R *: wp.
Proof. by rewrite sM (linZ lin) A_wp scalerA -natrM. Qed.
Let AM_wm : A (lMop l wm) = 10%:R *: wm.
Proof. by rewrite sM (linZ lin) A_wm scalerA -natrM. Qed.

Lemma r0E : resid l 0 = wp + wm.
Proof.
rewrite /resid /= (lin0 (@Properties.Cg.spd_lin C)) subr0; apply/colP => i; rewrite !mxE; ring.
Qed.

Example C78_plain_case : eigen_sum l 2 (resid l 0).
Proof.
exists (fun i => if i is 0%N then wp else wm), (fun i => if i is 0%N then 30%:R else 10%:R); split.
  by rewrite r0E !big_ord_recl big_ord0 addr0.
move=> [|[|]] // _; (split; first by rewrite pnatr_eq0).
  exact: AM_wp.
exact: AM_wm.
Qed.

Example C78_deflated_case : [/\ invariant l wp, resid l 0 = A (wp *m (6%:R^-1)%:M) + wm & eigen_sum l 1 wm].
Proof.
split.
- move=> c; exists (30%:R *: c); rewrite sM.
  have ec : wp *m c = c 0 0 *: wp by rewrite {1}(mx11_scalar c) mul_mx_scalar.
  by rewrite ec (linZ lin) A_wp -scalemxAr ec !scalerA; congr (_ *: _); ring.
- by rewrite r0E mul_mx_scalar (linZ lin) A_wp scalerA mulVf ?scale1r // pnatr_eq0.
exists (fun=> wm), (fun=> 10%:R); split; first by rewrite big_ord1.
by move=> i _; split; [rewrite pnatr_eq0|exact: AM_wm].
Qed.

Let wp_nz : wp != 0.
Proof.
apply/eqP => /(congr1 (fun v : 'cV[C]_2 => v 0 0)); rewrite !mxE /= addr0 => /eqP.
by rewrite oner_eq0.
Qed.

Lemma wp_args : defl_args (@some_qr C) l (dex_Minv C) false wp kw_raw.
Proof.
have [h1 h2 h3 h4 _] := dex_args C; split=> //.
rewrite unitmxE unitfE det_mx11; have := @dex_pd C _ wp_nz.
have -> : imcols A wp = A wp by apply/matrixP => i j; rewrite mxE !ord1 col_id.
by rewrite lt_def => /andP[].
Qed.

Example C78_runs x0 :
  [/\ exists res xk, mr_result l x0 0 res xk, exists res xk, cg_result l x0 0 res xk,
      exists res xk, dmr_result l x0 wp 0 res xk
    & exists res xk, dcg_result l x0 wp 0 res xk].
Proof.
have ho' : ortho_ok l Mgs by [].
have hq := @some_qr_spec C; pose op := Opts (0 : C) 2 false.
have mr (c : 'cV[C]_1) : lMr l (wp *m c) = wp *m c by [].
split.
- have [//|//|s E _] := @Properties.Gmres.C28_gmres_finite_partial C 2 (@frob C) l op Mgs x0 (dex_ok C) ho' (@dex_inj C) (@frob_bounds C) (@dex_nz C).
  by exists (s_res s), (s_xk s); exact: (MrGmres ho' (or_introl E)).
- have [||||s E _] := @Properties.Cg.C28_cg_converges C 2 l op false x0 (dex_ok C) (@dex_sa C) (@dex_pd C) => //.
    exact: dex_nz.
  by exists (s_res s), (s_xk s); exact: (CgRun (@dex_sa C) (@dex_pd C) (or_introl E)).
- have [//|//|s E _] := C29_gmres_finite (o := op) hq (dex_ok C) wp_args mr x0 ho' (@dex_inj C) (@frob_bounds C) (@dex_nz C).
  by exists (s_res s), (s_xk s); exact: (DmrGmres hq wp_args ho' (or_introl E)).
have [//|//|s E _] := C29_cg_finite (o := op) (store := false) hq (dex_ok C) wp_args mr x0 (@dex_sa C) (@dex_pd C) isT (@dex_nz C).
by exists (s_res s), (s_xk s); exact: (DcgRun hq wp_args (@dex_sa C) (@dex_pd C) (or_introl E)).
Qed.
End Examples.

Print Assumptions C78_eigen.
Print Assumptions C78_cg_eigen.
Print Assumptions C78_dimension.
Print Assumptions C78_cg_dimension.
Print Assumptions C78_no_iterations.
Print Assumptions C78_deflated_eigen.
Print Assumptions C78_minimal_residual.
Print Assumptions C78_cg.
Print Assumptions C78_runs.
