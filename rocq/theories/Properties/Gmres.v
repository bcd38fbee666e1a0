(** C19, C26, C28, C52: linear systems and GMRES. *)
From mathcomp Require Import all_ssreflect all_algebra.
From Verif Require Import Base Spec.LinAlg Model.Inner Spec.Inner Proof.Algebra Proof.Inner Proof.IpTheory.
From Verif Require Import Model.Arnoldi Spec.Arnoldi Proof.Arnoldi Proof.ArnoldiAll Proof.ArnoldiExample.
From Verif Require Import Model.Solver Spec.Solver Model.LinearSystem Model.Krylov Spec.Krylov.
From Verif Require Import Proof.ArnoldiRel Proof.SolverInv Proof.Gmres Proof.LinearSystem.
From Verif Require Properties.Solver.

Set Implicit Arguments.
Unset Strict Implicit.
Unset Printing Implicit Defensive.
Import Order.TTheory GRing.Theory Num.Theory.
Local Open Scope ring_scope.

Local Arguments norm : simpl never.

(** Reading guide.  [lsys_ok l]: A, M, Ml, Mr are linear, ip_B is an inner product, M is
    self-adjoint and positive definite in it.  [ortho_ok l ortho]: ortho is mgs or dmgs,
    or lanczos with Ml A Mr self-adjoint, or house with M = None and ip_B = None.
    [resid l x] = Ml (b - A x), [resid_norm l x] = ||M Ml (b - A x)||_{M^-1},
    [rhs_norm l] = ||M Ml b||_{M^-1}.  [in_krylov A M r n z]: z lies in K_n(M A, M r).
    [gmres_solve snorm l o ortho x0]: the constructor Gmres(LinearSystem(...), ...);
    [of_run out s]: it returned s, or raised ConvergenceError carrying s. *)
Section Properties.
Variable C : numClosedFieldType.
Variable N : nat.
Local Notation vec := 'cV[C]_N.
Variable snorm : nat -> nat -> (nat -> nat -> C) -> C.
Implicit Types (l : lsys C N) (o : opts C).

(** C52.  The residual triple. *)
Theorem C52_get_residual l z : lsys_ok l -> lMMlb_norm l = Ok (rhs_norm l) /\
  get_residual l (rhs_norm l) z =
    Ok (lMop l (resid l (x0_of z)), resid l (x0_of z), resid_norm l (x0_of z)).
Proof. by move=> hl; split; [apply: bnorm_ok|apply: get_residualE]. Qed.

(** The residual of an exact solution vanishes, and a vanishing residual norm means that
    Ml (b - A x) = 0. *)
Theorem C52_zero_residual l x : lsys_ok l ->
  (lA l x = lb l -> resid_norm l x = 0) /\ (resid_norm l x = 0 <-> lMl l (lb l - lA l x) = 0).
Proof.
move=> hl; have e : resid_norm l x = 0 <-> lMl l (lb l - lA l x) = 0.
  have eq := ip_eq0 (lmip hl) (resid l x).
  split=> [/eqP|h]; last by apply/eqP; rewrite sqrtC_eq0 -[ip1 _ _ _]/(mip (ip1 (lB l)) (lMop l) _ _) eq /resid h.
  by rewrite sqrtC_eq0 -[ip1 _ _ _]/(mip (ip1 (lB l)) (lMop l) _ _) eq => /eqP.
by split=> // h; apply/e; rewrite h subrr; apply: (lin0 (lo_Ml hl)).
Qed.

(** C26.  get_residual(None) = get_residual(0), and GMRES does not distinguish x0=None
    and x0=0. *)
Theorem C26_get_residual_none l : lsys_ok l ->
  get_residual l (rhs_norm l) None = get_residual l (rhs_norm l) (Some 0).
Proof. exact: get_residual_none. Qed.

Theorem C26_gmres_no_guess l o ortho : lsys_ok l ->
  gmres_solve snorm l o ortho None = gmres_solve snorm l o ortho (Some 0).
Proof.
move=> hl; rewrite /gmres_solve (bnorm_ok hl) /bindO /krun.
apply: (@Properties.Solver.C26_no_guess C vec _ _ _ _ _ _ _ o (gmres snorm (kdata_lsys l (rhs_norm l)) (o_maxiter o) ortho)) => /=.
  by rewrite /r0_norm !(ko_res (lsys_kd hl _)).
by rewrite /gmres_start /k_arn !(ko_res (lsys_kd hl _)).
Qed.

(** If Ml b = 0 the approximation is 0 with resnorms = [0], whatever x0 is. *)
Theorem C26_gmres_zero_rhs l o ortho x0 : lsys_ok l -> ortho_ok l ortho -> 0 <= o_tol o ->
  lMl l (lb l) = 0 ->
  exists2 s, gmres_solve snorm l o ortho x0 = Returns s &
    [/\ s_xk s = Some 0, s_x0 s = 0 & s_res s = [:: 0]].
Proof.
move=> hl ho tol0 hb; rewrite /gmres_solve (bnorm_ok hl) /=.
have hd := lsys_kd hl; have hc := lsys_cfg hl (o_maxiter o) (rhs_norm l) ho.
have [a [E _ _ _ _]] := k_arn_ok (hd x0) hc.
apply: (@Properties.Solver.C26_zero_rhs C vec _ _ _ _ _ _ _ o (gmres snorm (kdata_lsys l (rhs_norm l)) (o_maxiter o) ortho)) => /=.
- by rewrite rhs_norm_eq0 // hb.
- by rewrite le_gtF.
- by rewrite /r0_norm (ko_res (hd x0)).
- by rewrite /gmres_start E.
- move=> en; case: (lexact l) => // e [<-]; eexists; first by [].
  by rewrite norm_ip; [eexists|exact: lo_B hl].
Qed.

Section Run.
Variables (l : lsys C N) (o : opts C) (ortho : ortho_t) (x0 : option vec).
Hypothesis hl : lsys_ok l.
Hypothesis ho : ortho_ok l ortho.
Let x := x0_of x0.
Local Notation K := (in_krylov (lMlAMr l) (lMop l) (resid l x)).
Local Notation f := (fun z => resid_norm l (x + lMr l z)).
Local Notation st s := (gm_a (s_st s)).

Let rnE z : rnorm (ip1 (lB l)) (lMlAMr l) (lMop l) (resid l x) z = f z.
Proof. by rewrite /resid_norm resid_update. Qed.

Let runE s : lMl l (lb l) <> 0 -> of_run (gmres_solve snorm l o ortho x0) s ->
  [/\ gm_inv (kdata_lsys l (rhs_norm l)) x0 (resid l x) (o_maxiter o) snorm ortho (s_st s),
      size (s_res s) = (a_iter (st s)).+1,
      forall i, (i <= a_iter (st s))%N ->
         exists2 z, minimizer f (K i) z & nth 0 (s_res s) i = f z / rhs_norm l
    & exists z, s_xk s = Some (x + lMr l z) /\ minimizer f (K (a_iter (st s))) z].
Proof.
move=> /eqP nb; rewrite /gmres_solve (bnorm_ok hl) /= => hs.
have nb' : y_bnorm (lsys_sys l (rhs_norm l)) != 0 by rewrite /= rhs_norm_eq0.
have [h1 h2 h3 [z [x' [ex hz]]]] := gmres_run (lsys_kd hl x0) (lsys_cfg hl _ _ ho) nb' hs.
have tr n z' : minimizer (rnorm (ip1 (lB l)) (lMlAMr l) (lMop l) (resid l x)) (K n) z' -> minimizer f (K n) z'.
  by case=> k1 k2; split=> // z'' /k2; rewrite !rnE.
case=> ex'; split=> //.
  move=> i hi; have [r [z' k1 ->] ->] := h3 i hi; exists z'; first exact: tr.
  by rewrite -rnE.
by exists z; split; [rewrite ex -ex'|apply: tr].
Qed.

(** C19.  After n iterations the approximation lies in x0 + Mr K_n and minimises the
    residual norm there; every recorded residual norm is the minimum over the
    corresponding Krylov space, divided by the norm of the right hand side. *)
Theorem C19_gmres_optimal s : lMl l (lb l) <> 0 ->
  of_run (gmres_solve snorm l o ortho x0) s ->
  exists z, [/\ s_xk s = Some (x + lMr l z), K (a_iter (st s)) z
    & forall z', K (a_iter (st s)) z' -> resid_norm l (x + lMr l z) <= resid_norm l (x + lMr l z')].
Proof. by move=> h1 h2; have [_ _ _ [z [h3 [h4 h5]]]] := runE h1 h2; exists z. Qed.

Theorem C19_gmres_residual_norms s i : lMl l (lb l) <> 0 ->
  of_run (gmres_solve snorm l o ortho x0) s -> (i < size (s_res s))%N ->
  exists z, [/\ K i z, nth 0 (s_res s) i = resid_norm l (x + lMr l z) / rhs_norm l
    & forall z', K i z' -> resid_norm l (x + lMr l z) <= resid_norm l (x + lMr l z')].
Proof.
move=> h1 h2; have [_ -> h _] := runE h1 h2; rewrite ltnS => hi.
by have [z [k1 k2] k3] := h i hi; exists z.
Qed.

(** The recorded norms therefore belong to the approximation, and do not increase. *)
Theorem C19_gmres_last_norm s : lMl l (lb l) <> 0 ->
  of_run (gmres_solve snorm l o ortho x0) s ->
  size (s_res s) = (a_iter (st s)).+1 /\
  exists2 xk, s_xk s = Some xk & last 0 (s_res s) = resid_norm l xk / rhs_norm l.
Proof.
move=> h1 h2; have [_ hs h [z [h3 [h4 h5]]]] := runE h1 h2; split=> //; exists (x + lMr l z) => //.
have -> : last 0 (s_res s) = nth 0 (s_res s) (a_iter (st s)).
  by rewrite (last_nth 0); case: (s_res s) hs => //= a q [->].
have [z' [k1 k2] ->] := h _ (leqnn _); congr (_ / _).
by apply/eqP; rewrite eq_le k2 // h5.
Qed.

Theorem C19_gmres_monotone s i j : lMl l (lb l) <> 0 ->
  of_run (gmres_solve snorm l o ortho x0) s -> (i <= j)%N -> (j < size (s_res s))%N ->
  nth 0 (s_res s) j <= nth 0 (s_res s) i.
Proof.
move=> h1 h2 hij hj; have [z [k1 -> _]] := C19_gmres_residual_norms h1 h2 (leq_ltn_trans hij hj).
have [z' [_ -> k3]] := C19_gmres_residual_norms h1 h2 hj.
rewrite ler_wpmul2r ?k3 //; last exact: (span_widen hij).
by rewrite invr_ge0 sqrtC_ge0; apply: (ip_ge0' (lmip hl)).
Qed.

(** C28.  For an injective Ml A Mr and maxiter >= N the constructor returns: neither
    ConvergenceError, nor any other exception, nor a division by zero, after at most N
    iterations; the tolerance is reached unless the iteration was stopped because
    0 < H_(n,n-1) <= 1e-14 ||H||. *)
Theorem C28_gmres_finite_partial : injective_op (lMlAMr l) -> bounds_entries snorm ->
  lMl l (lb l) <> 0 -> (N <= o_maxiter o)%N -> 0 <= o_tol o ->
  exists2 s, gmres_solve snorm l o ortho x0 = Returns s &
    (a_iter (st s) <= N)%N /\
    (last 0 (s_res s) <= o_tol o \/
     exists k, a_iter (st s) = k.+1 /\
       0 < a_H (st s) k.+1 k <= (10%:R ^+ 14)^-1 * snorm k.+2 k.+1 (a_H (st s))).
Proof.
move=> inj hb /eqP nb hm tol0.
have N0 : (0 < N)%N.
  case: (posnP N) => // e; exfalso; move/negP: nb; apply; apply/eqP/matrixP => i.
  by case: i => i hi; exfalso; rewrite e in hi.
rewrite /gmres_solve (bnorm_ok hl) /=.
apply: (gmres_finite (lsys_kd hl x0) (lsys_cfg hl _ _ ho) (fun _ z _ => inj z) hb) => //=.
  by rewrite lt_def rhs_norm_eq0 // nb sqrtC_ge0; apply: (ip_ge0' (lmip hl)).
move=> en y; case: (lexact l) => // e [<-].
by rewrite norm_ip; [eexists|exact: lo_B hl].
Qed.

(** If no such near-breakdown occurs, every tolerance is reached. *)
Theorem C28_gmres_converges : injective_op (lMlAMr l) -> bounds_entries snorm ->
  lMl l (lb l) <> 0 -> (N <= o_maxiter o)%N -> 0 <= o_tol o ->
  (forall s k, gmres_solve snorm l o ortho x0 = Returns s -> a_iter (st s) = k.+1 ->
     a_H (st s) k.+1 k <> 0 -> ~ (a_H (st s) k.+1 k <= (10%:R ^+ 14)^-1 * snorm k.+2 k.+1 (a_H (st s)))) ->
  exists2 s, gmres_solve snorm l o ortho x0 = Returns s &
    (a_iter (st s) <= N)%N /\
    exists2 xk, s_xk s = Some xk & resid_norm l xk <= o_tol o * rhs_norm l.
Proof.
move=> inj hb nb hm tol0 hn; have [s E [h1 h2]] := C28_gmres_finite_partial inj hb nb hm tol0.
exists s => //; split=> //.
have [||_ [xk ex el]] := @C19_gmres_last_norm s; [by []|by left|].
exists xk => //; case: h2 => [|[k [ek /andP[k1 k2]]]]; last first.
  by case: (hn s k E ek) => //; apply/eqP; rewrite gt_eqF.
rewrite el ler_pdivr_mulr // lt_def rhs_norm_eq0 //; move/eqP: nb => ->.
by rewrite sqrtC_ge0; apply: (ip_ge0' (lmip hl)).
Qed.
End Run.
End Properties.

(** A concrete system: A = [[0,1],[1,0]] with scaled preconditioners, b = e_0. *)
Section Example.
Variable C : numClosedFieldType.
Definition ex_M (house : bool) : option ('cV[C]_2 -> 'cV[C]_2) :=
  if house then None else Some (fun x => 5%:R *: x).
Definition ex_lsys (house : bool) : lsys C 2 :=
  LSys (@swap_op C) (e0 C) (ex_M house) (fun x => 2%:R *: x) (fun x => 3%:R *: x) IpNone None.

Lemma scale_lin (a : C) n : is_linear (fun x : 'cV[C]_n => a *: x).
Proof. by move=> b x y; rewrite scalerDr !scalerA mulrC. Qed.

Lemma scale_sa (a : C) n : a^* = a -> self_adjoint (ip1 (@IpNone C n)) (fun x => a *: x).
Proof.
have hip := valid_is_ip (B := @IpNone C n) I.
by move=> ea x y; rewrite (ipZl hip) (ipZr hip) ea.
Qed.

Lemma ex_ok h : lsys_ok (ex_lsys h).
Proof.
have hip := valid_is_ip (B := @IpNone C 2) I.
have [p1 p2 p3] : [/\ is_linear (lMop (ex_lsys h)), self_adjoint (ip1 (@IpNone C 2)) (lMop (ex_lsys h)) &
    pos_def (ip1 (@IpNone C 2)) (lMop (ex_lsys h))].
  case: h; split; rewrite /lMop /=.
  - by [].
  - by [].
  - by move=> x; apply: ip_pos.
  - exact: scale_lin.
  - by apply: scale_sa; rewrite conjC_nat.
  - by move=> x x0; rewrite (ipZr hip) mulr_gt0 ?ltr0n // ip_pos.
split=> //=; try exact: swap_lin; exact: scale_lin.
Qed.

Lemma ex_ortho (h : bool) o : o <> OrthoOther -> (o = Householder -> h) -> ortho_ok (ex_lsys h) o.
Proof.
case: o => //= _; last by case: h => // /(_ erefl).
move=> _ x y; rewrite /lMlAMr /=.
have hip := valid_is_ip (B := @IpNone C 2) I.
rewrite !(linZ (@swap_lin C)) !(ipZl hip) !(ipZr hip) !conjC_nat.
by rewrite swap_sa.
Qed.

Lemma ex_nz h : lMl (ex_lsys h) (lb (ex_lsys h)) <> 0.
Proof. by apply/eqP; rewrite scaler_eq0 negb_or e0_nz pnatr_eq0. Qed.

Lemma swap_inj : injective_op (@swap_op C).
Proof.
move=> x h; have : swap_op (swap_op x) = 0 by rewrite h (lin0 (@swap_lin C)).
rewrite /swap_op mulmxA; suff -> : swap_mx C *m swap_mx C = 1%:M by rewrite mul1mx.
apply/matrixP => i j; rewrite !mxE big_ord_recl big_ord1 !mxE.
by case: i => -[|[|//]] hi; case: j => -[|[|//]] hj; rewrite !(mul0r, mulr0, mulr1, addr0, add0r).
Qed.

Lemma ex_inj h : injective_op (lMlAMr (ex_lsys h)).
Proof.
move=> x /eqP; rewrite /lMlAMr /= scaler_eq0 pnatr_eq0 /= => /eqP/swap_inj/eqP.
by rewrite scaler_eq0 pnatr_eq0 /= => /eqP.
Qed.

Example C19_C28_run o (h : bool) tol : o <> OrthoOther -> (o = Householder -> h) -> 0 <= tol ->
  exists2 s, gmres_solve (@frob C) (ex_lsys h) (Opts tol 2 false) o (Some (e1 C)) = Returns s &
    (a_iter (gm_a (s_st s)) <= 2)%N.
Proof.
move=> h1 h2 ht; have [||s E [h3 _]] := @C28_gmres_finite_partial C 2 (@frob C) (ex_lsys h) (Opts tol 2 false) o
  (Some (e1 C)) (ex_ok h) (ex_ortho h1 h2) (@ex_inj h) (@frob_bounds C) (@ex_nz h) => //.
by exists s.
Qed.

Example C26_zero_rhs_run : exists2 s,
  gmres_solve (@frob C) (LSys (@swap_op C) 0 None id id IpNone None) (Opts 0 2 false) Mgs (Some (e1 C)) = Returns s &
    [/\ s_xk s = Some 0, s_x0 s = 0 & s_res s = [:: 0]].
Proof.
apply: C26_gmres_zero_rhs => //.
split=> //=; first exact: swap_lin.
by move=> x; apply: ip_pos; apply: (valid_is_ip (B := @IpNone C 2)).
Qed.
End Example.

(** The near-breakdown test can stop the iteration with a useless approximation and no
    exception: A = [[0,0,1],[1,0,0],[0,1e-15,0]], b = e_0.  The residual norm is still
    that of x = 0 after the last iteration. *)
Section Premature.
Variable C : numClosedFieldType.
Local Notation vec := 'cV[C]_3.
Let ip := ip1 (@IpNone C 3).
Definition dlt : C := (10%:R ^+ 15)^-1.
Definition cyc_mx : 'M[C]_3 := \matrix_(i, j)
  (if ((i == 1) && (j == 0 :> 'I_3)) || ((i == 0) && (j == 2%:R :> 'I_3)) then 1
   else if (i == 2%:R) && (j == 1) then dlt else 0).
Definition cyc (x : vec) : vec := cyc_mx *m x.
Definition cyc_lsys : lsys C 3 := LSys cyc (delta_mx 0 0) None id id IpNone None.

Let hip : is_ip ip := valid_is_ip (B := @IpNone C 3) I.

Lemma ip3 (x y : vec) : ip x y = \sum_i (x i 0)^* * y i 0.
Proof. by rewrite /ip /ip1 /= tconjE !mxE; apply: eq_bigr => i _; rewrite !mxE. Qed.

Lemma ip_delta (i j : 'I_3) : ip (delta_mx i 0) (delta_mx j 0) = (i == j)%:R.
Proof.
rewrite ip3 (bigD1 i) //= big1 => [|k /negbTE h]; last by rewrite !mxE h /= conjC0 mul0r.
by rewrite !mxE !eqxx conjC1 mul1r addr0 andbT.
Qed.

Lemma cyc_delta (j : 'I_3) : cyc (delta_mx j 0) = col j cyc_mx.
Proof. by apply/matrixP => i k; rewrite (ord1 k) !mxE (bigD1 j) //= big1 ?mxE ?eqxx ?mulr1 ?addr0 // => i' /negbTE h; rewrite !mxE h mulr0. Qed.

Lemma cyc0 : cyc (delta_mx 0 0) = delta_mx 1 0.
Proof. by rewrite cyc_delta; apply/matrixP => i k; rewrite (ord1 k) !mxE; case: i => -[|[|[|//]]]. Qed.
Lemma cyc1 : cyc (delta_mx 1 0) = dlt *: delta_mx 2%:R 0.
Proof. by rewrite cyc_delta; apply/matrixP => i k; rewrite (ord1 k) !mxE; case: i => -[|[|[|//]]] hi /=; rewrite ?(mulr0, mulr1). Qed.

Lemma dlt_gt0 : 0 < dlt.
Proof. by rewrite invr_gt0 exprn_gt0 // ltr0n. Qed.

Lemma cyc_lin : is_linear cyc.
Proof. exact: lin_mx. Qed.

Lemma cyc_ok : lsys_ok cyc_lsys.
Proof. by split=> //=; [exact: cyc_lin|move=> x; apply: ip_pos]. Qed.

Lemma cyc_inj : injective_op cyc.
Proof.
move=> x /matrixP h; have e2 : x 2%:R 0 = 0.
  by have := h 0 0; rewrite !mxE !big_ord_recr big_ord0 /= !mxE /= !mul0r !mul1r !add0r => <-; congr (x _ _); apply: val_inj.
have e0 : x 0 0 = 0.
  by have := h 1 0; rewrite !mxE !big_ord_recr big_ord0 /= !mxE /= !mul0r !mul1r !addr0 !add0r => <-; congr (x _ _); apply: val_inj.
have e1 : x 1 0 = 0.
  have := h 2%:R 0; rewrite !mxE !big_ord_recr big_ord0 /= !mxE /= !mul0r !addr0 !add0r => /eqP.
  by rewrite mulf_eq0 (gt_eqF dlt_gt0) /= => /eqP <-; congr (x _ _); apply: val_inj.
apply/matrixP => i j; rewrite ord1 mxE; case: i => -[|[|[|//]]] hi.
- by rewrite -e0; congr (x _ _); apply: val_inj.
- by rewrite -e1; congr (x _ _); apply: val_inj.
- by rewrite -e2; congr (x _ _); apply: val_inj.
Qed.

Local Notation d := (kdata_lsys cyc_lsys (rhs_norm cyc_lsys)).
Local Notation inv := (gm_inv d None (delta_mx 0 0) 3 (@frob C) Mgs).

Lemma mnorm1 : mnorm ip id (delta_mx 0 0 : vec) = 1.
Proof. by rewrite /mnorm ip_delta sqrtC1. Qed.

(** The first two basis vectors and columns of H. *)
Lemma cyc_rel n m V P H : arnoldi_rel ip cyc id (delta_mx 0 0) n m V P H -> (n <= m)%N ->
  (0 < n)%N -> [/\ V 0%N = delta_mx 0 0, H 0%N 0%N = 0, H 1%N 0%N = 1 &
     (1 < n)%N -> [/\ V 1%N = delta_mx 1 0, H 0%N 1%N = 0, H 1%N 1%N = 0 & H 2%N 1%N = dlt]].
Proof.
move=> R nm n0; have m0 := leq_trans n0 nm.
have hid : is_linear (id : vec -> vec) by [].
have hsa : self_adjoint ip id by [].
have hpd : pos_def ip id by move=> x; apply: ip_pos.
have V0 : V 0%N = delta_mx 0 0.
  rewrite (ar_V R m0); have := ar_first R m0; rewrite -[ipnorm _ _]/(mnorm ip id _) mnorm1 scale1r.
  by move=> <-.
have H00 : H 0%N 0%N = 0 by rewrite (rel_entry hip hid hsa hpd R) // V0 cyc0 ip_delta.
have [w [w1 _ w3 w4]] := ar_step R n0.
move: w1; rewrite big_ord1 H00 scale0r add0r V0 cyc0 => w1.
have H10 : H 1%N 0%N = 1 by rewrite w3 -w1 /ipnorm [mip _ _ _ _]ip_delta eqxx sqrtC1.
split=> // n1; have m1 := leq_trans n1 nm.
have V1 : V 1%N = delta_mx 1 0.
  by have [ew _] := w4 m1; rewrite H10 scale1r in ew; rewrite (ar_V R m1) -ew -w1.
have H01 : H 0%N 1%N = 0 by rewrite (rel_entry hip hid hsa hpd R) // V0 V1 cyc1 (ipZr hip) ip_delta mulr0.
have H11 : H 1%N 1%N = 0 by rewrite (rel_entry hip hid hsa hpd R) // V1 cyc1 (ipZr hip) ip_delta mulr0.
have [u [u1 _ u3 _]] := ar_step R n1.
move: u1; rewrite big_ord_recl big_ord1 H01 H11 !scale0r !add0r V1 cyc1 => u1.
split=> //; rewrite u3 -u1 (ipnormZ hip) /ipnorm ip_delta eqxx sqrtC1 mulr1.
by rewrite gtr0_norm // dlt_gt0.
Qed.

Lemma cyc_inv2 t : inv t -> a_iter (gm_a t) = 2%N -> a_inv (gm_a t).
Proof.
move=> h e; rewrite (gi_inv h e).
have R := gm_hm h; rewrite -[ip1 _]/ip -[k_A _]/cyc e in R.
have [||_ h1 h2 /(_ isT)[_ h3 h4 h5]] := cyc_rel R => //.
  by rewrite /ncols e leq_addr.
have h6 : a_H (gm_a t) 2 0 = 0 by rewrite (ar_hess R).
rewrite h5 /frob !big_ord_recl !big_ord0 /= h6 h1 h2 h3 h4 h5 !normr0 normr1 expr0n expr1n !(add0r, addr0).
rewrite (gtr0_norm dlt_gt0).
have h1' : 1 <= sqrtC (1 + dlt ^+ 2).
  by rewrite -[X in X <= _]sqrtC1 ler_sqrtC ?ler_addl ?nnegrE ?addr_ge0 ?exprn_ge0 ?(ltW dlt_gt0) // ?nnegrE ?ler01.
rewrite ler_pdivr_mulr ?(lt_le_trans ltr01) //; apply: le_trans (ler_wpmul2l _ h1').
  rewrite mulr1 /dlt /eps14 lef_pinv ?posrE ?exprn_gt0 ?ltr0n //.
  by rewrite ler_eexpn2l // ltr1n.
by rewrite invr_ge0 exprn_ge0 // ler0n.
Qed.

Theorem C28_premature_stop_refuted : injective_op (lMlAMr cyc_lsys) /\
  exists2 s, gmres_solve (@frob C) cyc_lsys (Opts 2%:R^-1 3 false) Mgs None = Returns s &
    last 0 (s_res s) = 1 /\ (size (s_res s) <= 3)%N.
Proof.
split; first exact: cyc_inj.
have nb : lMl cyc_lsys (lb cyc_lsys) <> 0.
  by move=> /= /matrixP/(_ 0 0)/eqP; rewrite !mxE /= oner_eq0.
have tol0 : 0 <= o_tol (Opts (2%:R^-1 : C) 3 false) by rewrite invr_ge0 ler0n.
have [||s E _] := @C28_gmres_finite_partial C 3 (@frob C) cyc_lsys (Opts 2%:R^-1 3 false) Mgs None
  cyc_ok I cyc_inj (@frob_bounds C) nb => //.
exists s => //.
have hs : of_run (gmres_solve (@frob C) cyc_lsys (Opts 2%:R^-1 3 false) Mgs None) s by left.
have rn1 : rhs_norm cyc_lsys = 1 := mnorm1.
have r0E : resid cyc_lsys 0 = delta_mx 0 0 by rewrite /resid /= (lin0 cyc_lin) subr0.
have n2 : (a_iter (gm_a (s_st s)) <= 2)%N.
  have hd := lsys_kd cyc_ok None; rewrite r0E in hd.
  have hc := lsys_cfg cyc_ok 3 (rhs_norm cyc_lsys) (ortho := Mgs) I.
  set gm := gmres (@frob C) d 3 Mgs.
  have := @run_good C vec (fun a b => b < a) (fun a b => a <= b) (fun a => a == 0)
    (fun a b => a / b) 0 (0 : vec) (lsys_sys cyc_lsys (rhs_norm cyc_lsys)) (Opts 2%:R^-1 3 false) gm None
    (gmres_good d 3 (@frob C) Mgs) (fun t => inv t /\ (a_iter (gm_a t) <= 2)%N) (fun _ _ => True).
  have -> : y_bnorm (lsys_sys cyc_lsys (rhs_norm cyc_lsys)) == 0 = false.
    by rewrite /= rn1; apply/negbTE; rewrite oner_eq0.
  move: E; rewrite /gmres_solve (bnorm_ok cyc_ok) /= /krun => ->.
  case=> //; last by move=> [].
  - move=> t Et; split; first by apply: (gm_start_inv (@frob C) hd hc Et).
    by have /= -> := gm_start (gmres_good d 3 (@frob C) Mgs) Et.
  - move=> t t' r [i1 i2] hinv _ Es; split=> //; have [j1 j2 _] := gm_step_inv hd hc i1 hinv Es.
    split=> //; rewrite j2 ltn_neqAle i2 andbT; apply/negP => /eqP /(cyc_inv2 i1).
    by rewrite hinv.
have lb z : in_krylov (lMlAMr cyc_lsys) (lMop cyc_lsys) (resid cyc_lsys 0) (a_iter (gm_a (s_st s))) z ->
    1 <= resid_norm cyc_lsys z.
  move=> hz; rewrite /resid_norm /mnorm -[X in X <= _]sqrtC1; rewrite ler_sqrtC ?nnegrE ?ler01 //; last first.
    exact: (ip_ge0' hip).
  have o : ip (delta_mx 0 0) (cyc z) = 0.
    have [c ->] := span_widen n2 hz; rewrite r0E big_ord_recl big_ord1 /= /lMlAMr /=.
    rewrite (linD cyc_lin) !(linZ cyc_lin) cyc0 cyc1 (ipDr hip) !(ipZr hip) !ip_delta /=.
    by rewrite !mulr0 addr0.
  rewrite -[X in _ <= X]/(ip (delta_mx 0 0 - cyc z) (delta_mx 0 0 - cyc z)) (pythagoras hip); last by rewrite (ipNr hip) o oppr0.
  by rewrite ip_delta eqxx ler_addl; apply: (ip_ge0' hip).
have [sz _] := C19_gmres_last_norm cyc_ok (ortho := Mgs) I nb hs.
split; last by rewrite sz.
have -> : last 0 (s_res s) = nth 0 (s_res s) (a_iter (gm_a (s_st s))).
  by rewrite (last_nth 0); case: (s_res s) sz => //= a q [->].
have [|z [k1 -> k2]] := C19_gmres_residual_norms cyc_ok (ortho := Mgs) I nb hs (i := a_iter (gm_a (s_st s))).
  by rewrite sz.
rewrite rn1 divr1; apply/eqP; rewrite eq_le add0r lb // andbT.
have := k2 0 (span0 _ _); rewrite /= !add0r => /le_trans; apply.
by rewrite /resid_norm r0E [mnorm _ _ _]mnorm1.
Qed.
End Premature.


Print Assumptions C52_get_residual.
Print Assumptions C52_zero_residual.
Print Assumptions C26_get_residual_none.
Print Assumptions C26_gmres_no_guess.
Print Assumptions C26_gmres_zero_rhs.
Print Assumptions C19_gmres_optimal.
Print Assumptions C19_gmres_residual_norms.
Print Assumptions C19_gmres_last_norm.
Print Assumptions C19_gmres_monotone.
Print Assumptions C28_gmres_finite_partial.
Print Assumptions C28_gmres_converges.
Print Assumptions C28_premature_stop_refuted.
