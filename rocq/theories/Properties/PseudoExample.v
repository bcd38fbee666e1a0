(** C69: the interval case of bound_pseudo does not return bounds.  A = [[2,1],[1,2]], b = e_0, no deflation, no
    perturbation, tol = 1/2: GMRES does one step and the residual norm is 1/sqrt 5. *)
From mathcomp Require Import all_ssreflect all_algebra perm ring complex.
From Verif Require Import Base Spec.LinAlg Proof.Algebra Model.Ritz Spec.Ritz Proof.Ritz Model.Inner Spec.Inner Proof.Inner Proof.IpTheory.
From Verif Require Import Model.Arnoldi Spec.Arnoldi Proof.Arnoldi Proof.ArnoldiRel Proof.ArnoldiAll Proof.ArnoldiExample Model.Solver Model.LinearSystem Model.Krylov Spec.Krylov.
From Verif Require Import Spec.Solver Proof.Solver Proof.SolverInv Proof.Gmres Proof.Minres Proof.LinearSystem Proof.CgTheory Proof.Cg Proof.Logged.
From Verif Require Import Model.Interval Spec.Interval Model.Poly.
From Verif Require Import Model.Projection Spec.Projection Model.Deflation Spec.Deflation.
From Verif Require Import Proof.Qr Proof.QrExist Proof.Projection Proof.Deflation Model.DeflRitz Spec.DeflRitz Proof.DeflRitz Proof.DeflRel.
From Verif Require Import Model.Arnoldifyer Spec.Arnoldifyer Proof.Arnoldifyer Properties.Arnoldifyer Spec.Measures.
From Verif Require Import Model.ResNorms Model.BoundPseudo Spec.BoundPseudo Proof.BoundPseudo Properties.BoundPseudo.
From Verif Require Import Proof.Measures Model.Pseudo Spec.Pseudo Proof.Pseudo Properties.Pseudo.
From Verif Require Properties.Solver Properties.Deflation Properties.DeflRitz Properties.Poly Properties.Cg.

Set Implicit Arguments.
Unset Strict Implicit.
Unset Printing Implicit Defensive.
Import Order.TTheory GRing.Theory Num.Theory.
Local Open Scope ring_scope.

Section Run.
Variable C : numClosedFieldType.
Local Notation ip := (ip1 (@IpNone C 2)).
Local Notation hq := (@some_qr_spec C).
Local Notation kw := Properties.Deflation.dex_kw.
Let hip := valid_is_ip (B := @IpNone C 2) I.

Definition pex_lsys : lsys C 2 := LSys (@Properties.Cg.spd_op C) (e0 C) None id id IpNone None.
Local Notation l := pex_lsys.
Local Notation U := (0 : 'M[C]_(2, 0)).

Lemma pex_ok : lsys_ok l.
Proof. have h := @Properties.Cg.spd_lin C; have hd : is_linear (@id 'cV[C]_2) by []. by split=> //; move=> x nx; exact: (ip_pos hip). Qed.

Lemma mx00_unit (X : 'M[C]_0) : X \in unitmx.
Proof. by rewrite unitmxE det_mx00 unitr1. Qed.

Lemma pex_args : defl_args (@some_qr C) l None false U kw.
Proof. by split=> //; [exists IpNone|exact: mx00_unit|move=> _ ob _; split=> -[]]. Qed.

Lemma e1_ip : ip (e1 C) (e1 C) = 1.
Proof. by rewrite /ip1 /= tconjE mxE big_ord_recl big_ord1 !ctrE !mxE /= conjC0 mul0r conjC1 mulr1 add0r. Qed.
Lemma e10_ip : ip (e1 C) (e0 C) = 0.
Proof. by rewrite (ip_conj hip) Properties.Deflation.e01_ip conjC0. Qed.
Lemma spd_e0 : Properties.Cg.spd_op (e0 C) = 2%:R *: e0 C + e1 C.
Proof. by rewrite /Properties.Cg.spd_op swap_e0. Qed.

Lemma spdZ (c : C) x : Properties.Cg.spd_op (c *: x) = c *: Properties.Cg.spd_op x.
Proof. by rewrite /Properties.Cg.spd_op /swap_op -scalemxAr scalerDr !scalerA mulrC. Qed.
Lemma pex_res0 : resid l 0 = e0 C.
Proof. by rewrite /resid /= -(scale0r 0) spdZ scale0r subr0. Qed.

Lemma ip01 (a b c d : C) : ip (a *: e0 C + b *: e1 C) (c *: e0 C + d *: e1 C) = conjC a * c + conjC b * d.
Proof.
rewrite !(ipDl hip) !(ipDr hip) !(ipZl hip) !(ipZr hip) Properties.Deflation.e0_ip Properties.Deflation.e01_ip e1_ip e10_ip.
by rewrite !mulr0 !mulr1 addr0 add0r.
Qed.

Lemma pex_nz : lMl l (lb l) <> 0. Proof. by apply/eqP; exact: e0_nz. Qed.
Lemma pex_rhs : rhs_norm l = 1.
Proof. by rewrite /rhs_norm /mnorm /= Properties.Deflation.e0_ip sqrtC1. Qed.

Lemma pex_inj : injective_op (lMlAMr l).
Proof.
move=> x h; apply/eqP; apply/negPn/negP => /(@Properties.Cg.spd_pd C).
by rewrite -[Properties.Cg.spd_op x]/(lMlAMr l x) h (ipr0 hip) ltxx.
Qed.

Lemma pex_res c : resid_norm l (c *: e0 C) = sqrtC (5%:R^-1 + `|5%:R * c - 2%:R| ^+ 2 / 5%:R).
Proof.
rewrite /resid_norm /mnorm /= /resid /=; congr sqrtC.
have -> : e0 C - Properties.Cg.spd_op (c *: e0 C) = (1 - 2%:R * c) *: e0 C + (- c) *: e1 C.
  by rewrite spdZ spd_e0 scalerDr scalerA opprD addrA scaleNr scalerBl scale1r [c * _]mulrC.
rewrite ip01 normCK !rmorphN !rmorphB !rmorphM rmorph1 !conjC_nat.
have n5 : 5%:R != 0 :> C by rewrite pnatr_eq0.
by field.
Qed.

Local Notation P := (defl_P (lB l) (lMlAMr l) U).
Local Notation M := (lMop l).
Local Notation K := (in_krylov (fun v => P (lMlAMr l v)) (lMop l) (P (resid l (x0_of None)))).
Lemma mul0c n (X : 'M[C]_(n, 0)) k (Y : 'M[C]_(0, k)) : X *m Y = 0.
Proof. by apply/matrixP => i j; rewrite !mxE big_ord0. Qed.
Lemma pex_P x : P x = x.
Proof. by rewrite /defl_P -mulmxA mul0c subr0. Qed.
Lemma pex_K1 z : K 1 z <-> exists c, z = c *: e0 C.
Proof.
rewrite /in_krylov /in_span; split=> [[c]|[c ->]].
  by rewrite big_ord1 /krylov /= pex_P /resid /= /Properties.Cg.spd_op scaler0 add0r /swap_op mulmx0 subr0; exists (c 0%N).
by exists (fun _ => c); rewrite big_ord1 /krylov /= pex_P /resid /= /Properties.Cg.spd_op scaler0 add0r /swap_op mulmx0 subr0.
Qed.

(** The run: one step, the space is not invariant. *)
Lemma pex_run : exists ob s, let a := gm_a (s_st s).1 in let b := arn_byprod l true ob a (s_st s).2 in
  [/\ mk_oblique (@some_qr C) l None false U kw = Ok ob,
      deflated_gmres (@some_qr C) (@frob C) l None false U kw (Opts 2%:R^-1 2 false) Mgs None = Returns s,
      (a_iter a = 1 /\ arn_rows a = 2)%N, size (s_res s) = 2%N /\ nth 0 (s_res s) 1 = sqrtC 5%:R^-1
    & Properties.DeflRitz.rel_ok l U None (@IpNone C 2) ob b True].
Proof.
have mr (c : 'cV[C]_0) : lMr l (U *m c) = U *m c by [].
have sa : true -> self_adjoint (ip1 (lB l)) (lMlAMr l) by move=> _; exact: Properties.Cg.spd_sa.
have [ob hob] := oblique_total hq pex_ok pex_args.
have t0 : 0 <= 2%:R^-1 :> C by rewrite invr_ge0 ler0n.
have n5 : 0 < 5%:R :> C by rewrite ltr0n.
have [//|//|s E [_ hc]] := Properties.Deflation.C29_gmres_finite (o := Opts 2%:R^-1 2 false) (ortho := Mgs) hq pex_ok pex_args mr None I
  pex_inj (@frob_bounds C) pex_nz.
have R := Properties.DeflRitz.C31_gmres hq pex_ok pex_args (erefl : get_ip_Minv_B l None = Ok IpNone) I
  (fun x y => erefl) (fun i => match i with Ordinal _ h => match Bool.diff_false_true h with end end) sa mr pex_nz hob (I : ortho_ok l Mgs) (or_introl E).
exists ob, s; rewrite /= in R *; set a := gm_a (s_st s).1 in hc R *.
have [_ sz hr] := Properties.Deflation.C29_gmres_optimal hq pex_ok pex_args mr (I : ortho_ok l Mgs) pex_nz (or_introl E).
rewrite -/a in sz hr.
have r0 : nth 0 (s_res s) 0 = 1.
  have [xi [_ [z [c [-> [cc] + _]]]] ->] := hr 0%N isT; rewrite big_ord0 => ->.
  rewrite pex_rhs divr1 mul0c addr0 /= addr0 -[0 : 'cV[C]_2](scale0r (e0 C)) pex_res mulr0 sub0r normrN normr_nat.
  by rewrite (_ : _ + _ = 1) ?sqrtC1 //; have n5' := lt0r_neq0 n5; field.
have r1 : (0 < a_iter a)%N -> nth 0 (s_res s) 1 = sqrtC 5%:R^-1.
  move=> i0; have [xi [_ [z [c [ex Kz hmin]]]] ->] := hr 1%N i0; rewrite pex_rhs divr1.
  have /pex_K1[t et] := Kz; have ex' : xi = t *: e0 C by rewrite ex mul0c addr0 /= add0r et.
  have := hmin ((2%:R / 5%:R) *: e0 C) 0; rewrite mul0c addr0 /= add0r; case/(_ _ _)/Wrap.
  - by apply/pex_K1; eexists.
  - by apply/matrixP => -[].
  rewrite ex' !pex_res [5%:R * (_ / _)]mulrC divfK ?(lt0r_neq0 n5) // subrr normr0 expr0n mul0r addr0 => h.
  have pos : 0 <= 5%:R^-1 + `|5%:R * t - 2%:R| ^+ 2 / 5%:R.
    by rewrite addr_ge0 ?divr_ge0 ?exprn_ge0 // ?invr_ge0 ltW.
  apply/eqP; rewrite eq_le h ler_sqrtC ?nnegrE ?invr_ge0 ?(ltW n5) // ler_addl.
  by rewrite divr_ge0 ?exprn_ge0 // ltW.
have acc i : (i < a_iter a)%N -> 2%:R^-1 < nth 0 (s_res s) i.
  move: (E); rewrite /deflated_gmres (bnorm_ok pex_ok) /bindO hob => E0.
  have [x [_ [hh _]]] := Properties.Solver.C24_accounting (logged_good _ _ (gmres_good _ _ _ _)) E0.
  exact: (h_gt hh).
have i1 : a_iter a = 1%N.
  case ei: (a_iter a) => [|[|i]] //; exfalso.
    case: hc => [|[j [ej _]]]; last by rewrite ei in ej.
    rewrite -nth_last sz ei /= r0 => h; have : 1 < 1 :> C by apply: le_lt_trans h _; rewrite invf_lt1 ?ltr0n // ltr1n.
    by rewrite ltxx.
  have := acc 1%N; rewrite ei r1 ?ei // => /(_ isT) h; have : 2%:R^-1 ^+ 2 < 5%:R^-1 :> C.
    by rewrite -[X in _ < X]sqrtCK ltr_pexpn2r ?nnegrE // sqrtC_ge0 invr_ge0 ltW.
  by rewrite exprVn -natrX ltf_pinv ?posrE ?ltr0n // ltr_nat.
have inv : a_inv a = false.
  move: (E); rewrite /deflated_gmres (bnorm_ok pex_ok) /bindO hob => E0.
  have hs := @unlog_of C 2 _ (gmres (@frob C) (d_kdata l ob) 2 Mgs) _ _ _ _ _ s (or_introl E0).
  have bn : y_bnorm (lsys_sys l (rhs_norm l)) != 0 by rewrite /= pex_rhs oner_neq0.
  have [hi _ _ _] := gmres_run (defl_kd hq pex_ok pex_args hob mr None) (defl_cfg hq pex_ok pex_args hob _ (I : ortho_ok l Mgs)) bn hs.
  have := gi_inv hi i1; rewrite -/a => ->; have rel := gm_hm hi; rewrite -/a in rel.
  have p1 : (0 < ncols a)%N by rewrite /ncols i1.
  have i0 : (0 < a_iter a)%N by rewrite i1.
  have [w [h1 h2 h3 _]] := ar_step rel i0; have hV := ar_V rel p1; have hf := ar_first rel p1.
  set p := Pb _ a in h1 hV hf; have re0 : Pd l ob (resid l (x0_of None)) = e0 C.
    rewrite (PdE pex_ok pex_args hob) pex_P /resid /= /Properties.Cg.spd_op scaler0 add0r /swap_op mulmx0 subr0 //.
  have p0 : p 0%N = e0 C.
    move: hf; rewrite re0 /ipnorm /mip /= Properties.Deflation.e0_ip sqrtC1 scale1r => <- //.
  have V0 : a_V a 0%N = e0 C by rewrite hV p0.
  move: h1; rewrite big_ord1 V0 p0 /= (d_opE hq pex_ok pex_args hob) /dop (PdE pex_ok pex_args hob) pex_P -[lMlAMr l _]/(Properties.Cg.spd_op _) spd_e0 => h1.
  have h2' : ip (e0 C) w = 0 by rewrite -V0; apply: (h2 0%N).
  have H0 : a_H a 0%N 0%N = 2%:R.
    have := congr1 (ip (e0 C)) h1; rewrite !(ipDr hip) !(ipZr hip) Properties.Deflation.e0_ip Properties.Deflation.e01_ip h2' !addr0 !mulr1 => -> //.
  have w1 : w = e1 C by move: h1; rewrite H0 => /addrI <-.
  have H1 : a_H a 1%N 0%N = 1 by rewrite h3 w1 /ipnorm /mip /= e1_ip sqrtC1.
  rewrite /frob big_ord_recl big_ord1 !big_ord1 /= H0 H1 normr_nat normr1 expr1n mul1r; apply: lt_geF.
  have x0 : 0 < 2%:R ^+ 2 + 1 :> C by rewrite addr_gt0 ?exprn_gt0 ?ltr0n // ltr01.
  rewrite ltf_pinv ?posrE ?exprn_gt0 ?sqrtC_gt0 ?ltr0n //.
  apply: lt_le_trans (_ : 10%:R <= _); last by rewrite ler_eexpr ?ler1n.
  rewrite -(@ltr_pexpn2r _ 2) ?nnegrE ?sqrtC_ge0 ?ler0n ?(ltW x0) // sqrtCK.
  by rewrite -!natrX -[1]/(1%:R) -natrD ltr_nat.
have rE : arn_rows a = 2%N by rewrite /arn_rows /arn_get inv i1.
split=> //; first by rewrite sz i1 r1 ?i1.
case: R => hn [W [R1 R2 R3 R4 R5]]; exists hn, W; split=> // _; apply: R3; by left.
Qed.

(** The results of the Arnoldifyer: Hh = 2, Rh is an isometry, q_norm = 1, vdiff_norm = 0, PWAW_norm = 1. *)
Local Notation noW n := (0 : 'M[C]_(n + 0, 0)).
Lemma pex_data (fqr : forall n k, 'M[C]_(n, k) -> 'M[C]_n)
    (pqr : forall n k, 'M[C]_(n, k) -> 'M[C]_(n, minn n k) * 'M[C]_(minn n k, k) * {perm 'I_k})
    (hess : forall n, 'M[C]_n -> 'M[C]_n * 'M[C]_n) (nrm2 smin : forall n, 'M[C]_n -> C) ob n_ n (b : byprod C 2 n_ n 0) v w r0norm :
  mk_oblique (@some_qr C) l None false U kw = Ok ob -> Properties.DeflRitz.rel_ok l U None (@IpNone C 2) ob b True ->
  (n_ = 2 /\ n = 1)%N -> fqr_ok (noW n) (fqr _ _ (noW n)) -> (forall A : 'M[C]_1, hess_ok A (hess _ A).1 (hess _ A).2) ->
  d_res0 l ob None = Ok (v, w, r0norm) ->
  exists a g, [/\ mk_arnf (@some_qr C) pqr nrm2 l None ob b = Ok a,
    arnf_get (@some_qr C) fqr hess smin l None ob b a r0norm (d_UMlr l ob None) (noW n) 0 = Ok g,
    ag_Hh g = 2%:R%:M, forall c, ipnorm (@ipE C _) (ag_Rh g *m c) = ipnorm (@ipE C 1) c
  & [/\ ag_q g = 1, ag_vdiff g = 0, ag_PWAW g = 1 & (0 < n_ - n + af_l a)%N]].
Proof.
move=> hob R [e2 e1'] hf hh hres; have mr (c : 'cV[C]_0) : lMr l (U *m c) = U *m c by [].
have ar := C56_attributes (fqr := fqr) (pqr := pqr) (hess := hess) (nrm2 := nrm2) (smin := smin) hq pex_ok pex_args
  (erefl : get_ip_Minv_B l None = Ok IpNone) mr hob R I.
have [|||||a [g [ea eg [l1 l2 l3 l4 l5 l6 _ _ _] [al [d [al1 q0 hst hv]]] [hp1 [z z0 hz]]]]] := ar _ _ 0%N 0%N (noW n) v w r0norm _ _ hf hh _ hres => //.
- by rewrite e2.
- by rewrite e1'.
- exact: mx00_unit.
have Pw x : defl_P IpNone (fun x => lMop l (lMlAMr l x)) (dbasis ob b *m noW n) x = x.
  by rewrite /defl_P -mulmxA mul0c subr0.
have KE y : K n y <-> exists c, y = c *: e0 C by rewrite e1'; exact: pex_K1.
pose x1 := col 0 (ag_Vh g); have Vc (c : 'cV[C]_1) : ag_Vh g *m c = c 0 0 *: x1.
  by apply/matrixP => i j; rewrite !mxE big_ord1 !ord1 mulrC.
have [u xu] : exists u, x1 = u *: e0 C.
  have /l2[[y [c [/KE[t ->] ->]]] _] : exists c, x1 = ag_Vh g *m c by exists 1%:M; rewrite mulmx1 /x1 col_id.
  by exists t; rewrite mul0c addr0.
have xx : ip x1 x1 = 1.
  have := congr1 (fun X : 'M[C]_1 => X 0 0) l1; rewrite (inner_entry (B := @IpNone C 2) I) => ->; by rewrite mxE.
have uu : u^* * u = 1 by move: xx; rewrite xu (ipZl hip) (ipZr hip) Properties.Deflation.e0_ip mulr1.
have u0 : u != 0 by apply: contraTneq isT => e; move/eqP: uu; rewrite e mulr0 eq_sym oner_eq0.
have Ax : lMlAMr l x1 = 2%:R *: x1 + u *: e1 C.
  by rewrite /lMlAMr /= {1}xu spdZ spd_e0 scalerDr xu !scalerA mulrC.
have rel : 2%:R *: x1 + u *: e1 C = ag_Hh g 0 0 *: x1 + af_Z a *m ag_Rh g.
  have <- : imcols (fun x => defl_P IpNone (fun x => M (lMlAMr l x)) (dbasis ob b *m noW n) (M (lMlAMr l x))) (ag_Vh g) = 2%:R *: x1 + u *: e1 C.
    by rewrite -Ax; apply/matrixP => i j; rewrite mxE Pw ord1.
  by rewrite l6; congr (_ + _); apply/matrixP => i j; rewrite !mxE big_ord1 !ord1 mulrC.
have Zx y : ip x1 (af_Z a *m y) = 0.
  have := congr1 (fun X : 'M[C]_(1, _) => X *m y) l5; rewrite -(innerMr (B := @IpNone C 2) I) mul0mx => /matrixP/(_ 0 0).
  by rewrite (inner_entry (B := @IpNone C 2) I) [RHS]mxE [col 0 (_ *m y)]col_id.
have hH : ag_Hh g 0 0 = 2%:R.
  have := congr1 (ip x1) rel; rewrite !(ipDr hip) !(ipZr hip) xx Zx xu (ipZl hip) Properties.Deflation.e01_ip !mulr0 !addr0 !mulr1; by move=> ->.
have ZR : af_Z a *m ag_Rh g = u *: e1 C by move: rel; rewrite hH => /addrI <-.
have eR : M (resid l (x0_of None)) = e0 C.
  exact: pex_res0.
exists a, g; split=> //.
- by apply/matrixP => i j; rewrite !ord1 hH !mxE eqxx mulr1n.
- move=> c; have -> : ipnorm (@ipE C _) (ag_Rh g *m c) = ipnorm ip (af_Z a *m (ag_Rh g *m c)).
    rewrite /ipnorm [ip _ _]ip1X (innerMl (B := @IpNone C 2) I) (innerMr (B := @IpNone C 2) I) l4 mul1mx //.
  rewrite mulmxA ZR.
  have -> : (u *: e1 C) *m c = (c 0 0 * u) *: e1 C.
    by apply/matrixP => i j; rewrite !mxE big_ord1 !mxE !ord1 mulrC mulrA.
  rewrite /ipnorm (ipZl hip) (ipZr hip) e1_ip mulr1 rmorphM mulrACA [u^* * u]uu mulr1.
  by rewrite /ipE mxE big_ord1 ctrE.
have Zd : af_Z a *m d = 0 /\ al * ag_q g = u^-1.
  move: hst; rewrite Pw eR -/x1 => hst; have := congr1 (ip x1) hst.
  rewrite (ipDr hip) (ipZr hip) xx Zx addr0 mulr1 {1}xu (ipZl hip) Properties.Deflation.e0_ip mulr1 => e.
  have e' : al * ag_q g = u^-1 by rewrite -e -[LHS]mulr1 -(divff u0) mulrA uu mul1r.
  split=> //; apply/(addrI (e0 C)); rewrite {1}[e0 C](_ : _ = (al * ag_q g) *: x1) -?hst ?addr0 //.
  by rewrite e' xu scalerA mulVf // scale1r.
have n1 : `|u| = 1 by apply/eqP; rewrite -(@eqr_expn2 _ 2) ?normr_ge0 ?ler01 // normCK mulrC uu expr1n.
case: Zd => Zd ed; split.
- by rewrite -(ger0_norm q0) -[LHS]mul1r -al1 -normrM ed normfV n1 invr1.
- by rewrite hv Zd /ipnorm (ipl0 hip) sqrtC0.
- apply/eqP; rewrite -subr_eq0; have zn : ipnorm ip z != 0 by rewrite (ipnorm_eq0 hip).
  by rewrite -(mulIr_eq0 _ (mulIf zn)) mulrBl mul1r -hz Pw subrr.
by apply: ltn_addr; rewrite e2 e1'.
Qed.
End Run.

Section Bound.
Local Open Scope complex_scope.
Variable R : rcfType.
Local Notation C := [numClosedFieldType of R[i]].
Local Notation re := (@complex.Re R).
Local Notation l := (pex_lsys C).
Local Notation U := (0 : 'M[C]_(2, 0)).
Local Notation kw := Properties.Deflation.dex_kw.
Variable pi : R.
Hypothesis pi3 : 3%:R < pi.
Variable argsort : seq C -> seq nat.
Hypothesis hargsort : Properties.Poly.argsort_perm argsort.
Variable eigs : forall n, 'M[C]_n -> seq C.
Hypothesis heigs : forall n (A : 'M[C]_n), spectrum A (eigs A).
Variable eigh : forall n, 'M[C]_n -> seq R.
Variable gev : forall n, 'M[C]_n -> 'M[C]_n -> seq C.
Hypothesis hgev : gev_ok gev.
Variable nrm : forall p q, 'M[C]_(p, q) -> R.
Hypothesis hnrm : forall p q (X : 'M[C]_(p, q)), (0 < p)%N -> (0 < q)%N -> block_norm (@ipE C p) X (nrm X)%:C.
Variable evcond : forall n, 'M[C]_n -> R.
Variable nonnormal_paths : forall n, 'M[C]_n -> R -> R -> R -> R * seq C.
Variable normal_paths : seq C -> R -> R * seq C.
Variable pick : (R -> res R) -> R -> R -> nat -> R.
Variable proots : {poly R} -> seq R.
Hypothesis hproots : forall (q : {poly R}) y, q != 0 -> root q y -> y \in proots q.
Variable orders : nat -> itvs R -> itvs R.
Hypothesis horders : forall n, some_order (orders n).
Variable fqr : forall n k, 'M[C]_(n, k) -> 'M[C]_n.
Hypothesis hfqr : forall n k (X : 'M[C]_(n, k)), fqr_ok X (fqr X).
Variable pqr : forall n k, 'M[C]_(n, k) -> 'M[C]_(n, minn n k) * 'M[C]_(minn n k, k) * {perm 'I_k}.
Variable hess : forall n, 'M[C]_n -> 'M[C]_n * 'M[C]_n.
Hypothesis hhess : forall n (A : 'M[C]_n), hess_ok A (hess A).1 (hess A).2.
Variables nrm2 smin : forall n, 'M[C]_n -> C.

(** The minimisation finds an argument in the range, and one in its upper half if the function decreases. *)
Variable dn : nat.
Hypothesis dn0 : (0 < dn)%N.
Hypothesis hpick : forall f lo hi, lo <= hi -> lo <= pick f lo hi dn <= hi.
Hypothesis hmin : forall f lo hi, lo <= hi ->
  (forall d d', lo <= d -> d <= d' -> d' <= hi -> exists v v', [/\ f d = Ok v, f d' = Ok v' & v' <= v]) -> hi / 2%:R <= pick f lo hi dn.

Lemma spec1 (X : 'M[C]_1) x : x \in eigs X -> x = X 0 0.
Proof.
have h : char_poly X = \prod_(x <- eigs X) ('X - x%:P) := heigs X.
rewrite -root_prod_XsubC -h -eigenvalue_root_char => /eigenvalueP[v e v0].
have : v 0 0 * X 0 0 = x * v 0 0 by have := congr1 (fun Y : 'M[C]_1 => Y 0 0) e; rewrite !mxE big_ord1.
rewrite mulrC => /mulIf-> //; apply: contra_neq v0 => h0; apply/matrixP => i j; by rewrite !ord1 h0 mxE.
Qed.

Lemma harm1 : harm_mx (2%:R%:M : 'M[C]_1) 1 = (2%:R^-1)%:M.
Proof.
rewrite /harm_mx.
have e p q : lead p q (2%:R%:M : 'M[C]_1) = const_mx 2%:R.
  by apply/matrixP => i j; rewrite !mxE !ord1 eqxx mulr1n.
rewrite !e; change (minn 2 1) with 1%N.
have -> : (const_mx 2%:R : 'M[C]_1) = 2%:R%:M by apply/matrixP => i j; rewrite !mxE !ord1 eqxx mulr1n.
have -> : (2%:R%:M : 'M[C]_1)^h = 2%:R%:M.
  by apply/matrixP => i j; rewrite ctrE !mxE !ord1 eqxx mulr1n conjC_nat.
rewrite -scalar_mxM invmx_scalar -scalar_mxM; congr (_%:M); rewrite -natrM.
by rewrite natrM invfM mulfVK // pnatr_eq0.
Qed.

Local Notation Hm := (2%:R%:M : 'M[C]_1).
Local Notation roots := (bp_roots (@some_qr C) eigh gev false true Hm 1).

Lemma rootsE : all (fun t => t != 0) [seq re x | x <- roots] /\ forall x : R, npol [seq re x | x <- roots] x = 1 - x / 2%:R.
Proof.
have [|||nz hre hp] := bp_rootsE (@some_qr_spec C) eigh hgev (sa := true) (isT : (1 <= 1)%N) (Hh := Hm).
- move=> c e; apply/matrixP => i j; rewrite !ord1 [RHS]mxE.
  have := congr1 (fun Y : 'M[C]_(minn 2 1, 1) => Y 0 0) e; rewrite !mxE big_ord1 !mxE !ord1 eqxx mulr1n => /eqP.
  by rewrite mulf_eq0 pnatr_eq0 => /eqP.
- move=> t; rewrite harm1 => /eigenvalueP[v e v0]; right.
  have -> : t = 2%:R^-1.
    move: e; rewrite mul_mx_scalar => /eqP; rewrite -subr_eq0 -scalerBl scaler_eq0 (negbTE v0) orbF subr_eq0 => /eqP<- //.
  rewrite ger0_norm ?invr_ge0 ?ler0n // ltf_pinv ?posrE ?exprn_gt0 ?ltr0n //.
  by apply: lt_le_trans (_ : 10%:R <= _); rewrite ?ltr_nat // ler_eexpr ?ler1n.
- by move=> _; apply/matrixP => i j; rewrite ctrE !mxE !ord1 eqxx mulr1n conjC_nat.
have e := hre isT; split.
  apply/allP => t /mapP[x xr ->]; have := allP nz _ xr; apply: contra_neq => h0.
  move: xr; rewrite e => /mapP[y yr ey]; by rewrite ey; move: h0; rewrite ey => ->.
move=> x; apply: (@complexI R); rewrite -[LHS]npolR -map_comp -e hp harm1.
rewrite scale_scalar_mx det_mx11 !mxE eqxx !mulr1n.
by rewrite !(rmorphB, rmorphM, fmorphV, rmorph1, rmorph_nat).
Qed.

Let pi0 : 0 < pi. Proof. by apply: lt_trans pi3; rewrite ltr0n. Qed.

Lemma max_near (d m : R) : 0 <= d -> is_max (near [seq re x | x <- [seq (re x)%:C | x <- eigs Hm]] d) (fun x => `|npol [seq re x | x <- roots] x|) m ->
  m = d / 2%:R.
Proof.
move=> d0; have [_ hp] := rootsE; have ev x : x \in [seq re x | x <- [seq (re x)%:C | x <- eigs Hm]] -> x = 2%:R.
  move=> /mapP[y /mapP[z /spec1 -> ->] ->]; rewrite /= mxE eqxx mulr1n.
  by have := reK (2%:R : R); rewrite rmorph_nat.
have n2 : 2%:R != 0 :> R by rewrite pnatr_eq0.
have pE x : npol [seq re x | x <- roots] x = (2%:R - x) / 2%:R by rewrite hp mulrBl divff.
case=> h1 [y [e /ev -> h2] hy]; apply/eqP; rewrite eq_le; apply/andP; split.
  rewrite -hy pE normrM distrC [X in _ * X]ger0_norm ?invr_ge0 ?ler0n //; by rewrite ler_pmul2r ?invr_gt0 ?ltr0n.
have : near [seq re x | x <- [seq (re x)%:C | x <- eigs Hm]] d (2%:R + d).
  have : eigs Hm != [::] by apply: eigs_nil heigs _ _.
  case ee: (eigs Hm) => [|x s] // _; exists (re x).
    by rewrite -ee; apply/mapP; exists (re x)%:C => //; apply/mapP; exists x; rewrite // ee mem_head.
  have -> : re x = 2%:R by apply: ev; apply/mapP; exists (re x)%:C => //; apply/mapP; exists x; rewrite // ee mem_head.
  by rewrite addrC addKr ger0_norm.
move/h1; rewrite pE opprD addNKr normrM normrN ger0_norm // [X in _ * X]ger0_norm ?invr_ge0 ?ler0n //.
Qed.

Lemma valueE p (D : bp_data R 0 p) d : bd_sa D = true -> bd_q D = 1 -> bd_beta D = 0 -> bd_evals D = [seq (re x)%:C | x <- eigs Hm] ->
  1 < d -> bp_compute pi argsort proots orders D roots 1 d = Ok (d / (2%:R * pi * (d - 1))).
Proof.
move=> e1 e2 e3 e4 d1; have d0 : 0 < d := lt_trans ltr01 d1; have [nz _] := rootsE.
rewrite /bp_compute e1 e4; have [|m -> /max_near->] := hermitianE hargsort horders hproots
    (evals := [seq re x | x <- [seq (re x)%:C | x <- eigs Hm]]) (ltW d0) nz.
- by have : eigs Hm != [::] := eigs_nil heigs Hm; case: (eigs Hm).
- rewrite /= e2 e3 addr0 addr0 mulr1 div1r; congr Ok.
  have n2 : 2%:R != 0 :> R by rewrite pnatr_eq0.
  have dd : d - 1 != 0 by rewrite subr_eq0 gt_eqF.
  have nd := lt0r_neq0 d0; have np := lt0r_neq0 pi0.
  by field; rewrite nd np dd.
exact: ltW.
Qed.

Lemma minE p (D : bp_data R 0 p) : bd_sa D = true -> bd_q D = 1 -> bd_beta D = 0 -> bd_evals D = [seq (re x)%:C | x <- eigs Hm] ->
  exists2 v, bp_minimize pick (bp_compute pi argsort proots orders D roots 1) 1 (100%:R * 2%:R) dn = Ok v & v <= pi^-1.
Proof.
move=> e1 e2 e3 e4; have cE := valueE e1 e2 e3 e4; rewrite /bp_minimize mulr1; set f := bp_compute _ _ _ _ _ _ _ in cE *.
set lo := 101%:R / 100%:R; set z := dn.+1.-root _.
have lo1 : 1 < lo by rewrite ltr_pdivl_mulr ?ltr0n // mul1r ltr_nat.
have lo4 : lo <= 4%:R by rewrite ler_pdivr_mulr ?ltr0n // -natrM ler_nat.
have lo0 := lt_trans ltr01 lo1.
have [|zE z0] := @re_of R z.
  rewrite rootC_ge0 // lecR; apply: mulr_ge0; first exact: ltW.
  by rewrite exprn_ge0 // mulr_ge0 ?ler0n.
have zX : (re z) ^+ dn.+1 = lo * (100%:R * 2%:R) ^+ dn.
  by apply: (@complexI R); rewrite -[LHS]/(_%:C) rmorphX /= zE rootCK.
have z4 : 4%:R <= re z.
  rewrite -(@ler_pexpn2r _ dn.+1) ?nnegrE ?ler0n // zX.
  have -> : 100%:R * 2%:R = 50%:R * 4%:R :> R by rewrite -!natrM.
  rewrite exprMn exprS mulrA ler_pmul2r ?exprn_gt0 ?ltr0n //.
  apply: le_trans (_ : 1 * 50%:R ^+ dn <= _); last by rewrite ler_pmul2r ?exprn_gt0 ?ltr0n // ltW.
  rewrite mul1r; apply: le_trans (_ : 50%:R <= _); first by rewrite ler_nat.
  by rewrite -[X in X <= _]expr1 ler_weexpn2l // ler1n.
have lz : lo <= re z := le_trans lo4 z4.
rewrite ltNge lz /=; have /andP[p1 p2] := hpick f lz.
have dec d d' : 1 < d -> d <= d' -> d' / (2%:R * pi * (d' - 1)) <= d / (2%:R * pi * (d - 1)).
  move=> d1 dd; have d1' := lt_le_trans d1 dd.
  have a0 : 0 < 2%:R * pi * (d - 1) by rewrite !mulr_gt0 ?ltr0n ?subr_gt0.
  have a0' : 0 < 2%:R * pi * (d' - 1) by rewrite !mulr_gt0 ?ltr0n ?subr_gt0.
  rewrite ler_pdivr_mulr // mulrAC ler_pdivl_mulr // !(mulrCA _ (2%:R * pi)) ler_pmul2l ?mulr_gt0 ?ltr0n //.
  by rewrite !mulrBr !mulr1 mulrC ler_add2l ler_opp2.
have p3 : 2%:R <= pick f lo (re z) dn.
  apply: le_trans (_ : re z / 2%:R <= _); first by rewrite ler_pdivl_mulr ?ltr0n // -natrM.
  apply: hmin => // d d' h1 h2 _; exists (d / (2%:R * pi * (d - 1))), (d' / (2%:R * pi * (d' - 1))).
  have d1 := lt_le_trans lo1 h1; by rewrite !cE ?(lt_le_trans d1 h2) //; split=> //; apply: dec.
have p4 : 1 < pick f lo (re z) dn by apply: lt_le_trans p3; rewrite ltr1n.
eexists; first by rewrite cE.
apply: le_trans (dec _ _ _ p3) _; first by rewrite ltr1n.
have -> : 2%:R - 1 = 1 :> R by rewrite -[2%N]/(1 + 1)%N natrD addrK.
by rewrite mulr1 invfM mulrA divff ?mul1r // pnatr_eq0.
Qed.

Lemma loop1 pt p (D : bp_data R 0 p) y0 y1 v : pt <> PtContain -> (0 < p)%N -> nrm (mtake p 1 (bd_Rh D)) = 1 ->
  bd_cg D = false -> bd_sa D = true -> bd_Hh D = Hm -> bd_PWAW D = 1 -> bd_eta D = 0 -> bd_Gn D = 0 -> bd_dmax D = 100%:R * 2%:R ->
  bp_minimize pick (bp_compute pi argsort proots orders D roots 1) 1 (100%:R * 2%:R) (bd_dn D) = Ok v ->
  bp_loop pi argsort (@some_qr C) eigh gev nrm pick proots orders pt D 1 y0 [:: y1] = Ok [:: Num.min (y1 + v) y0].
Proof.
move=> nc p0 nR e1 e2 e3 e4 e5 e6 e7 em; rewrite loopS // np_normE p0 nR e1 e2 e3 e4 e5 e6 e7.
have e8 h : bp_eps (1 : R) 0 h 0 1 = 1 by rewrite /bp_eps mul0r addr0 mulr0 add0r oner_eq0.
rewrite (_ : true && _ = true) // {1}/bind; cbv iota beta zeta; rewrite e8 em lt_geF //; last by rewrite -natrM ltr1n.
Qed.

(** The second number that bound_pseudo returns for the system itself (no deflation vectors, no perturbation) is smaller
    than the residual norm that GMRES has recorded after one step. *)
Theorem C69_bound_refuted pt nl tf : pt <> PtOmit -> pt <> PtContain ->
  exists ob s f t bs, let a := gm_a (s_st s).1 in let b := arn_byprod l true ob a (s_st s).2 in
  [/\ mk_oblique (@some_qr C) l None false U kw = Ok ob,
      deflated_gmres (@some_qr C) (@frob C) l None false U kw (Opts 2%:R^-1 2 false) Mgs None = Returns s,
      mk_arnf (@some_qr C) pqr nrm2 l None ob b = Ok f,
      bound_pseudo_full pi argsort (@some_qr C) eigs eigh gev nrm evcond nonnormal_paths normal_paths pick proots orders fqr hess smin
        l None ob b f t (d_UMlr l ob None) pt (BpMinimal C) nl true (0 : 'M[C]_(_, 0)) 0 0 0 0 0 dn tf = Ok bs
    & size bs = 2%N /\ nth 0 bs 1 < nth 0 (s_res s) 1].
Proof.
move=> np nc; have [ob [s [hob E [i1 r2] [_ res1] rel]]] := pex_run C.
have mr (c : 'cV[C]_0) : lMr l (U *m c) = U *m c by [].
have sa : true -> self_adjoint (ip1 (lB l)) (lMlAMr l) by move=> _; exact: Properties.Cg.spd_sa.
have hres := ko_res (defl_kd (@some_qr_spec C) (pex_ok C) (pex_args C) hob mr None).
set a := gm_a (s_st s).1 in i1 r2 rel *; set b := arn_byprod l true ob a (s_st s).2 in rel *.
have [f [g [ef eg hH hR [hq hv hP p0]]]] := pex_data pqr nrm2 smin hob rel (conj r2 i1) (hfqr _) (@hhess 1) hres.
have ra : rank_args pqr nrm2 l ob b (@IpNone C 2) by [].
have n0 : (0 < arn_rows a)%N by rewrite r2.
have hkr : (0 + 1 = a_iter a + 0)%N by rewrite i1.
have hm0 : (0 < 0)%N -> forall G : 'M[C]_0, smin_ok G (smin G) by [].
have nref : ((0 < 0)%N && (smin (inner (@IpNone C 2) (dbasis ob b *m (0 : 'M[C]_(_, 0)))
   (imcols (fun x => lMop l (lMlAMr l x)) (dbasis ob b *m (0 : 'M[C]_(_, 0))))) <= (0 : R)%:C)) || (rhs_norm l <= (0 : R)%:C) = false.
  by rewrite pex_rhs /= lt_geF // ltr01.
have [f' [g' [[ef' eg'] _ _ [ares [path [me [hme sz _ eo ho]]]]]]] := core pi argsort (@some_qr_spec C) heigs eigh gev nrm evcond nonnormal_paths
  normal_paths pick proots orders (pex_ok C) (pex_args C) (erefl : get_ip_Minv_B l None = Ok IpNone) (I : valid_ip (@IpNone C 2)) (fun x y => erefl) sa mr hob
  rel I ra n0 hkr (mx00_unit _) (hfqr _) (@hhess 1) hm0 hres nl 0 dn tf (lexx 0) (lexx 0) nref.
have ff : f = f' by move: ef'; rewrite ef => -[].
subst f'; have gg : g = g' by move: eg'; rewrite eg => -[].
subst g'; rewrite hH hq hv hP in hme ho.
have me2 : me = 2%:R.
  case: hme => _ [x /mapP[y /spec1 -> ->] <-]; rewrite re_normR mxE eqxx mulr1n.
  have -> : re 2%:R = 2%:R by have := reK (2%:R : R); rewrite rmorph_nat.
  by rewrite normr_nat.
have hS : mtake _ 1 (ag_Rh g) = ag_Rh g.
  apply/matrixP => i j; rewrite mxE /mx_ent; case: insubP => [i' _ ei|]; last by rewrite ltn_ord.
  case: insubP => [j' _ ej|]; last by rewrite ltn_ord.
  by congr (ag_Rh g _ _); apply: val_inj.
have nR : nrm (ag_Rh g) = 1.
  have [h1 h2 [c c0 h3]] := hnrm (ag_Rh g) p0 isT; have cn : ipnorm (@ipE C 1) c != 0 by rewrite (ipnorm_eq0 (ipE_ip C 1)).
  apply: (@complexI R); apply: (mulIf cn); rewrite mul1r -[RHS]hR; exact/esym.
have [x0 [x1 ea]] : exists x0 x1, ares = [:: x0; x1].
  by case: ares sz {eo ho} => [|x0 [|x1 []]] // _; exists x0, x1.
rewrite ea pex_rhs subr0 in eo ho.
have d1 : 1 - (0 : R)%:C = 1 by rewrite (_ : (0 : R)%:C = 0) ?subr0.
have x10 : x1 = 0.
  have pr := C66_attributes (fqr := fqr) (pqr := pqr) (hess := hess) (nrm2 := nrm2) (smin := smin) (@some_qr_spec C) (pex_ok C) (pex_args C) (erefl : get_ip_Minv_B l None = Ok IpNone)
    (I : valid_ip (@IpNone C 2)) (fun x y => erefl) sa mr hob rel I.
  have [f'' ef'' h] := pr ra n0 0%N 0%N (0 : 'M[C]_(_, 0)) _ _ _ ((0 : R)%:C) ((0 : R)%:C) hkr (mx00_unit _) (hfqr _) (@hhess 1) hm0 hres.
  have ff : f = f'' by move: ef''; rewrite ef => -[].
  subst f''; move: h; rewrite /= pex_rhs lt_geF ?ltr01 //= eo => -[bs [<-] [[Q hQ] /(_ Q hQ)/on_last]].
  by rewrite /= d1 divr1 mulr1 => /complexI.
have := ho pt np; rewrite (negbTE (lt0n_neq0 p0)) me2; set D := BpData _ _ _ _ _ _ _ _ _ _ _ _ _ _ _.
have [|v ev v1] := @minE _ D erefl erefl _ erefl.
  by rewrite /D /= !(mul0r, mulr0, addr0).
rewrite (@loop1 _ _ D x0 x1 v) //; [|by case: (pt) nc|by rewrite -[RHS]nR -[in RHS]hS].
move=> E1; exists ob, s, f; eexists; eexists; split; [exact: hob|exact: E|exact: ef|exact: E1|].
split=> //; rewrite d1 x10 add0r res1 /= divr1.
have lt3 : (Num.min v x0)%:C < (3%:R^-1)%:C.
  rewrite ltcR; apply: le_lt_trans (_ : pi^-1 < _); first by rewrite le_minl v1.
  by rewrite ltf_pinv ?posrE ?ltr0n.
apply: lt_le_trans lt3 _; rewrite fmorphV rmorph_nat.
have f5 : 0 <= 5%:R^-1 :> C by rewrite invr_ge0 ler0n.
rewrite -(@ler_pexpn2r _ 2) ?nnegrE ?invr_ge0 ?ler0n ?sqrtC_ge0 // sqrtCK exprVn lef_pinv ?posrE ?exprn_gt0 ?ltr0n //.
by rewrite -natrX ler_nat.
Qed.
End Bound.

(** bound_perturbed_gmres for the polynomial with root 2 and the circles around 2 *)
Theorem C70_run (R : rcfType) (pi : R) (argsort : seq R[i] -> seq nat) : pi != 0 -> Properties.Poly.argsort_perm argsort ->
  let paths d := (2%:R * pi * d, [:: (2%:R + d)%:C%C; (2%:R - d)%:C%C]) in
  bound_perturbed_gmres pi argsort paths [:: 2%:R] 1 [:: 2%:R] = Ok [:: 1] /\
  bound_perturbed_gmres pi argsort paths [:: 2%:R] 1 [:: 2%:R; 1] = Err ArgumentError.
Proof.
move=> p0 ha paths; have n2 : 2%:R != 0 :> R by rewrite pnatr_eq0.
have n2' : 2%:R != 0 :> R[i] by rewrite pnatr_eq0.
split; last by have [h _ _] := C70_errors pi argsort paths [:: 2%:R] 1 [:: 2%:R; 1]; apply: (h 1); rewrite // !inE eqxx orbT.
have [||bs -> [sz /(_ 0%N isT)]] := C70_values pi ha (paths := paths) (roots := [:: 2%:R]) (eps := 1) (deltas := [:: 2%:R]).
- by rewrite /= n2'.
- by move=> d; rewrite inE => /eqP->; rewrite ltr1n.
case: bs sz => [|y []] // _ [sup [_ [z]]]; rewrite !inE => zz hs e; congr (Ok [:: _]); rewrite [LHS]e /nth /=.
have n1 : complex.Re `|(1 : [numClosedFieldType of R[i]])| = 1 by rewrite normr1.
have -> : sup = 1.
  have e2 : 2%:R + 2%:R = 2%:R * 2%:R :> R by rewrite -natrD -natrM.
  rewrite -hs; case/orP: zz => /eqP->; rewrite /npol big_cons big_nil mulr1.
    rewrite e2 rmorphM rmorph_nat mulfK // distrC -[2%N]/(1 + 1)%N natrD addrK.
    exact: n1.
  rewrite subrr rmorph0 mul0r subr0; exact: n1.
rewrite divff ?mulf_neq0 // mulr1 mulr1 div1r -[2%N]/(1 + 1)%N natrD addrK invr1 //.
Qed.

Print Assumptions C69_bound_refuted.
Print Assumptions C70_run.
