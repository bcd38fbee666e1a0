(** C71: the numbers beta and epsilon of bound_pseudo bound the perturbations of the initial residual and of the deflated operator. *)
From mathcomp Require Import all_ssreflect all_algebra perm ring complex.
From Verif Require Import Base Spec.LinAlg Proof.Algebra Model.Ritz Spec.Ritz Proof.Ritz Model.Inner Spec.Inner Proof.Inner Proof.IpTheory.
From Verif Require Import Model.Arnoldi Spec.Arnoldi Proof.Arnoldi Proof.ArnoldiRel Proof.ArnoldiAll Proof.ArnoldiExample Model.Solver Model.LinearSystem Model.Krylov Spec.Krylov.
From Verif Require Import Spec.Solver Proof.Solver Proof.SolverInv Proof.Gmres Proof.Minres Proof.LinearSystem Proof.CgTheory Proof.Cg Proof.Logged.
From Verif Require Import Model.Interval Spec.Interval Model.Poly.
From Verif Require Import Model.Projection Spec.Projection Model.Deflation Spec.Deflation.
From Verif Require Import Proof.Qr Proof.QrExist Proof.Projection Proof.Deflation Model.DeflRitz Spec.DeflRitz Proof.DeflRitz Proof.DeflRel.
From Verif Require Import Model.Arnoldifyer Spec.Arnoldifyer Proof.Arnoldifyer Properties.Arnoldifyer Spec.Measures.
From Verif Require Import Model.ResNorms Model.BoundPseudo Spec.BoundPseudo Proof.BoundPseudo Properties.BoundPseudo.
From Verif Require Import Model.Pseudo Spec.Pseudo Proof.Pseudo Proof.ObliqueNorm Proof.Perturb.
From Verif Require Properties.Solver Properties.Deflation Properties.DeflRitz Properties.Poly.

Set Implicit Arguments.
Unset Strict Implicit.
Unset Printing Implicit Defensive.
Import Order.TTheory GRing.Theory Num.Theory.
Local Open Scope ring_scope.
Local Open Scope complex_scope.

Section Take.
Variable R : rcfType.
Local Notation C := [numClosedFieldType of R[i]].

Lemma sum_take (F : nat -> C) i n : (i <= n)%N -> (forall j, (i <= j)%N -> (j < n)%N -> F j = 0) -> \sum_(j < i) F j = \sum_(j < n) F j.
Proof.
move=> le h; rewrite (big_ord_widen n F le) [RHS](bigID (fun j : 'I_n => (j < i)%N)) /= [X in _ + X]big1 ?addr0 // => j.
by rewrite -leqNgt => ij; apply: h.
Qed.

Lemma mx_ent_ord p q (X : 'M[C]_(p, q)) (i : 'I_p) (j : 'I_q) : mx_ent X i j = X i j.
Proof. by rewrite /mx_ent !valK. Qed.

Lemma mtake_mul p n i (X : 'M[C]_(p, n)) (c : 'cV[C]_n) : (i <= n)%N -> (forall j : 'I_n, (i <= j)%N -> c j 0 = 0) ->
  mtake p i X *m mtake i 1 c = X *m c.
Proof.
move=> le h; apply/matrixP => s t; rewrite ord1 !mxE.
transitivity (\sum_(j < i) (mx_ent X s j * mx_ent c j 0)); first by apply: eq_bigr => j _; rewrite !mxE.
rewrite (@sum_take (fun j => mx_ent X s j * mx_ent c j 0) _ _ le) => [|j ij jn]; first by apply: eq_bigr => j _; rewrite mx_ent_ord (mx_ent_ord c j 0).
by rewrite -[j]/(nat_of_ord (Ordinal jn)) (mx_ent_ord c _ 0) h ?mulr0.
Qed.

Lemma mtake_ip n i (c : 'cV[C]_n) : (i <= n)%N -> (forall j : 'I_n, (i <= j)%N -> c j 0 = 0) ->
  ipE (mtake i 1 c) (mtake i 1 c) = ipE c c.
Proof.
move=> le h; rewrite /ipE !mxE.
transitivity (\sum_(j < i) ((mx_ent c j 0)^* * mx_ent c j 0)); first by apply: eq_bigr => j _; rewrite !(ctrE, mxE).
rewrite (@sum_take (fun j => (mx_ent c j 0)^* * mx_ent c j 0) _ _ le) => [|j ij jn]; first by apply: eq_bigr => j _; rewrite ctrE (mx_ent_ord c j 0).
by rewrite -[j]/(nat_of_ord (Ordinal jn)) (mx_ent_ord c _ 0) h ?mulr0.
Qed.
End Take.

Section Runs.
Variable R : rcfType.
Local Notation C := [numClosedFieldType of R[i]].
Local Notation re := (@complex.Re R).
Variable sqr : forall n k, 'M[C]_(n, k) -> 'M[C]_(n, k) * 'M[C]_k.
Hypothesis hsqr : qr_spec sqr.
Variable fqr : forall n k, 'M[C]_(n, k) -> 'M[C]_n.
Variable pqr : forall n k, 'M[C]_(n, k) -> 'M[C]_(n, minn n k) * 'M[C]_(minn n k, k) * {perm 'I_k}.
Variable hess : forall n, 'M[C]_n -> 'M[C]_n * 'M[C]_n.
Variables nrm2 smin : forall n, 'M[C]_n -> C.
Variable N m : nat.
Local Notation vec := 'cV[C]_N.
Variable l : lsys C N.
Hypothesis hl : lsys_ok l.
Variables (Minv : option (vec -> vec)) (same : bool) (U : 'M[C]_(N, m)) (kw : pkwargs).
Hypothesis ha : defl_args sqr l Minv same U kw.
Local Notation A := (lMlAMr l).
Local Notation M := (lMop l).
Local Notation MA := (fun x => M (A x)).
Local Notation P := (defl_P (lB l) A U).
Variables (snorm : nat -> nat -> (nat -> nat -> C) -> C).
Variables (o : opts C) (ortho : ortho_t) (x0 : option vec) (fl : bool).
Variable Bm : ipB C N.
Hypothesis eBm : get_ip_Minv_B l Minv = Ok Bm.
Hypothesis vBm : valid_ip Bm.
Hypothesis hadj : forall x y, ip1 Bm x (M y) = ip1 (lB l) x y.
Hypothesis hsep : separated (ip1 Bm) (eps15 C) U.
Hypothesis hfl : fl -> self_adjoint (ip1 (lB l)) A.
Hypothesis hMr : forall c, lMr l (U *m c) = U *m c.
Hypothesis nb : lMl l (lb l) <> 0.
Variable ob : obl C N m.
Hypothesis hob : mk_oblique sqr l Minv same U kw = Ok ob.
Local Notation r0 := (resid l (x0_of x0)).
Local Notation init b := (mk_arnf sqr pqr nrm2 l Minv ob b).
Local Notation nm := (ipnorm (ip1 Bm)).

(** The next system has the operator MA + G and the initial residual M r0 + gv, with given bounds for the norms; W are
    orthonormal deflation vectors.  If bound_pseudo does not raise AssumptionError then the deflation vectors are
    admissible for the next system, beta bounds the difference of its deflated initial residual and al q_norm Vh e_1, and
    epsilon of step i, with a bound c0 of <W, MA x> in the place of the norm of Hh, bounds the difference of the deflated operator and
    Vh Hh Vh^* on the span of the first i columns of Vh. *)
Definition perturbs n_ n (b : byprod C N n_ n m) : Prop :=
  rank_args pqr nrm2 l ob b Bm -> (0 < n_)%N -> forall k r (Wt : 'M[C]_(n + m, k)) v w r0norm,
  let W := dbasis ob b *m Wt in let sigma := smin (inner Bm W (imcols MA W)) in let P := defl_P Bm MA W in
  (k + r.+1 = n + m)%N -> inner Bm W (imcols MA W) \in unitmx -> fqr_ok Wt (fqr Wt) ->
  (forall A : 'M[C]_r.+1, hess_ok A (hess A).1 (hess A).2) -> ((0 < k)%N -> forall G : 'M[C]_k, smin_ok G (smin G)) ->
  d_res0 l ob x0 = Ok (v, w, r0norm) -> Wt^h *m Wt = 1%:M ->
  exists a g, [/\ init b = Ok a, arnf_get sqr fqr hess smin l Minv ob b a r0norm (d_UMlr l ob x0) Wt r = Ok g &
  forall (G : vec -> vec) (gv : vec) (gn Gn GWn wgw : R), is_linear G ->
    nm gv <= gn%:C -> (forall x, nm (G x) <= Gn%:C * nm x) ->
    0 <= GWn -> (forall c, nm (G (W *m c)) <= GWn%:C * nm (W *m c)) ->
    (forall c, ipnorm (@ipE C k) (inner Bm W (imcols G W) *m c) <= wgw%:C * ipnorm (@ipE C k) c) ->
    (0 < k)%N && (sigma <= wgw%:C) = false ->
    let eta := bp_eta k (re sigma) GWn wgw in let MG x := MA x + G x in let PG := defl_P Bm MG W in
    [/\ inner Bm W (imcols MG W) \in unitmx,
        nm (M r0) <= rhs_norm l -> exists2 al, `|al| = 1 & nm (PG (M r0 + gv) - (al * ag_q g) *: col 0 (ag_Vh g)) <=
          (bp_beta (re (ag_PWAW g)) eta (re (rhs_norm l)) gn (re (ag_vdiff g)))%:C
      & forall i c0 rn, (i <= r.+1)%N -> block_norm (@ipE C _) (mtake (n_ - n + af_l a) i (ag_Rh g)) rn%:C ->
        forall c : 'cV[C]_r.+1, (forall j : 'I_r.+1, (i <= j)%N -> c j 0 = 0) -> let x := ag_Vh g *m c in
        ipnorm (@ipE C k) (inner Bm W (MA x)) <= c0%:C * nm x ->
        nm (PG (MG x) - ag_Vh g *m (ag_Hh g *m c)) <= (bp_eps (re (ag_PWAW g)) eta c0 Gn rn)%:C * nm x]].

Theorem C71_attributes n_ n (b : byprod C N n_ n m) (ex : Prop) :
  Properties.DeflRitz.rel_ok l U x0 Bm ob b ex -> ex -> perturbs b.
Proof.
move=> rel hex ra n0 k r Wt v w t W sigma P hkr hD hf hh hm hres w1.
have [a [g [ea eg [l1 l2 l3 l4 l5 l6 l7 l8 l9] [al [d [al1 q0 hst hvd]]] [hP [z z0 hz]]]]] :=
  C56_attributes hsqr hl ha eBm hMr hob rel hex ra n0 hkr hD hf hh hm hres.
case: rel => hn [W' [hr hAU W0 _ _]]; have hMA := MA_lin hr.
have hip := valid_is_ip vBm; have hE := ipE_ip C k.
have WW : inner Bm W W = 1%:M.
  by rewrite /W (dbasisE ob b hn) (innerMl vBm) (innerMr vBm) (gramX hr) mul1mx w1.
exists a, g; split=> // G gv gn Gn GWn wgw hG hg hGn GW0 hGW hwgw nref eta MG PG.
have s0 : (0 < k)%N -> 0 <= sigma by move=> k0; exact: sm_0 (hm k0 _).
have sE : (0 < k)%N -> (re sigma)%:C = sigma by move=> /s0/re_of[].
have k3 : (0 < k)%N -> wgw%:C < sigma.
  move=> k0; have wr : (wgw%:C : C) \is Num.real by rewrite realE -[0]/((0 : R)%:C) !lecR le_total.
  have := nref; rewrite k0 /= => nl; rewrite real_ltNge ?nl //; exact: ger0_real (s0 k0).
have p0 : 0 <= ag_PWAW g.
  by rewrite -(pmulr_lge0 _ (_ : 0 < nm z)) ?(ipnorm_gt0 hip) // -hz (ipnorm_ge0 hip).
have v0 : 0 <= ag_vdiff g by rewrite hvd (ipnorm_ge0 hip).
have etaE : eta%:C = Perturb.eta k sigma wgw%:C GWn%:C.
  by rewrite /eta /bp_eta /Perturb.eta; case: ifP => // k0; rewrite fmorph_div rmorphB /= sE.
have pE := (re_of p0).1; have vE := (re_of v0).1.
have h1 : (0 < k)%N -> forall c : 'cV[C]_k, sigma * ipnorm (@ipE C k) c <= ipnorm (@ipE C k) (inner Bm W (imcols MA W) *m c).
  by move=> k0; exact: sm_min (hm k0 _).
have gw0 : 0 <= GWn%:C :> C by rewrite lecR.
split.
- exact: (E_unit vBm h1 hwgw k3).
- move=> hr0; exists al => //.
  have h := start_le vBm hMA hG WW hD h1 hwgw k3 hGW hP gw0 p0 hr0 hg.
  have bE := (re_of (le_trans (ipnorm_ge0 hip _) hr0)).1.
  rewrite /bp_beta !(rmorphD, rmorphM) /= pE vE bE etaE.
  have -> : PG (M r0 + gv) - (al * ag_q g) *: col 0 (ag_Vh g) = (PG (M r0 + gv) - P (M r0)) + af_Z a *m d.
    by rewrite [P _]hst opprD addrA addrNK.
  by apply: le_trans (triangle hip _ _) _; rewrite -hvd ler_add2r.
move=> i c0 rn ir hrn c hc x hx.
have Plin : is_linear (fun x => P (MA x)).
  move=> e z1 z2; rewrite hMA; exact: (P_lin vBm).
have Px : P (MA x) = ag_Vh g *m (ag_Hh g *m c) + af_Z a *m (ag_Rh g *m c).
  by rewrite -(imcols_vec Plin) l6 mulmxDl !mulmxA.
have h := op_le vBm hMA hG WW hD h1 hwgw k3 hGW hGn hP gw0 p0 hx.
have nx : nm x = ipnorm (@ipE C _) c by rewrite (on_nrm vBm).
have nR : nm (af_Z a *m (ag_Rh g *m c)) <= rn%:C * nm x.
  rewrite (on_nrm vBm) // nx; have [_ hle _] := hrn.
  have := hle (mtake i 1 c); congr (_ <= _ * _).
    by rewrite mtake_mul.
  by rewrite /ipnorm mtake_ip.
have e0 : (re (ag_PWAW g) * (eta * (c0 + Gn) + Gn) + rn)%:C * nm x <= (bp_eps (re (ag_PWAW g)) eta c0 Gn rn)%:C * nm x.
  rewrite ler_wpmul2r ?(ipnorm_ge0 hip) // lecR /bp_eps; case: ifP => // /eqP->; by rewrite invr_ge0 exprn_ge0 ?ler0n.
apply: le_trans e0; have -> : PG (MG x) - ag_Vh g *m (ag_Hh g *m c) = (PG (MG x) - P (MA x)) + af_Z a *m (ag_Rh g *m c).
  by rewrite Px opprD addrA addrNK.
apply: le_trans (triangle hip _ _) _; rewrite rmorphD mulrDl ler_add // !(rmorphD, rmorphM) /= pE etaE; exact: h.
Qed.

Theorem C71_gmres s : ortho_ok l ortho ->
  of_run (deflated_gmres sqr snorm l Minv same U kw o ortho x0) s ->
  let a := gm_a (s_st s).1 in a_inv a = false \/ a_H a (a_iter a) (a_iter a).-1 = 0 ->
  perturbs (arn_byprod l fl ob a (s_st s).2).
Proof.
move=> ho hs a; apply: C71_attributes.
exact: (Properties.DeflRitz.C31_gmres hsqr hl ha eBm vBm hadj hsep hfl hMr nb hob ho hs).
Qed.

Theorem C71_minres s : ortho_ok l ortho -> self_adjoint (ip1 (lB l)) A ->
  of_run (deflated_minres sqr snorm l Minv same U kw o ortho x0) s ->
  let a := mr_a (s_st s).1 in a_inv a = false \/ a_H a (a_iter a) (a_iter a).-1 = 0 ->
  perturbs (arn_byprod l fl ob a (s_st s).2).
Proof.
move=> ho sa hs a; apply: C71_attributes.
exact: (Properties.DeflRitz.C31_minres hsqr hl ha eBm vBm hadj hsep hfl hMr nb hob ho sa hs).
Qed.

Theorem C71_cg s : self_adjoint (ip1 (lB l)) A -> pos_def (ip1 (lB l)) A -> defl_P (lB l) A U r0 <> 0 ->
  deflated_cg sqr l Minv same U kw o true x0 = Returns s ->
  let t := (s_st s).1 in
  perturbs (mk_byprod l fl ob (cg_it t).+1 (cg_it t) (cg_V t) (cg_H t) (rev (s_st s).2.2)).
Proof.
move=> sa pd nr hs t; apply: (C71_attributes (ex := True)) => //.
exact: (Properties.DeflRitz.C31_cg hsqr hl ha eBm vBm hadj hsep hfl hMr nb hob sa pd nr hs).
Qed.
End Runs.

(** The run of the example C56_run, with the perturbation t W W^* of the operator, where t is half of the least singular value of <W, MA W> *)
Section Example.
Variable R : rcfType.
Local Notation C := [numClosedFieldType of R[i]].
Local Notation re := (@complex.Re R).
Local Notation l := (Properties.Deflation.dex_lsys C).
Local Notation Mi := (Properties.Deflation.dex_Minv C).
Local Notation kw := Properties.Deflation.dex_kw.
Local Notation hq := (@some_qr_spec C).
Local Notation MA := (fun x => lMop l (lMlAMr l x)).
Local Notation ex_Wt n := (\matrix_(i, j) (i == 0%N :> nat)%:R : 'M[C]_(n + 1, 1)).

Theorem C71_run : exists ob s B, let a := gm_a (s_st s).1 in let b := arn_byprod l true ob a (s_st s).2 in
  let W := dbasis ob b *m ex_Wt (a_iter a) in
  [/\ mk_oblique (@some_qr C) l Mi false (e0 C) kw = Ok ob,
      deflated_gmres (@some_qr C) (@frob C) l Mi false (e0 C) kw (Opts 0 2 false) Mgs None = Returns s, get_ip_Minv_B l Mi = Ok B
    & exists f g r0norm (t : R), let G (x : 'cV[C]_2) : 'cV[C]_2 := t%:C *: (W *m inner B W x) in let MG x := MA x + G x in
    [/\ mk_arnf (@some_qr C) (@ex_pqr C) (@ex_nrm2 C) l Mi ob b = Ok f,
        arnf_get (@some_qr C) (@ex_fqr C) (@ex_hess C) (@ex_smin C) l Mi ob b f r0norm (d_UMlr l ob None) (ex_Wt (a_iter a)) 0 = Ok g,
        0 < t, inner B W (imcols MG W) \in unitmx
      & forall gv gn, ipnorm (ip1 B) gv <= gn%:C -> exists2 al, `|al| = 1 &
        ipnorm (ip1 B) (defl_P B MG W (lMop l (resid l 0) + gv) - (al * ag_q g) *: col 0 (ag_Vh g)) <=
          (bp_beta (re (ag_PWAW g)) 1 (re (rhs_norm l)) gn (re (ag_vdiff g)))%:C]].
Proof.
have ok := Properties.Deflation.dex_ok C; have args := Properties.Deflation.dex_args C.
have [ob [s [B [hob E [i1 e1] [eB vB hadj sep rel] [h1 h2 h3 h4 h5]]]]] := ex_run C.
have mr (c : 'cV[C]_1) : lMr l (e0 C *m c) = e0 C *m c by [].
exists ob, s, B; split=> //.
set a := gm_a (s_st s).1 in i1 e1 rel h1 h2 h3 *; set b := arn_byprod l true ob a (s_st s).2 in rel h1 h2 *.
have w1 : (ex_Wt (a_iter a))^h *m ex_Wt (a_iter a) = 1%:M.
  apply/matrixP => i j; rewrite !ord1 !mxE.
  have k0 : (0 < a_iter a + 1)%N by rewrite addn1.
  rewrite (bigD1 (Ordinal k0)) //= big1 => [|t]; first by rewrite ctrE !mxE conjC1 mulr1 addr0.
  by rewrite -val_eqE /= => /negbTE ht; rewrite [X in _ * X]mxE ht mulr0.
have ar := C71_attributes (fqr := @ex_fqr C) (hess := @ex_hess C) (smin := @ex_smin C) hq ok args eB vB mr hob rel I h1.
have [||f [g [k1 k2 hp]]] := ar _ 1%N 0%N _ _ _ _ _ h2 h3 h4 (fun _ => h5) (ko_res (defl_kd hq ok args hob mr None)) w1.
- by rewrite e1.
- by rewrite i1.
set W := dbasis ob b *m _ in h2 hp *.
have WW : inner B W W = 1%:M.
  case: (rel) => hn [W' [hr _ _ _ _]].
  by rewrite /W (dbasisE ob b hn) (innerMl vB) (innerMr vB) (gramX hr) mul1mx w1.
set sigma := ex_smin _ in hp; have hip := valid_is_ip vB; have hE := ipE_ip C 1.
have s0 : 0 < sigma.
  rewrite /sigma /ex_smin normr_gt0 /mxtrace big_ord1; by move: h2; rewrite unitmxE det_mx11 unitfE.
have [sE _] := re_of (ltW s0); have re0 : 0 < re sigma by rewrite -ltcR sE.
pose t := re sigma / 2%:R; have t0 : 0 < t by rewrite divr_gt0 // ltr0n.
have t0' : 0 <= t%:C :> C by rewrite lecR ltW.
exists f, g; eexists; exists t; pose G (x : 'cV[C]_2) : 'cV[C]_2 := t%:C *: (W *m inner B W x).
have Gn x : ipnorm (ip1 B) (G x) <= t%:C * ipnorm (ip1 B) x.
  rewrite /G (ipnormZ hip) ger0_norm // ler_wpmul2l // (on_nrm vB) //; exact: bessel_le.
have Glin : is_linear G.
  by move=> c x y; rewrite /G (innerDr vB) (innerZr vB) mulmxDr -scalemxAr scalerDr !scalerA mulrC.
have WG (c : 'cV[C]_1) : ipnorm (@ipE C 1) (inner B W (imcols G W) *m c) <= t%:C * ipnorm (@ipE C 1) c.
  rewrite -(innerMr vB) (imcols_vec Glin); apply: le_trans (bessel_le vB WW _) _; rewrite -[X in _ <= _ * X](on_nrm vB c WW); exact: Gn.
have ns : (0 < 1)%N && (sigma <= t%:C) = false.
  by rewrite /= lt_geF // -sE ltcR /t ltr_pdivr_mulr ?ltr0n // ltr_pmulr // ltr1n.
have hn0 : ipnorm (ip1 B) (lMop l (resid l 0)) <= rhs_norm l.
  have h0 := valid_is_ip (B := @IpNone C 2) I.
  have rE : resid l 0 = lMl l (lb l) by rewrite /resid (lin0 (lo_A ok)) subr0.
  by rewrite /ipnorm hadj rE /rhs_norm /mnorm /lMop /= !(ipZr h0) !(ipZl h0) !conjC_nat [2%:R * (5%:R * _)]mulrCA.
have tE : bp_eta 1 (re sigma) t t = 1.
  have st : re sigma - t = t by rewrite /t {1}[re sigma]splitr addrK.
  by rewrite /bp_eta /= st divff // lt0r_neq0.
have g0 : ipnorm (ip1 B) 0 <= (0 : R)%:C by rewrite (ipnorm0 hip).
have [u _ _] := hp G 0 0 t t t Glin g0 Gn (ltW t0) (fun c => Gn _) WG ns.
split; [exact: k1|exact: k2|exact: t0|exact: u|].
move=> gv gn hg; have [_ hb _] := hp G gv gn t t t Glin hg Gn (ltW t0) (fun c => Gn _) WG ns.
by move: (hb hn0); rewrite tE.
Qed.
End Example.

(** The norm of Hh in the place of c0, as in bound_pseudo: epsilon is no bound.  The operator is T = [[1, 100], [1, 101]] with
    P T e1 = e1 for W = e0, so Hh = (1) has norm 1 and Rh is empty; but <W, T e1> = 100. *)
Section Refuted.
Variable C : numClosedFieldType.
Local Notation vec := 'cV[C]_2.
Local Notation B := (@IpNone C 2).
Local Notation nm := (ipnorm (ip1 B)).
Local Notation e0 := (e0 C).
Local Notation e1 := (ArnoldiExample.e1 C).
Definition rT (x : vec) : vec := \col_i (if i == 0 then x 0 0 + 100%:R * x 1 0 else x 0 0 + 101%:R * x 1 0).
Definition rG (x : vec) : vec := \col_i (if i == 0 then 0 else x 0 0).

Lemma vec2 (x y : vec) : x 0 0 = y 0 0 -> x 1 0 = y 1 0 -> x = y.
Proof. by move=> h0 h1; apply/matrixP => i j; rewrite ord1; case: i => [[|[|]]] // ?; [move: h0|move: h1]; congr (_ = _); congr (_ _ _); apply: val_inj. Qed.

Lemma nm2 (x : vec) : nm x ^+ 2 = `|x 0 0| ^+ 2 + `|x 1 0| ^+ 2.
Proof.
rewrite /ipnorm sqrtCK /ip1 /= mxE !big_ord_recl big_ord0 addr0 !ctrE !normCKC.
by have -> : lift ord0 ord0 = 1 :> 'I_2 by apply: val_inj.
Qed.

Lemma in_e0 x : inner B e0 x = (x 0 0)%:M.
Proof.
apply/matrixP => i j; rewrite !ord1 /= !mxE !big_ord_recl big_ord0 addr0 !ctrE !mxE /= conjC1 conjC0 mul1r mul0r addr0.
by congr (x _ _); apply: val_inj.
Qed.

Lemma rT_lin : is_linear rT.
Proof. by move=> c x y; apply: vec2; rewrite !mxE /=; ring. Qed.
Lemma rG_lin : is_linear rG.
Proof. by move=> c x y; apply: vec2; rewrite !mxE /=; ring. Qed.
Lemma rTG_lin : is_linear (fun x => rT x + rG x).
Proof. by move=> c x y; rewrite rT_lin rG_lin scalerDr addrACA. Qed.

Lemma im_e0 (F : vec -> vec) : is_linear F -> imcols F e0 = F e0.
Proof. by move=> hF; have := imcols_vec hF e0 1%:M; rewrite !mulmx1. Qed.

Lemma rD (F : vec -> vec) : is_linear F -> F e0 0 0 = 1 -> inner B e0 (imcols F e0) = 1%:M.
Proof. by move=> hF h; rewrite im_e0 // in_e0 h. Qed.

Lemma rP (F : vec -> vec) x : is_linear F -> F e0 0 0 = 1 -> defl_P B F e0 x = x - x 0 0 *: F e0.
Proof. by move=> hF h; rewrite /defl_P rD // invmx1 mulmx1 im_e0 // in_e0 mul_mx_scalar. Qed.

Local Notation P := (defl_P B rT e0).
Local Notation MG := (fun x => rT x + rG x).
Lemma rT0 : rT e0 0 0 = 1. Proof. by rewrite !mxE /= mulr0 addr0. Qed.
Lemma rTG0 : rT e0 0 0 + rG e0 0 0 = 1. Proof. by rewrite !mxE /= mulr0 !addr0. Qed.
Lemma re11 : inner B e1 e1 = 1%:M.
Proof.
apply/matrixP => i j; rewrite !ord1 /= !mxE !big_ord_recl big_ord0 addr0 !ctrE !mxE /=.
by rewrite !(conjC0, conjC1) mulr0 mulr1 add0r.
Qed.
Lemma nme1 : nm e1 = 1. Proof. by rewrite /ipnorm /ip1 re11 mxE sqrtC1. Qed.
Lemma rPx x : P x = \col_i (if i == 0 then 0 else x 1 0 - x 0 0).
Proof. by rewrite (rP _ rT_lin rT0); apply: vec2; rewrite !mxE /=; ring. Qed.

Lemma rfacts : [/\ inner B e0 e0 = 1%:M, inner B e0 (imcols rT e0) = 1%:M, P (rT e1) = e1 *m 1%:M, inner B e0 (imcols rG e0) = 0 &
  defl_P B MG e0 (MG e1) - e1 *m 1%:M = (- 100%:R) *: e1].
Proof.
split; first by rewrite in_e0 mxE.
- exact: rD rT_lin rT0.
- by rewrite rPx mulmx1; apply: vec2; rewrite !mxE /=; ring.
- by rewrite (im_e0 rG_lin) in_e0 mxE; apply/matrixP => i j; rewrite !mxE mul0rn.
rewrite (rP _ rTG_lin) ?mulmx1; last by rewrite mxE rTG0.
by apply: vec2; rewrite !mxE /=; ring.
Qed.

Lemma rGle x : nm (rG x) <= nm x.
Proof.
have h := valid_is_ip (B := B) I.
rewrite -(@ler_pexpn2r _ 2) ?nnegrE ?(ipnorm_ge0 h) // !nm2 !mxE /= normr0 expr0n add0r.
by rewrite ler_addl exprn_ge0.
Qed.

Lemma rPn (pw : C) : 0 <= pw -> pw ^+ 2 = 2%:R -> op_norm (ip1 B) P pw.
Proof.
move=> s0 s2; have h := valid_is_ip (B := B) I.
split=> [x|].
  rewrite -(@ler_pexpn2r _ 2) ?nnegrE ?mulr_ge0 ?(ipnorm_ge0 h) //.
  rewrite exprMn !nm2 rPx !mxE /= s2 normr0 expr0n add0r -subr_ge0.
  suff -> : 2%:R * (`|x 0 0| ^+ 2 + `|x 1 0| ^+ 2) - `|x 1 0 - x 0 0| ^+ 2 = `|x 1 0 + x 0 0| ^+ 2 by rewrite exprn_ge0.
  by rewrite !normCK rmorphB rmorphD /=; ring.
exists (e0 - e1).
  by apply/eqP => /matrixP/(_ 0 0)/eqP; rewrite !mxE /= subr0 oner_eq0.
apply/eqP; rewrite -(@eqr_expn2 _ 2) ?mulr_ge0 ?(ipnorm_ge0 h) //.
rewrite exprMn !nm2 rPx !mxE /= s2 normr0 expr0n add0r sub0r subr0 -opprD normrN normrN normr1.
by rewrite (_ : 1 + 1 = 2%:R) // ger0_norm ?ler0n // expr1n; apply/eqP; ring.
Qed.
End Refuted.

Section RefutedThm.
Variable R : rcfType.
Local Notation C := [numClosedFieldType of R[i]].
Local Notation B := (@IpNone C 2).
Local Notation nm := (ipnorm (ip1 B)).
Local Notation e0 := (e0 C).
Local Notation e1 := (ArnoldiExample.e1 C).

Theorem C71_epsilon_refuted : let T := @rT C in let G := @rG C in
  let P := defl_P B T e0 in let MG x := T x + G x in let PG := defl_P B MG e0 in
  [/\ is_linear T, is_linear G, inner B e0 e0 = 1%:M, inner B e0 (imcols T e0) = 1%:M & [/\ inner B e1 e1 = 1%:M, P (T e1) = e1 *m 1%:M, block_norm (@ipE C 1) (1%:M : 'M[C]_1) 1, inner B e0 (imcols G e0) = 0 &
    (forall x, nm (G x) <= nm x) /\ exists2 pw : R, op_norm (ip1 B) P pw%:C &
      let eta := bp_eta 1 1 1 0 in (bp_eps pw eta 1 1 0)%:C * nm e1 < nm (PG (MG e1) - e1 *m 1%:M)]].
Proof.
have [h1 h2 h3 h4 h5] := rfacts C; have h := valid_is_ip (B := B) I.
split; [exact: rT_lin|exact: rG_lin|exact: h1|exact: h2|].
split; [exact: re11|exact: h3| |exact: h4|split; first exact: rGle].
- split=> [|c|]; [exact: ler01|by rewrite mul1mx mul1r|].
  by exists 1%:M; [exact: matrix_nonzero1|rewrite mulmx1 mul1r].
have s2 : (Num.sqrt 2%:R : R) ^+ 2 = 2%:R by rewrite sqr_sqrtr ?ler0n.
exists (Num.sqrt 2%:R).
  by apply: rPn; [rewrite lecR sqrtr_ge0|rewrite -rmorphX s2 rmorph_nat].
have hE : 100%:R = (100%:R : R)%:C :> C by rewrite rmorph_nat.
move=> eta; rewrite [X in _ < nm X]h5 nme1 mulr1 (ipnormZ h) nme1 mulr1 normrN ger0_norm ?ler0n // hE ltcR.
rewrite /eta /bp_eps /bp_eta /= subr0 divr1 mul1r addr0; set p := Num.sqrt _ in s2 *.
have p0 : 0 <= p by exact: sqrtr_ge0.
have p2 : p <= 2%:R by rewrite -(@ler_pexpn2r _ 2) ?nnegrE ?ler0n // s2 -natrX ler_nat.
have t16 : 1 <= (10%:R ^+ 16 : R) by rewrite exprn_ege1 // ler1n.
have t17 : (10%:R ^+ 16 : R)^-1 <= 1 by rewrite invf_le1 // (lt_le_trans ltr01).
case: ifP => _; first by apply: le_lt_trans t17 _; rewrite ltr1n.
apply: le_lt_trans (_ : 2%:R * (1 + 1 + 1) < _).
  by rewrite ler_wpmul2r // !addr_ge0 // ler01.
by rewrite (_ : 1 + 1 + 1 = 3%:R :> R) -?natrM ?ltr_nat //; ring.
Qed.
End RefutedThm.

Print Assumptions C71_attributes.
Print Assumptions C71_gmres.
Print Assumptions C71_minres.
Print Assumptions C71_cg.
Print Assumptions C71_run.
Print Assumptions C71_epsilon_refuted.
