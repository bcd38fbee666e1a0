(** C66: without pseudospectra bound_pseudo returns the residual norms of an optimal method for
    the compression of the next deflated system to the available space. *)
From mathcomp Require Import all_ssreflect all_algebra perm ring.
From Verif Require Import Base Spec.LinAlg Proof.Algebra Model.Ritz Spec.Ritz Proof.Ritz Model.Inner Spec.Inner Proof.Inner Proof.IpTheory.
From Verif Require Import Model.Arnoldi Spec.Arnoldi Proof.Arnoldi Proof.ArnoldiRel Proof.ArnoldiAll Proof.ArnoldiExample Model.Solver Model.LinearSystem Model.Krylov Spec.Krylov.
From Verif Require Import Spec.Solver Proof.Solver Proof.SolverInv Proof.Gmres Proof.Minres Proof.LinearSystem Proof.CgTheory Proof.Cg Proof.Logged.
From Verif Require Import Model.Projection Spec.Projection Model.Deflation Spec.Deflation.
From Verif Require Import Proof.Qr Proof.QrExist Proof.Projection Proof.Deflation Model.DeflRitz Spec.DeflRitz Proof.DeflRitz Proof.DeflRel.
From Verif Require Import Model.Arnoldifyer Spec.Arnoldifyer Proof.Arnoldifyer Properties.Arnoldifyer.
From Verif Require Import Model.ResNorms Model.BoundPseudo Spec.BoundPseudo Proof.BoundPseudo Proof.BoundPseudoCg.
From Verif Require Properties.Solver Properties.Deflation Properties.DeflRitz.

Set Implicit Arguments.
Unset Strict Implicit.
Unset Printing Implicit Defensive.
Import Order.TTheory GRing.Theory Num.Theory.
Local Open Scope ring_scope.

Section Runs.
Variable C : numClosedFieldType.
Variable sqr : forall n k, 'M[C]_(n, k) -> 'M[C]_(n, k) * 'M[C]_k.
Variable fqr : forall n k, 'M[C]_(n, k) -> 'M[C]_n.
Variable pqr : forall n k, 'M[C]_(n, k) -> 'M[C]_(n, minn n k) * 'M[C]_(minn n k, k) * {perm 'I_k}.
Variable hess : forall n, 'M[C]_n -> 'M[C]_n * 'M[C]_n.
Variables nrm2 smin : forall n, 'M[C]_n -> C.
Hypothesis hsqr : qr_spec sqr.
Variable N m : nat.
Local Notation vec := 'cV[C]_N.
Variable l : lsys C N.
Hypothesis hl : lsys_ok l.
Variables (Minv : option (vec -> vec)) (same : bool) (U : 'M[C]_(N, m)) (kw : pkwargs).
Hypothesis ha : defl_args sqr l Minv same U kw.
Local Notation A := (lMlAMr l).
Local Notation M := (lMop l).
Local Notation MA := (fun x => M (A x)).
Local Notation P := (defl_P (lB l) A U).
Variables (snorm : nat -> nat -> (nat -> nat -> C) -> C).
Variables (o : opts C) (ortho : ortho_t) (x0 : option vec) (fl : bool).
Variable Bm : ipB C N.
Hypothesis eBm : get_ip_Minv_B l Minv = Ok Bm.
Hypothesis vBm : valid_ip Bm.
Hypothesis hadj : forall x y, ip1 Bm x (M y) = ip1 (lB l) x y.
Hypothesis hsep : separated (ip1 Bm) (eps15 C) U.
Hypothesis hfl : fl -> self_adjoint (ip1 (lB l)) A.
Hypothesis hMr : forall c, lMr l (U *m c) = U *m c.
Hypothesis nb : lMl l (lb l) <> 0.
Variable ob : obl C N m.
Hypothesis hob : mk_oblique sqr l Minv same U kw = Ok ob.
Local Notation r0 := (resid l (x0_of x0)).
Local Notation K := (in_krylov (fun v => P (A v)) M (P r0)).
Local Notation init b := (mk_arnf sqr pqr nrm2 l Minv ob b).

(** bound_pseudo for a run of n iterations and deflation vectors W = [V_n, U] Wt.  S is the
    part of K_n + span U that is orthogonal to W, Q the orthogonal projection onto S, Pw the projection
    for the deflation vectors W.  AssumptionError is raised if <W, M Ml A Mr W> has a
    singular value that is not greater than WGW_norm, or if g_norm is not less than the norm of the
    right hand side.  Otherwise the result, multiplied by ||M Ml b|| - g_norm, are the optimal
    residual norms for the operator Q Pw M Ml A Mr and the right hand side Q Pw M r0. *)
Definition predicts n_ n (b : byprod C N n_ n m) : Prop :=
  rank_args pqr nrm2 l ob b Bm -> (0 < n_)%N -> forall k r (Wt : 'M[C]_(n + m, k)) v w r0norm g_norm WGW_norm,
  let W := dbasis ob b *m Wt in let Pw := defl_P Bm MA W in
  let sigma := smin (inner Bm W (imcols MA W)) in
  let S x := (exists z c, K n z /\ x = z + U *m c) /\ inner Bm W x = 0 in
  (k + r.+1 = n + m)%N -> inner Bm W (imcols MA W) \in unitmx -> fqr_ok Wt (fqr Wt) ->
  (forall A : 'M[C]_r.+1, hess_ok A (hess A).1 (hess A).2) -> ((0 < k)%N -> forall G : 'M[C]_k, smin_ok G (smin G)) ->
  d_res0 l ob x0 = Ok (v, w, r0norm) ->
  exists2 a, init b = Ok a &
  let out := bound_pseudo sqr fqr hess smin l Minv ob b a r0norm (d_UMlr l ob x0) (BpMinimal C) fl Wt r g_norm WGW_norm in
  if ((0 < k)%N && (sigma <= WGW_norm)) || (rhs_norm l <= g_norm) then out = Err AssumptionError else
  exists2 bs, out = Ok bs & (exists Q, orth_proj (ip1 Bm) S Q) /\ forall Q, orth_proj (ip1 Bm) S Q ->
    optimal_norms (ip1 Bm) (fun x => Q (Pw (MA x))) (Q (Pw (M r0))) r.+1
      [seq x * (rhs_norm l - g_norm) | x <- bs].

Lemma afX n_ n (b : byprod C N n_ n m) a : init b = Ok a -> EinvC ob b = Ok (af_X a).
Proof.
rewrite /mk_arnf; case: (EinvC ob b) => //= X; case: (_ == _) => //; case: (_ == _) => [[<-] //|].
by case: (pqr _) => -[Q R] p; rewrite eBm /= => h; have [[Q1 Rt] _ [<-]] := bind_ok h.
Qed.

(** The small system and what it has to do with the compression. *)
Lemma setting n_ n (b : byprod C N n_ n m) (ex : Prop) k r (Wt : 'M[C]_(n + m, k)) v w r0norm g_norm WGW_norm :
  Properties.DeflRitz.rel_ok l U x0 Bm ob b ex -> ex -> rank_args pqr nrm2 l ob b Bm -> (0 < n_)%N ->
  let W := dbasis ob b *m Wt in let Pw := defl_P Bm MA W in
  let sigma := smin (inner Bm W (imcols MA W)) in
  let S x := (exists z c, K n z /\ x = z + U *m c) /\ inner Bm W x = 0 in
  (k + r.+1 = n + m)%N -> inner Bm W (imcols MA W) \in unitmx -> fqr_ok Wt (fqr Wt) ->
  (forall A : 'M[C]_r.+1, hess_ok A (hess A).1 (hess A).2) -> ((0 < k)%N -> forall G : 'M[C]_k, smin_ok G (smin G)) ->
  d_res0 l ob x0 = Ok (v, w, r0norm) ->
  exists a q al (Vh : 'M[C]_(N, r.+1)) (Hh : 'M[C]_r.+1), [/\ init b = Ok a,
    forall cl, bound_pseudo sqr fqr hess smin l Minv ob b a r0norm (d_UMlr l ob x0) cl fl Wt r g_norm WGW_norm =
      if ((0 < k)%N && (sigma <= WGW_norm)) || (rhs_norm l <= g_norm) then Err AssumptionError else
      bind (bp_resnorms sqr cl fl Hh q) (fun rs => Ok [seq x * q / (rhs_norm l - g_norm) | x <- rs]),
    [/\ `|al| = 1, 0 <= q, inner Bm Vh Vh = 1%:M & hessenberg Hh],
    [/\ forall c : 'cV[C]_r.+1, inner Bm W (Vh *m c) = 0, inner Bm Vh (imcols (fun x => Pw (MA x)) Vh) = Hh
      & exists Q, orth_proj (ip1 Bm) S Q]
  & forall Q, orth_proj (ip1 Bm) S Q -> [/\ is_linear (fun x => Q (Pw (MA x))),
      imcols (fun x => Q (Pw (MA x))) Vh = Vh *m Hh & Q (Pw (M r0)) = Vh *m ((al * q) *: delta_mx 0 0)]].
Proof.
move=> R hex ra n0 W Pw sigma S hkr hD hf hh hm hres.
have [a [g [ea eg [l1 l2 l3 l4 l5 l6 l7 l8 l9] [al [d [al1 q0 hst _]]] _]]] :=
  C56_attributes hsqr hl ha eBm hMr hob R hex ra n0 hkr hD hf hh hm hres.
case: R => hn [W' [hr hAU W0 _ _]]; have hMA := MA_lin hr.
have HE : inner Bm (ag_Vh g) (imcols (fun x => Pw (MA x)) (ag_Vh g)) = ag_Hh g.
  by rewrite l6 (innerDr vBm) !(innerMr vBm) l1 l5 mul1mx mul0mx addr0.
exists a, (ag_q g), al, (ag_Vh g), (ag_Hh g); split=> //.
- move=> cl; rewrite /bound_pseudo eg /=.
  have -> : tconj Wt *m (aJ ob b *m (dL b (af_X a) *m Wt)) = inner Bm W (imcols MA W).
    have [e1 e2] := C54_gram hr (afX ea); rewrite tconjE (mulmxA (aJ ob b)) e1 e2 mulmxA.
    by rewrite /W (dbasisE ob b hn) (imcolsM hMA) (innerMl vBm) (innerMr vBm) -mulmxA.
  by rewrite -/sigma (bnorm_ok hl); case: (_ && _).
- split=> // [c|]; first by have /l2[_ ->] : exists c', ag_Vh g *m c = ag_Vh g *m c' by exists c.
  exists (fun x => ag_Vh g *m inner Bm (ag_Vh g) x) => x; split; first by apply/l2; eexists.
  move=> y /l2[c ->]; rewrite ip1X (innerMl vBm) (innerBr vBm) (innerMr vBm) l1 mul1mx subrr mulmx0; exact: mxE.
move=> Q hQ.
have QE x : Q x = ag_Vh g *m inner Bm (ag_Vh g) x.
  have [/l2[c ec] ho] := hQ x.
  suff : inner Bm (ag_Vh g) (x - Q x) = 0.
    by rewrite (innerBr vBm) ec (innerMr vBm) l1 mul1mx => /eqP; rewrite subr_eq0 => /eqP<-.
  apply/matrixP => i j; rewrite (inner_entry vBm) [RHS]mxE.
  have -> : col j (x - Q x) = x - Q x by apply/matrixP => s1 s2; rewrite !mxE !ord1.
  by apply: ho; apply/l2; exists (delta_mx i 0); rewrite colE.
split.
- move=> c x y; have -> : Pw (MA (c *: x + y)) = c *: Pw (MA x) + Pw (MA y).
    by rewrite hMA /Pw /defl_P (innerDr vBm) (innerZr vBm) mulmxDr -scalemxAr scalerBr opprD addrACA.
  by rewrite !QE (innerDr vBm) (innerZr vBm) mulmxDr -scalemxAr.
- rewrite -HE; apply/matrixP => i j; rewrite mxE QE [LHS]mxE [RHS]mxE; apply: eq_bigr => s _; congr (_ * _).
  by rewrite !(inner_entry vBm); congr (ip1 Bm _ _); apply/matrixP => s1 s2; rewrite !mxE ?ord1.
by rewrite QE [Pw _]hst (innerDr vBm) (innerZr vBm) (innerMr vBm) l5 mul0mx addr0 colE (innerMr vBm) l1 mul1mx.
Qed.

Lemma Hh_sa n r (W : 'M[C]_(N, n)) (Vh : 'M[C]_(N, r)) Hh : self_adjoint (ip1 (lB l)) A ->
  inner Bm Vh (imcols (fun x => defl_P Bm MA W (MA x)) Vh) = Hh -> Hh^h = Hh.
Proof.
have hip := valid_is_ip (lo_B hl); have hipm := valid_is_ip vBm.
have hMA : is_linear MA by move=> c x y; rewrite (lMlAMr_lin hl) (lo_M hl).
move=> sa <-; have sMA : self_adjoint (ip1 Bm) MA.
  by move=> x y; rewrite hadj (ip_conj hipm) hadj -(ip_conj hip) sa.
have sP := deflP_sa W vBm hMA sMA.
have cE s : col s (imcols (fun x => defl_P Bm MA W (MA x)) Vh) = defl_P Bm MA W (MA (col s Vh)).
  by apply/matrixP => s1 s2; rewrite !mxE ord1.
by apply/matrixP => i j; rewrite ctrE !(inner_entry vBm) !cE -(ip_conj hipm) sP.
Qed.

Theorem C66_attributes n_ n (b : byprod C N n_ n m) (ex : Prop) :
  Properties.DeflRitz.rel_ok l U x0 Bm ob b ex -> ex -> predicts b.
Proof.
move=> R hex ra n0 k r Wt v w t gn wgw W Pw sigma S hkr hD hf hh hm hres.
have [a [q [al [Vh [Hh [ea eo [al1 q0 l1 l3] [_ HE eQ] hQ]]]]]] := setting gn wgw R hex ra n0 hkr hD hf hh hm hres.
have hipm := valid_is_ip vBm.
exists a => //; rewrite /= eo; case hg: (_ || _) => //.
have tri : fl -> forall i j : 'I_r.+1, (i.+1 < j)%N -> Hh i j = 0.
  by move=> f i j ij; rewrite -(Hh_sa (hfl f) HE) ctrE l3 // conjC0.
have [|rs [er sz _ _ _]] := @Properties.ResNorms.C33_residual_norms C r r.+1 Hh fl (or_intror erefl) l3.
  by move=> f i j /orP[/l3 //|]; apply: tri.
rewrite /= [get_residual_norms _ _ _ _]er /=; eexists; first by [].
split=> // Q /hQ[hT hV ->].
have d0 : rhs_norm l - gn != 0 by rewrite subr_eq0; apply/eqP => e; rewrite e lexx orbT in hg.
have -> : [seq x * (rhs_norm l - gn) | x <- [seq x * q / (rhs_norm l - gn) | x <- rs]] = [seq x * `|al * q| | x <- rs].
  by rewrite -map_comp; apply: eq_map => x /=; rewrite normrM al1 mul1r (ger0_norm q0) mulfVK.
case: (eqVneq (al * q) 0) => [->|t0].
  rewrite scale0r mulmx0; apply: (optimal0 hipm hT); first by rewrite size_map.
  move=> i; case: (ltnP i (size rs)) => ir; first by rewrite (nth_map 0) // normr0 mulr0.
  by rewrite nth_default // size_map.
apply: (tr_optimal vBm hT l1 hV); exact: (small_optimal l3 t0 tri er).
Qed.

Theorem C66_gmres s : ortho_ok l ortho ->
  of_run (deflated_gmres sqr snorm l Minv same U kw o ortho x0) s ->
  let a := gm_a (s_st s).1 in a_inv a = false \/ a_H a (a_iter a) (a_iter a).-1 = 0 ->
  predicts (arn_byprod l fl ob a (s_st s).2).
Proof.
move=> ho hs a; apply: C66_attributes.
exact: (Properties.DeflRitz.C31_gmres hsqr hl ha eBm vBm hadj hsep hfl hMr nb hob ho hs).
Qed.

Theorem C66_minres s : ortho_ok l ortho -> self_adjoint (ip1 (lB l)) A ->
  of_run (deflated_minres sqr snorm l Minv same U kw o ortho x0) s ->
  let a := mr_a (s_st s).1 in a_inv a = false \/ a_H a (a_iter a) (a_iter a).-1 = 0 ->
  predicts (arn_byprod l fl ob a (s_st s).2).
Proof.
move=> ho sa hs a; apply: C66_attributes.
exact: (Properties.DeflRitz.C31_minres hsqr hl ha eBm vBm hadj hsep hfl hMr nb hob ho sa hs).
Qed.

(** The same for DeflatedCg with tolerance tol: for a self-adjoint and positive definite operator the result,
    multiplied by ||M Ml b|| - g_norm, are the residual norms of a Galerkin method for the same operator and
    right hand side. *)
Definition predicts_cg tol n_ n (b : byprod C N n_ n m) : Prop :=
  rank_args pqr nrm2 l ob b Bm -> (0 < n_)%N -> forall k r (Wt : 'M[C]_(n + m, k)) v w r0norm g_norm WGW_norm,
  let W := dbasis ob b *m Wt in let Pw := defl_P Bm MA W in
  let sigma := smin (inner Bm W (imcols MA W)) in
  let S x := (exists z c, K n z /\ x = z + U *m c) /\ inner Bm W x = 0 in
  (k + r.+1 = n + m)%N -> inner Bm W (imcols MA W) \in unitmx -> fqr_ok Wt (fqr Wt) ->
  (forall A : 'M[C]_r.+1, hess_ok A (hess A).1 (hess A).2) -> ((0 < k)%N -> forall G : 'M[C]_k, smin_ok G (smin G)) ->
  d_res0 l ob x0 = Ok (v, w, r0norm) ->
  exists2 a, init b = Ok a &
  let out := bound_pseudo sqr fqr hess smin l Minv ob b a r0norm (d_UMlr l ob x0) (BpCg tol) fl Wt r g_norm WGW_norm in
  if ((0 < k)%N && (sigma <= WGW_norm)) || (rhs_norm l <= g_norm) then out = Err AssumptionError else
  exists2 bs, out = Ok bs & (exists Q, orth_proj (ip1 Bm) S Q) /\ forall Q, orth_proj (ip1 Bm) S Q ->
    galerkin_norms (ip1 Bm) (fun x => Q (Pw (MA x))) (Q (Pw (M r0))) r.+1 tol
      [seq x * (rhs_norm l - g_norm) | x <- bs].

Theorem C66_cg_attributes tol n_ n (b : byprod C N n_ n m) (ex : Prop) :
  0 <= tol -> self_adjoint (ip1 (lB l)) A -> pos_def (ip1 (lB l)) A ->
  Properties.DeflRitz.rel_ok l U x0 Bm ob b ex -> ex -> predicts_cg tol b.
Proof.
move=> tol0 sa pd R hex ra n0 k r Wt v w t gn wgw W Pw sigma S hkr hD hf hh hm hres.
have [a [q [al [Vh [Hh [ea eo [al1 q0 l1 l3] [WV HE eQ] hQ]]]]]] := setting gn wgw R hex ra n0 hkr hD hf hh hm hres.
have hipm := valid_is_ip vBm; have hMA : is_linear MA by move=> c x y; rewrite (lMlAMr_lin hl) (lo_M hl).
exists a => //; rewrite /= eo; case hg: (_ || _) => //.
have pMA : pos_def (ip1 Bm) MA by move=> x x0'; rewrite hadj; apply: pd.
have sH : self_adjoint (ip1 (@IpNone C r.+1)) (fun x => Hh *m x).
  by move=> x y; rewrite !ip1X /inner /ip_euclid ?tconjE ctrM (Hh_sa sa HE) mulmxA.
have pH : pos_def (ip1 (@IpNone C r.+1)) (fun x => Hh *m x).
  move=> y y0; have -> : ip1 (@IpNone C r.+1) y (Hh *m y) = ip1 Bm (Vh *m y) (Pw (MA (Vh *m y))).
    have -> : Pw (MA (Vh *m y)) = imcols (fun x => Pw (MA x)) Vh *m y.
      rewrite (imcols_vec (f := fun x => Pw (MA x))) // => c z1 z2.
      by rewrite hMA /Pw /defl_P (innerDr vBm) (innerZr vBm) mulmxDr -scalemxAr scalerBr opprD addrACA.
    by rewrite !ip1X (innerMl vBm) (innerMr vBm) HE.
  apply: (deflP_pd vBm hMA pMA hD (WV y)); apply: contra_neq y0; exact: (tr_inj vBm l1).
have [rs er hrs] := small_cg hsqr sH pH q0 fl tol0.
rewrite er /=; eexists; first by [].
split=> // Q /hQ[hT hV ->].
have d0 : rhs_norm l - gn != 0 by rewrite subr_eq0; apply/eqP => e; rewrite e lexx orbT in hg.
have -> : [seq x * (rhs_norm l - gn) | x <- [seq x * q / (rhs_norm l - gn) | x <- rs]] = [seq x * q | x <- rs].
  by rewrite -map_comp; apply: eq_map => x /=; rewrite mulfVK.
rewrite -scalerA -scalemxAr; apply: (galerkin_scale hipm hT al1); exact: (tr_galerkin vBm hT l1 hV).
Qed.

Theorem C66_cg tol s : 0 <= tol -> self_adjoint (ip1 (lB l)) A -> pos_def (ip1 (lB l)) A -> P r0 <> 0 ->
  deflated_cg sqr l Minv same U kw o true x0 = Returns s ->
  let t := (s_st s).1 in
  predicts_cg tol (mk_byprod l fl ob (cg_it t).+1 (cg_it t) (cg_V t) (cg_H t) (rev (s_st s).2.2)).
Proof.
move=> tol0 sa pd nr hs t; apply: (C66_cg_attributes (ex := True)) => //.
exact: (Properties.DeflRitz.C31_cg hsqr hl ha eBm vBm hadj hsep hfl hMr nb hob sa pd nr hs).
Qed.
End Runs.

(** The run of the example C56_run: the two norms are ||Q Pw M r0|| / ||M Ml b|| and 0; AssumptionError is
    raised if g_norm is the norm of the right hand side. *)
Section Example.
Variable C : numClosedFieldType.
Local Notation l := (Properties.Deflation.dex_lsys C).
Local Notation Mi := (Properties.Deflation.dex_Minv C).
Local Notation kw := Properties.Deflation.dex_kw.
Local Notation hq := (@some_qr_spec C).

Example C66_run : exists ob s, let a := gm_a (s_st s).1 in let b := arn_byprod l true ob a (s_st s).2 in
  [/\ mk_oblique (@some_qr C) l Mi false (e0 C) kw = Ok ob,
      deflated_gmres (@some_qr C) (@frob C) l Mi false (e0 C) kw (Opts 0 2 false) Mgs None = Returns s
    & exists f t bs, let bound g := bound_pseudo (@some_qr C) (@ex_fqr C) (@ex_hess C) (@ex_smin C) l Mi ob b f t (d_UMlr l ob None)
        (BpMinimal C) true (\matrix_(i, j) (i == 0%N :> nat)%:R : 'M[C]_(_, 1)) 0 g 0 in
      [/\ mk_arnf (@some_qr C) (@ex_pqr C) (@ex_nrm2 C) l Mi ob b = Ok f, bound 0 = Ok bs,
          size bs = 2%N, nth 0 bs 1 = 0 & bound (rhs_norm l) = Err AssumptionError]].
Proof.
have ok := Properties.Deflation.dex_ok C; have args := Properties.Deflation.dex_args C.
have [ob [s [B [hob E [i1 e1] [eB vB hadj sep R] [h1 h2 h3 h4 h5]]]]] := ex_run C.
have mr (c : 'cV[C]_1) : lMr l (e0 C *m c) = e0 C *m c by [].
have sa : true -> self_adjoint (ip1 (lB l)) (lMlAMr l) by move=> _; apply: Properties.Deflation.dex_sa.
exists ob, s; split=> //.
have pr := C66_attributes (fqr := @ex_fqr C) (hess := @ex_hess C) (smin := @ex_smin C) hq ok args eB vB hadj sa mr hob R I h1.
have rn : 0 < rhs_norm l.
  rewrite lt_def (rhs_norm_eq0 ok) sqrtC_ge0 (ip_ge0' (lmip ok)) andbT; apply/eqP; exact: Properties.Deflation.dex_nz.
have [||f ef] := pr _ 1%N 0%N _ _ _ _ 0 0 _ h2 h3 h4 (fun _ => h5) (ko_res (defl_kd hq ok args hob mr None)).
- by rewrite e1.
- by rewrite i1.
rewrite /= [rhs_norm l <= 0]lt_geF // orbF lt_geF => [|]; last first.
  rewrite normr_gt0; apply: contraTneq h2 => h0; rewrite unitmxE det_mx11 unitfE negbK; apply/eqP.
  by move: h0; rewrite /mxtrace big_ord1 => h0; exact: h0.
case=> bs eb [[Q oQ] /(_ Q oQ)[sz _ _ la _]].
have [||f' ef'] := pr _ 1%N 0%N _ _ _ _ (rhs_norm l) 0 _ h2 h3 h4 (fun _ => h5) (ko_res (defl_kd hq ok args hob mr None)).
- by rewrite e1.
- by rewrite i1.
rewrite /= lexx orbT; move: ef'; rewrite ef => -[<-] ee.
exists f; eexists; exists bs; split=> //; [exact: eb|by move: sz; rewrite size_map| |exact: ee].
move: la; rewrite (nth_map 0); last by move: sz; rewrite size_map => ->.
by move/eqP; rewrite mulf_eq0 subr0 (gt_eqF rn) orbF => /eqP.
Qed.
End Example.

Print Assumptions C66_attributes.
Print Assumptions C66_gmres.
Print Assumptions C66_minres.
Print Assumptions C66_cg_attributes.
Print Assumptions C66_cg.
Print Assumptions C66_run.
