(** The small systems of bound_pseudo for DeflatedCg. *)
From mathcomp Require Import all_ssreflect all_algebra.
From Verif Require Import Base Spec.LinAlg Proof.Algebra Proof.IpTheory Model.Inner Spec.Inner Proof.Inner Model.Solver Model.LinearSystem Model.Krylov Spec.Krylov.
From Verif Require Import Model.Arnoldi Spec.Solver Proof.LinearSystem Proof.Gmres Model.Projection Spec.Projection Model.Deflation Spec.Deflation Proof.Projection Proof.Deflation Proof.Qr Proof.DeflRitz.
From Verif Require Import Model.Ritz Proof.Ritz Spec.BoundPseudo Model.BoundPseudo Proof.BoundPseudo.
From Verif Require Properties.Cg Properties.Deflation.

Set Implicit Arguments.
Unset Strict Implicit.
Unset Printing Implicit Defensive.
Import Order.TTheory GRing.Theory Num.Theory.
Local Open Scope ring_scope.

Section Small.
Variable C : numClosedFieldType.
Variable sqr : forall n k, 'M[C]_(n, k) -> 'M[C]_(n, k) * 'M[C]_k.
Hypothesis hsqr : qr_spec sqr.
Variable r : nat.
Variable H : 'M[C]_r.+1.
Local Notation T := (fun x : 'cV[C]_r.+1 => H *m x).
Local Notation ip := (ip1 (@IpNone C r.+1)).
Hypothesis hsa : self_adjoint ip T.
Hypothesis hpd : pos_def ip T.
Variable t : C.
Hypothesis t0 : 0 <= t.
Local Notation e := (delta_mx 0 0 : 'cV[C]_r.+1).
Local Notation l := (small_lsys H t).
Let hip : is_ip ip := valid_is_ip (B := IpNone) I.

Lemma small_ok : lsys_ok l.
Proof.
split=> //= [a x y|x x0]; first by rewrite mulmxDr -scalemxAr.
by rewrite lt_def (ip_eq0 hip) x0 (ip_ge0' hip).
Qed.

Lemma e_norm : ipnorm ip e = 1.
Proof.
rewrite /ipnorm; suff -> : ip e e = 1 by rewrite sqrtC1.
by rewrite ip1X /inner !mxE (bigD1 0) //= big1 => [|i i0]; rewrite !mxE ?eqxx ?(negbTE i0) ?conjC1 ?conjC0 ?mulr1 ?mulr0 ?mul0r ?addr0.
Qed.

Lemma small_rhs : rhs_norm l = t.
Proof. by rewrite -[LHS]/(ipnorm ip (t *: e)) (ipnormZ hip) e_norm mulr1 ger0_norm. Qed.

Lemma small_cg tol sa : 0 <= tol ->
  exists2 rs, bp_resnorms sqr (BpCg tol) sa H t = Ok rs &
    galerkin_norms ip T (t *: e) r.+1 tol [seq x * t | x <- rs].
Proof.
move=> tol0; have ok := small_ok.
have hB : exists2 B, get_ip_Minv_B l None = Ok B & valid_ip B by exists IpNone.
have [//|//|_ _ E] := @Properties.Deflation.C29_no_deflation C sqr hsqr r.+1 (fun _ _ _ => 0) l ok None false (PKw 0 true 2) _ _ hB
  (Opts tol r.+1 false) Mgs false None.
have nE : ipnorm ip (t *: e) = t by rewrite (ipnormZ hip) e_norm mulr1 ger0_norm.
rewrite /bp_resnorms; case: (eqVneq t 0) => tz.
  have [|s Es [_ _ es]] := Properties.Cg.C26_cg_zero_rhs (o := Opts tol r.+1 false) false None ok tol0.
    by rewrite /= tz scale0r.
  move: E; rewrite Es; case: deflated_cg => //= s' [e']; exists (s_res s') => //.
  rewrite -e' /= in es; rewrite es /= mul0r; split=> //=; last by rewrite nE mulr_ge0.
  case=> // _; exists 0; rewrite /= mulmx0 subr0 nE tz; split=> //; first by exists (fun _ => 0); rewrite big_ord0.
  by move=> y _; rewrite (ipZr hip) mul0r.
have nz : lMl l (lb l) <> 0.
  by move=> /= /(congr1 (ipnorm ip)); rewrite nE (ipnorm0 hip) => /eqP; rewrite (negbTE tz).
have [//|//|s Es [it [xk exk hxk]]] := Properties.Cg.C28_cg_converges (o := Opts tol r.+1 false) (store := false) None ok hsa hpd isT nz.
have [sz [xk' exk' hl]] := Properties.Cg.C21_cg_last_norm ok hsa hpd nz (or_introl Es).
move: exk'; rewrite exk => -[?]; subst xk'.
have hg i := Properties.Cg.C21_cg_galerkin ok hsa hpd (i := i) nz (or_introl Es).
move: E; rewrite Es; case: deflated_cg => //= s' [e']; exists (s_res s') => //.
rewrite -e' small_rhs /= in sz hl hxk it; rewrite -e' small_rhs in hg.
split.
- by rewrite size_map sz.
- move=> i; rewrite size_map => hi; have [z [h1 h2 h3]] := hg i hi; exists z.
  have e0 : resid l (x0_of None) = t *: e by rewrite /resid /= mulmx0 subr0.
  have ez : resid l (x0_of None + lMr l z) = t *: e - H *m z by rewrite /resid /= add0r.
  rewrite ez in h2 h3; rewrite e0 in h1 h2; split=> //.
  by rewrite (nth_map 0) // h3 divfK // /resid_norm ez.
- have -> : last 0 [seq x * t | x <- s_res s'] = last 0 (s_res s') * t by rewrite -[RHS](last_map (fun x => x * t)) mul0r.
  by rewrite nE hl divfK.
Qed.
End Small.

Lemma galerkin_scale (C : numClosedFieldType) N (ip : 'cV[C]_N -> 'cV[C]_N -> C) T u d tol rs (al : C) : is_ip ip -> is_linear T ->
  `|al| = 1 -> galerkin_norms ip T u d tol rs -> galerkin_norms ip T (al *: u) d tol rs.
Proof.
move=> hip hT al1 [h1 h2 h3].
have kE j : krylov T (al *: u) j = al *: krylov T u j by elim: j => //= j ->; rewrite (linZ hT).
split=> // [i hi|]; last by rewrite (ipnormZ hip) al1 mul1r.
have [z [k1 k2 k3]] := h2 i hi; exists (al *: z).
have rE : al *: u - T (al *: z) = al *: (u - T z) by rewrite (linZ hT) scalerBr.
split.
- by case: k1 => c ->; exists c; rewrite scaler_sumr; apply: eq_bigr => j _; rewrite kE !scalerA mulrC.
- move=> y [c ->]; rewrite rE (ipZr hip).
  have -> : \sum_(j < i) c j *: krylov T (al *: u) j = al *: \sum_(j < i) c j *: krylov T u j.
    by rewrite scaler_sumr; apply: eq_bigr => j _; rewrite kE !scalerA mulrC.
  by rewrite (ipZl hip) k2 ?mulr0 //; exists c.
- by rewrite rE (ipnormZ hip) al1 mul1r.
Qed.

Lemma tr_galerkin (C : numClosedFieldType) N (B : ipB C N) T r (V : 'M[C]_(N, r)) (H : 'M[C]_r) u n tol rs :
  valid_ip B -> is_linear T -> inner B V V = 1%:M -> imcols T V = V *m H ->
  galerkin_norms (@ipE C r) (fun x => H *m x) u n tol rs -> galerkin_norms (ip1 B) T (V *m u) n tol rs.
Proof.
move=> hB hT oV hV [h1 h2 h3]; split=> // [i hi|]; last by rewrite (tr_norm hB oV).
have [z [k1 k2 k3]] := h2 i hi; exists (V *m z); rewrite (tr_T hT hV) -mulmxBr (tr_norm hB oV); split=> //.
  exact: (tr_span hT hV).
by move=> x /(span_tr hT hV)[y -> Ky]; rewrite (tr_ip hB oV) k2.
Qed.

(** The deflated operator is positive definite on the vectors orthogonal to W if the operator is. *)
Lemma deflP_pd (C : numClosedFieldType) N (B : ipB C N) (T : 'cV[C]_N -> 'cV[C]_N) k (W : 'M[C]_(N, k)) x :
  valid_ip B -> is_linear T -> pos_def (ip1 B) T -> inner B W (imcols T W) \in unitmx ->
  inner B W x = 0 -> x != 0 -> 0 < ip1 B x (defl_P B T W (T x)).
Proof.
move=> hB hT pd hu hx x0; have hip := valid_is_ip hB.
pose c := invmx (inner B W (imcols T W)) *m inner B W (T x); pose y := x - W *m c.
have e1 : defl_P B T W (T x) = T y by rewrite /defl_P /y (linB hT) -(imcols_vec hT) !mulmxA.
have e2 : inner B W (T y) = 0.
  by rewrite -e1 /defl_P (innerBr hB) -mulmxA (innerMr hB) mulmxA mulmxV // mul1mx subrr.
have y0 : y != 0.
  apply: contra_neq x0 => h; have xE : x = W *m c by apply/eqP; rewrite -subr_eq0 -/y h.
  by apply/eqP; rewrite -(ip_eq0 hip) {1}xE ip1X (innerMl hB) hx mulmx0 mxE.
have -> : ip1 B x (defl_P B T W (T x)) = ip1 B y (T y).
  rewrite e1 /y (ipBl hip) [X in _ - X](_ : _ = 0) ?subr0 //.
  by rewrite ip1X (innerMl hB) e2 mulmx0 mxE.
exact: pd.
Qed.
