(** C69: bound_pseudo with pseudospectra.  C70: bound_perturbed_gmres. *)
From mathcomp Require Import all_ssreflect all_algebra perm ring complex.
From Verif Require Import Base Spec.LinAlg Proof.Algebra Model.Ritz Spec.Ritz Proof.Ritz Model.Inner Spec.Inner Proof.Inner Proof.IpTheory.
From Verif Require Import Model.Arnoldi Spec.Arnoldi Proof.Arnoldi Proof.ArnoldiRel Proof.ArnoldiAll Proof.ArnoldiExample Model.Solver Model.LinearSystem Model.Krylov Spec.Krylov.
From Verif Require Import Spec.Solver Proof.Solver Proof.SolverInv Proof.Gmres Proof.Minres Proof.LinearSystem Proof.CgTheory Proof.Cg Proof.Logged.
From Verif Require Import Model.Interval Spec.Interval Model.Poly.
From Verif Require Import Model.Projection Spec.Projection Model.Deflation Spec.Deflation.
From Verif Require Import Proof.Qr Proof.QrExist Proof.Projection Proof.Deflation Model.DeflRitz Spec.DeflRitz Proof.DeflRitz Proof.DeflRel.
From Verif Require Import Model.Arnoldifyer Spec.Arnoldifyer Proof.Arnoldifyer Properties.Arnoldifyer Spec.Measures.
From Verif Require Import Model.ResNorms Model.BoundPseudo Spec.BoundPseudo Proof.BoundPseudo Properties.BoundPseudo.
From Verif Require Import Model.Pseudo Spec.Pseudo Proof.Pseudo.
From Verif Require Properties.Solver Properties.Deflation Properties.DeflRitz Properties.Poly.

Set Implicit Arguments.
Unset Strict Implicit.
Unset Printing Implicit Defensive.
Import Order.TTheory GRing.Theory Num.Theory.
Local Open Scope ring_scope.
Local Open Scope complex_scope.

Section Runs.
Variable R : rcfType.
Local Notation C := [numClosedFieldType of R[i]].
Local Notation re := (@complex.Re R).
Variable pi : R.
Hypothesis pi0 : 0 < pi.
Variable argsort : seq C -> seq nat.
Hypothesis hargsort : Properties.Poly.argsort_perm argsort.
Variable sqr : forall n k, 'M[C]_(n, k) -> 'M[C]_(n, k) * 'M[C]_k.
Hypothesis hsqr : qr_spec sqr.
Variable eigs : forall n, 'M[C]_n -> seq C.
Hypothesis heigs : forall n (A : 'M[C]_n), spectrum A (eigs A).
Variable eigh : forall n, 'M[C]_n -> seq R.
Variable gev : forall n, 'M[C]_n -> 'M[C]_n -> seq C.
Hypothesis hgev : gev_ok gev.
Variable nrm : forall p q, 'M[C]_(p, q) -> R.
Hypothesis hnrm : forall p q (X : 'M[C]_(p, q)), (0 < p)%N -> (0 < q)%N -> block_norm (@ipE C p) X (nrm X)%:C.
Variable evcond : forall n, 'M[C]_n -> R.
Variable nonnormal_paths : forall n, 'M[C]_n -> R -> R -> R -> R * seq C.
Variable normal_paths : seq C -> R -> R * seq C.
Variable pick : (R -> res R) -> R -> R -> nat -> R.
Hypothesis hpick : forall f lo hi n, lo <= hi -> lo <= pick f lo hi n <= hi.
Variable proots : {poly R} -> seq R.
Hypothesis hproots : forall (q : {poly R}) y, q != 0 -> root q y -> y \in proots q.
Variable orders : nat -> itvs R -> itvs R.
Hypothesis horders : forall n, some_order (orders n).
Variable fqr : forall n k, 'M[C]_(n, k) -> 'M[C]_n.
Variable pqr : forall n k, 'M[C]_(n, k) -> 'M[C]_(n, minn n k) * 'M[C]_(minn n k, k) * {perm 'I_k}.
Variable hess : forall n, 'M[C]_n -> 'M[C]_n * 'M[C]_n.
Variables nrm2 smin : forall n, 'M[C]_n -> C.
Variable N m : nat.
Local Notation vec := 'cV[C]_N.
Variable l : lsys C N.
Hypothesis hl : lsys_ok l.
Variables (Minv : option (vec -> vec)) (same : bool) (U : 'M[C]_(N, m)) (kw : pkwargs).
Hypothesis ha : defl_args sqr l Minv same U kw.
Local Notation A := (lMlAMr l).
Local Notation M := (lMop l).
Local Notation MA := (fun x => M (A x)).
Local Notation P := (defl_P (lB l) A U).
Variables (snorm : nat -> nat -> (nat -> nat -> C) -> C).
Variables (o : opts C) (ortho : ortho_t) (x0 : option vec) (fl : bool).
Variable Bm : ipB C N.
Hypothesis eBm : get_ip_Minv_B l Minv = Ok Bm.
Hypothesis vBm : valid_ip Bm.
Hypothesis hadj : forall x y, ip1 Bm x (M y) = ip1 (lB l) x y.
Hypothesis hsep : separated (ip1 Bm) (eps15 C) U.
Hypothesis hfl : fl -> self_adjoint (ip1 (lB l)) A.
Hypothesis hMr : forall c, lMr l (U *m c) = U *m c.
Hypothesis nb : lMl l (lb l) <> 0.
Variable ob : obl C N m.
Hypothesis hob : mk_oblique sqr l Minv same U kw = Ok ob.
Local Notation r0 := (resid l (x0_of x0)).
Local Notation K := (in_krylov (fun v => P (A v)) M (P r0)).
Local Notation init b := (mk_arnf sqr pqr nrm2 l Minv ob b).
Local Notation full b a t := (bound_pseudo_full pi argsort sqr eigs eigh gev nrm evcond nonnormal_paths normal_paths
  pick proots orders fqr hess smin l Minv ob b a t (d_UMlr l ob x0)).
Local Notation bounds := (bp_bounds pi argsort sqr eigs eigh gev nrm evcond nonnormal_paths normal_paths pick proots orders).

Section Attributes.
Variables (n_ n : nat) (b : byprod C N n_ n m) (ex : Prop).
Hypothesis rel : Properties.DeflRitz.rel_ok l U x0 Bm ob b ex.
Hypothesis hex : ex.
Hypothesis ra : rank_args pqr nrm2 l ob b Bm.
Hypothesis n0 : (0 < n_)%N.
Variables (k r : nat) (Wt : 'M[C]_(n + m, k)) (v w : vec) (r0norm : C).
Local Notation W := (dbasis ob b *m Wt).
Local Notation Pw := (defl_P Bm MA W).
Local Notation sigma := (smin (inner Bm W (imcols MA W))).
Hypothesis hkr : (k + r.+1 = n + m)%N.
Hypothesis hD : inner Bm W (imcols MA W) \in unitmx.
Hypothesis hf : fqr_ok Wt (fqr Wt).
Hypothesis hh : forall A : 'M[C]_r.+1, hess_ok A (hess A).1 (hess A).2.
Hypothesis hm : (0 < k)%N -> forall G : 'M[C]_k, smin_ok G (smin G).
Hypothesis hres : d_res0 l ob x0 = Ok (v, w, r0norm).

Local Notation refused gn wgw := (((0 < k)%N && (sigma <= wgw%:C)) || (rhs_norm l <= gn%:C)).

Lemma full_setting : exists a g, [/\ init b = Ok a,
    arnf_get sqr fqr hess smin l Minv ob b a r0norm (d_UMlr l ob x0) Wt r = Ok g,
    [/\ 0 <= ag_q g, 0 <= ag_vdiff g & 0 <= ag_PWAW g], fl -> (ag_Hh g)^h = ag_Hh g
  & forall pt cl nl gn Gn GWn wgw dn tf, full b a r0norm pt cl nl fl Wt r gn Gn GWn wgw dn tf =
    if refused gn wgw then Err AssumptionError else
    let eta := if (0 < k)%N then GWn / (re sigma - wgw) else 0 in
    let beta := re (ag_PWAW g) * (eta * (re (rhs_norm l) + gn) + gn) + re (ag_vdiff g) in
    bind (bp_resnorms sqr cl fl (ag_Hh g) (ag_q g)) (fun rs =>
      let ares := [seq x * ag_q g | x <- rs] in
      if pt is PtOmit then Ok [seq x / (rhs_norm l - gn%:C) | x <- ares] else
      bind (bounds pt (if cl is BpCg _ then true else false) nl fl (ag_Hh g) (ag_Rh g)
               (re (ag_PWAW g)) eta Gn (re (ag_q g)) beta dn tf (map re ares))
        (fun ys => Ok [seq y%:C / (rhs_norm l - gn%:C) | y <- ys]))].
Proof.
have [a [g [ea eg [l1 l2 l3 l4 l5 l6 l7 l8 l9] [al [d [al1 q0 hst hv]]] [_ [z z0 hz]]]]] :=
  C56_attributes hsqr hl ha eBm hMr hob rel hex ra n0 hkr hD hf hh hm hres.
have hipm := valid_is_ip vBm.
case: rel => hn [W' [hr hAU W0 _ _]]; have hMA := MA_lin hr.
exists a, g; split=> //.
- split=> //; first by rewrite hv (ipnorm_ge0 hipm).
  have zp : 0 < ipnorm (ip1 Bm) z by rewrite (ipnorm_gt0 hipm).
  by rewrite -(pmulr_lge0 _ zp) -hz (ipnorm_ge0 hipm).
- move=> f; have HE : inner Bm (ag_Vh g) (imcols (fun x => Pw (MA x)) (ag_Vh g)) = ag_Hh g.
    by rewrite l6 (innerDr vBm) !(innerMr vBm) l1 l5 mul1mx mul0mx addr0.
  exact: (Hh_sa hl vBm hadj (hfl f) HE).
move=> pt cl nl gn Gn GWn wgw dn tf; rewrite /bound_pseudo_full eg [LHS]/=.
have -> : tconj Wt *m (aJ ob b *m (dL b (af_X a) *m Wt)) = inner Bm W (imcols MA W).
  have [e1 e2] := C54_gram hr (afX eBm ea); rewrite tconjE (mulmxA (aJ ob b)) e1 e2 mulmxA.
  by rewrite (dbasisE ob b hn) (imcolsM hMA) (innerMl vBm) (innerMr vBm) -mulmxA.
by rewrite (bnorm_ok hl); case: (_ && _).
Qed.

(** For pseudo_type="omit" this is the function of C66. *)
Theorem C69_omit a cl nl gn Gn GWn wgw dn tf : full b a r0norm PtOmit cl nl fl Wt r gn Gn GWn wgw dn tf =
  bound_pseudo sqr fqr hess smin l Minv ob b a r0norm (d_UMlr l ob x0) cl fl Wt r gn%:C wgw%:C.
Proof.
rewrite /bound_pseudo_full /bound_pseudo; case: (arnf_get _ _ _ _ _ _ _ _ _ _ _ _ _) => //= g.
case: (_ && _) => //; case: (lMMlb_norm l) => //= bn; case: (_ <= _) => //.
by case: (bp_resnorms _ _ _ _ _) => //= rs; rewrite -map_comp.
Qed.

Lemma eigs_nil q (X : 'M[C]_q.+1) : eigs X != [::].
Proof.
apply: contraTneq isT => e; have h : char_poly X = \prod_(x <- eigs X) ('X - x%:P) := heigs X.
by have := congr1 (fun q : {poly C} => size q) h; rewrite size_char_poly e big_nil size_poly1.
Qed.

Lemma nrm_ge0 q1 q2 (X : 'M[C]_(q1, q2)) : (0 < q1)%N -> (0 < q2)%N -> 0 <= nrm X.
Proof. by move=> h1 h2; have := bn_ge0 (hnrm X h1 h2); rewrite lecR. Qed.

Variables (nl : bool) (gn Gn GWn wgw : R) (dn : nat) (tf : R).
Hypotheses (g0 : 0 <= gn) (G0 : 0 <= Gn) (GW0 : 0 <= GWn) (wgw0 : 0 <= wgw).

Lemma eta_ge0 : refused gn wgw = false -> 0 <= (if (0 < k)%N then GWn / (re sigma - wgw) else 0).
Proof.
case: (posnP k) => //= k0 /norP[+ _]; have [+ s0] := re_of (sm_0 (hm k0 (inner Bm W (imcols MA W)))).
by move=> e; rewrite -[smin _]e lecR -ltNge => h; rewrite divr_ge0 // subr_ge0 ltW.
Qed.

Lemma rhs_gt : refused gn wgw = false -> [/\ rhs_norm l = (re (rhs_norm l))%:C, gn < re (rhs_norm l) & 0 < rhs_norm l - gn%:C].
Proof.
have r0' : 0 <= rhs_norm l by rewrite sqrtC_ge0; apply: (ip_ge0' (lmip hl)).
have [e _] := re_of r0'; move=> /norP[_]; rewrite -e lecR -ltNge => h; split=> //.
by rewrite -rmorphB -[0]/(0%:C) ltcR subr_gt0.
Qed.

(** What bound_pseudo computes, unless it raises AssumptionError *)
Lemma core : refused gn wgw = false -> exists a g, let p := (n_ - n + af_l a)%N in
  let eta := if (0 < k)%N then GWn / (re sigma - wgw) else 0 in
  let beta := re (ag_PWAW g) * (eta * (re (rhs_norm l) + gn) + gn) + re (ag_vdiff g) in
  let evals := if fl then [seq (re x)%:C | x <- eigs (ag_Hh g)] else eigs (ag_Hh g) in
  [/\ init b = Ok a /\ arnf_get sqr fqr hess smin l Minv ob b a r0norm (d_UMlr l ob x0) Wt r = Ok g,
      [/\ 0 <= re (ag_q g), 0 <= re (ag_PWAW g), 0 <= eta & 0 <= beta], fl -> (ag_Hh g)^h = ag_Hh g
    & exists ares path me, [/\ is_max (fun x => x \in evals) (fun x => re `|x|) me, size ares = r.+2, sorted >=%R ares,
      bound_pseudo sqr fqr hess smin l Minv ob b a r0norm (d_UMlr l ob x0) (BpMinimal C) fl Wt r gn%:C wgw%:C =
        Ok [seq y%:C / (rhs_norm l - gn%:C) | y <- ares]
      & forall pt, pt <> PtOmit -> full b a r0norm pt (BpMinimal C) nl fl Wt r gn Gn GWn wgw dn tf =
        if p == 0%N then Err ValueError else
        bind (bp_loop pi argsort sqr eigh gev nrm pick proots orders (if pt is PtContain then PtContain else PtUnknown)
          (BpData false fl (ag_Hh g) (ag_Rh g) (re (ag_PWAW g)) eta Gn (re (ag_q g)) beta evals (nrm (ag_Hh g)) (100%:R * me) path dn tf)
          1 (nth 0 ares 0) (behead ares))
        (fun bs => Ok [seq y%:C / (rhs_norm l - gn%:C) | y <- nth 0 ares 0 :: bs])]].
Proof.
move=> nr; have [a [g [ea eg [q0 v0 p0] sH E]]] := full_setting; exists a, g.
have [a' ea' h66] := C66_attributes hsqr hl ha eBm vBm hadj hfl hMr hob rel hex ra n0 gn%:C wgw%:C hkr hD hf hh hm hres.
move: ea' h66; rewrite ea => -[ee]; subst a' => /=; rewrite -(C69_omit a (BpMinimal C) nl gn Gn GWn wgw dn tf) E nr /=.
have [q0' q0''] := re_of q0; have [_ v0'] := re_of v0; have [_ p0'] := re_of p0; have eta0 := eta_ge0 nr.
have [rE rgt rn0] := rhs_gt nr; set eta := if _ then _ else _ in eta0 *.
have beta0 : 0 <= re (ag_PWAW g) * (eta * (re (rhs_norm l) + gn) + gn) + re (ag_vdiff g).
  by rewrite addr_ge0 // mulr_ge0 // addr_ge0 // mulr_ge0 // addr_ge0 // ltW // (le_lt_trans g0).
case er: (get_residual_norms r.+1 r.+1 (mx_ent (ag_Hh g)) fl) => [rs|e] [os eo] //= [[Q oQ] /(_ Q oQ)[sz _ mono la _]].
case: eo => eo.
split=> //; set ares := [seq re i | i <- [seq x * ag_q g | x <- rs]].
have szr : size rs = r.+2 by move: sz; rewrite -eo !size_map.
have ne j : nth 0 [seq x * (rhs_norm l - gn%:C) | x <- os] j = nth 0 [seq x * ag_q g | x <- rs] j.
  rewrite -eo -!map_comp; congr nth; apply: eq_map => x /=; rewrite divfK //; exact: lt0r_neq0.
have c0 j : (j <= r.+1)%N -> 0 <= nth 0 [seq x * ag_q g | x <- rs] j.
  move=> jr; rewrite -(subKn jr); elim: (r.+1 - j)%N => [|i IH]; first by rewrite subn0 -ne la.
  case: (leqP r.+1 i) => ir; first by rewrite subnS; move: IH; rewrite (eqP (ir : (r.+1 - i == 0)%N)).
  apply: le_trans IH _; rewrite -!ne -(subnSK ir); apply: mono; by rewrite ltn_subrL.
have aE j : (j <= r.+1)%N -> (nth 0 ares j)%:C = nth 0 [seq x * ag_q g | x <- rs] j.
  by move=> jr; rewrite /ares (nth_map 0) ?size_map ?szr //; have [-> _] := re_of (c0 j jr).
have aE' : [seq y%:C | y <- ares] = [seq x * ag_q g | x <- rs].
  apply: (@eq_from_nth _ 0) => [|j]; rewrite !size_map // szr => jr.
  by rewrite (nth_map 0) ?size_map ?szr // aE.
have [me [path [hme hb]]] := boundsE pi argsort sqr eigh gev nrm evcond nonnormal_paths normal_paths pick proots orders
  false nl fl (ag_Rh g) (re (ag_PWAW g)) eta Gn (re (ag_q g)) (re (ag_PWAW g) * (eta * (re (rhs_norm l) + gn) + gn) + re (ag_vdiff g))
  dn tf ares (eigs_nil (ag_Hh g)).
exists ares, path, me; split=> //.
- by rewrite /ares !size_map szr.
- apply/(sortedP 0) => j; rewrite /ares !size_map szr => jr; rewrite -/ares; change (nth 0 ares j.+1 <= nth 0 ares j); rewrite -lecR !aE //; last exact: ltnW.
  by rewrite -!ne; apply: mono.
- by rewrite -aE' -map_comp.
move=> pt npt; rewrite E nr /= er /= -/eta -/ares hb.
have [a0 [ares' ->]] : exists a0 ares', ares = a0 :: ares'.
  have : size ares = r.+2 by rewrite /ares !size_map szr.
  by case: (ares) => // a0 ares' _; exists a0, ares'.
case: pt npt => // _; case: (_ == _) => //=; by case: (bp_loop _ _ _ _ _ _ _ _ _ _ _ _ _ _).
Qed.

Local Notation out a pt := (full b a r0norm pt (BpMinimal C) nl fl Wt r gn Gn GWn wgw dn tf).
Local Notation omit a := (bound_pseudo sqr fqr hess smin l Minv ob b a r0norm (d_UMlr l ob x0) (BpMinimal C) fl Wt r gn%:C wgw%:C).

Lemma shape_in pt : pt <> PtOmit -> exists2 a, init b = Ok a &
  if refused gn wgw then out a pt = Err AssumptionError else
  exists2 os, omit a = Ok os & forall bs, out a pt = Ok bs ->
    [/\ (0 < size bs <= size os)%N, nth 0 bs 0 = nth 0 os 0, sorted >=%R bs & forall i, (i < size bs)%N -> nth 0 os i <= nth 0 bs i].
Proof.
move=> npt; case hr: (refused gn wgw).
  by have [a [g [ea _ _ _ E]]] := full_setting; exists a => //; rewrite E hr.
have [a [g [[ea _] [q0 p0 e0 b0] _ [ares [path [me [_ sz so eo ho]]]]]]] := core hr; exists a => //.
eexists; first exact: eo; rewrite ho // => bs; case: (_ == _) => // E0; have [ys E [<-]] := bind_ok E0.
have [_ _ rn0] := rhs_gt hr; set d := BpData _ _ _ _ _ _ _ _ _ _ _ _ _ _ _ in E.
have /= H0 : 0 <= bd_Hn d by apply: nrm_ge0.
have [a0 [ares' eA]] : exists a0 ares', ares = a0 :: ares'.
  by case: (ares) sz => // a0 ares' _; exists a0, ares'.
rewrite eA /= in so E sz *.
have [szb _] := loop_values pi0 nrm_ge0 hpick (d := d) p0 e0 G0 q0 b0 H0 E isT.
have [so2 dom] := loop_shape pi0 nrm_ge0 hpick (d := d) p0 e0 G0 q0 b0 H0 E isT so (lexx a0).
have le2 (x y : R) : x <= y -> x%:C / (rhs_norm l - gn%:C) <= y%:C / (rhs_norm l - gn%:C).
  by move=> h; rewrite ler_pmul2r ?invr_gt0 // lecR.
rewrite !size_map; split=> //.
  apply/(pathP 0) => i; rewrite size_map => ib; move/(pathP 0): so2 => /(_ i ib) /le2.
  by case: i ib => [|i] ib; rewrite /= !(nth_map 0) // ltnW.
case=> [_|i] /=; first exact: lexx.
rewrite ltnS => ib; rewrite !(nth_map 0) ?(leq_trans ib szb) //; exact/le2/dom.
Qed.

(** The value of pseudo_type has no effect, except for 'omit' and 'contain': pseudo_type='hermitian' is not
    used for a system without the flag self_adjoint, and pseudo_type='nonnormal' is not used for a system with that flag. *)
Theorem C69_pseudo_type_refuted pt1 pt2 : pt1 <> PtOmit -> pt1 <> PtContain -> pt2 <> PtOmit -> pt2 <> PtContain ->
  exists2 a, init b = Ok a & out a pt1 = out a pt2.
Proof.
move=> n1 n1' n2 n2'; case hr: (refused gn wgw).
  by have [a [g [ea _ _ _ E]]] := full_setting; exists a => //; rewrite !E hr.
have [a [g [[ea _] _ _ [ares [path [me [_ _ _ _ ho]]]]]]] := core hr; exists a => //; rewrite !ho //.
by case: pt1 n1 n1' => // _ _; case: pt2 n2 n2'.
Qed.

(** pseudo_type='contain' is not implemented. *)
Theorem C69_contain : refused gn wgw = false -> exists2 a, init b = Ok a &
  out a PtContain = Err (if (0 < n_ - n + af_l a)%N then NotImplementedFallback else ValueError).
Proof.
move=> hr; have [a [g [[ea _] _ _ [ares [path [me [_ sz _ _ ho]]]]]]] := core hr; exists a => //; rewrite ho //.
case: ares sz {ho} => [|a0 [|a1 ares]] // _; rewrite eqn0Ngt; case: (ltnP 0 (n_ - n + af_l a)) => // p0.
by rewrite [behead _]/= loop_contain // p0.
Qed.

(** If Z has no column, that is if the space is invariant, then Rh has no row and ValueError is raised, although
    no perturbation has to be taken into account. *)
Theorem C69_invariant_refuted pt : pt <> PtOmit -> refused gn wgw = false -> exists2 a, init b = Ok a &
  (n_ - n + af_l a = 0)%N -> out a pt = Err ValueError.
Proof.
move=> np hr; have [a [g [[ea _] _ _ [ares [path [me [_ sz _ _ ho]]]]]]] := core hr; exists a => // p0.
by rewrite ho // (introT eqP p0).
Qed.

(** The numbers for a self-adjoint system.  Hh, Rh, q_norm, PWAW_norm, vdiff_norm are the results of the
    Arnoldifyer; delta is in the range from 1.01 epsilon to max(1.01 epsilon, delta_max); m is the maximum of the absolute value of a
    polynomial p over the union of the intervals of radius delta around the eigenvalues of Hh.  If Hh[:i+1, :i] has full rank and no
    harmonic Ritz value is greater than 1e14 then p is the residual polynomial of step i. *)
Theorem C69_intervals pt : pt <> PtOmit -> fl -> refused gn wgw = false -> exists a g, [/\ init b = Ok a,
  arnf_get sqr fqr hess smin l Minv ob b a r0norm (d_UMlr l ob x0) Wt r = Ok g &
  let eta := if (0 < k)%N then GWn / (re sigma - wgw) else 0 in
  let beta := re (ag_PWAW g) * (eta * (re (rhs_norm l) + gn) + gn) + re (ag_vdiff g) in
  exists ares dmax, [/\ omit a = Ok [seq y%:C / (rhs_norm l - gn%:C) | y <- ares],
    is_max (fun x => x \in eigs (ag_Hh g)) (fun x => 100%:R * `|re x|) dmax &
  forall bs, out a pt = Ok bs -> exists2 ys, bs = [seq y%:C / (rhs_norm l - gn%:C) | y <- ys] &
    forall i, (0 < i < size ys)%N ->
    let e := re (ag_PWAW g) * (eta * (nrm (ag_Hh g) + Gn) + Gn) + nrm (mtake (n_ - n + af_l a) i (ag_Rh g)) in
    let eps := if e == 0 then (10%:R ^+ 16)^-1 else e in
    exists delta roots mx, [/\ eps < delta /\ 101%:R / 100%:R * eps <= delta <= Num.max (101%:R / 100%:R * eps) dmax,
      is_max (near [seq re x | x <- eigs (ag_Hh g)] delta) (fun x => `|npol roots x|) mx,
      full_rank (lead (minn i.+1 r.+1) i (ag_Hh g)) ->
        (forall t, eigenvalue (harm_mx (ag_Hh g) i) t -> t = 0 \/ (10%:R ^+ 14)^-1 < `|t|) ->
        forall z, (npol roots z)%:C = \det (1%:M - z%:C *: harm_mx (ag_Hh g) i)
    & nth 0 ys i = Num.min (nth 0 ares i + (eps / (delta - eps) * (re (ag_q g) + beta) + beta) * mx / pi) (nth 0 ys i.-1)]]].
Proof.
move=> np f hr; have [a [g [[ea eg] [q0 p0 e0 b0] sH [ares [path [me [hme sz so eo ho]]]]]]] := core hr.
exists a, g; split; [exact: ea|exact: eg|move=> eta beta; exists ares, (100%:R * me); split; first exact: eo].
  case: hme; rewrite f => hm1 [y /mapP[x xe ->] em]; split=> [x' x'e|]; last by exists x => //; rewrite -em re_normR.
  rewrite ler_pmul2l ?ltr0n //; have := hm1 (re x')%:C; rewrite re_normR; apply; apply/mapP; by exists x'.
rewrite ho // => bs; case: (_ == _) => // E0; have [ys E [<-]] := bind_ok E0.
exists (nth 0 ares 0 :: ys) => //; move=> [|i] // ib; move: (ib : (i < size ys)%N) => {}ib; set d := BpData _ _ _ _ _ _ _ _ _ _ _ _ _ _ _ in E.
have H0 : 0 <= bd_Hn d by rewrite /d /=; apply: nrm_ge0.
have [szb hv] := loop_values pi0 nrm_ge0 hpick (d := d) p0 e0 G0 q0 b0 H0 E isT.
have [dl [vl]] := hv i ib; rewrite /= add1n -/(bp_eps _ _ _ _ _); set eps := bp_eps _ _ _ _ _.
case=> pp [h1 h2 h3 h4 h5] hc vl0 hn; rewrite -/eps.
have d0 : 0 < dl := lt_trans h1 h3.
move: hc; rewrite /bp_compute /= f => Ec; have [[len mx] Eh [ev]] := bind_ok Ec.
set roots := [seq re x | x <- bp_roots _ _ _ _ _ _ _] in Eh.
have nz := hermitian_nz Eh.
have en : [seq re x | x <- [seq (re x)%:C | x <- eigs (ag_Hh g)]] = [seq re x | x <- eigs (ag_Hh g)].
  by rewrite -map_comp.
have [|mx' Eh' hmx] := hermitianE hargsort horders hproots (evals := [seq re x | x <- eigs (ag_Hh g)]) (ltW d0) nz.
  by have := eigs_nil (ag_Hh g); case: (eigs _).
move: Eh; rewrite en Eh' => -[el em]; subst mx'.
exists dl, roots, mx; split=> //; first by rewrite h3 h4.
  move=> fr hs z; have ir : (i.+1 <= r.+1)%N by move: (leq_trans ib szb); rewrite size_behead sz.
  have [|_ hre hp] := bp_rootsE hsqr eigh hgev ir fr hs (sa := fl).
    move=> _; apply/matrixP => i1 i2; rewrite ctrE !mxE -ctrE; by rewrite sH.
  by move: hre hp; rewrite f => /(_ isT) hre hp; rewrite -npolR -hp; congr npol; rewrite [RHS]hre -map_comp.
rewrite hn; congr (Num.min (_ + _) _); first by rewrite nth_behead.
rewrite -ev -el; have -> : 2%:R * dl / (2%:R * pi * dl) = pi^-1.
  by field; rewrite !lt0r_neq0.
by rewrite -mulrA mulrC.
Qed.

(** The numbers never increase, for CG either, where aresnorm may increase: they are then smaller than the numbers of pseudo_type='omit'. *)
Theorem C69_monotone pt cl : pt <> PtOmit -> exists2 a, init b = Ok a &
  forall bs, full b a r0norm pt cl nl fl Wt r gn Gn GWn wgw dn tf = Ok bs -> sorted >=%R bs.
Proof.
move=> npt; have [a [g [ea _ _ _ E]]] := full_setting; exists a => // bs; rewrite E; case hr: (refused gn wgw) => //.
have [_ _ rn0] := rhs_gt hr.
set eta := if _ then _ else _; move=> E0; have [rs _ E1] := bind_ok E0; move: E1.
set ares := [seq re x | x <- [seq x * ag_q g | x <- rs]]; set beta := re (ag_PWAW g) * _ + _; set cg := if cl is BpCg _ then true else false.
have [me [path [_ hb]]] := boundsE pi argsort sqr eigh gev nrm evcond nonnormal_paths normal_paths pick proots orders
  cg nl fl (ag_Rh g) (re (ag_PWAW g)) eta Gn (re (ag_q g)) beta dn tf ares (eigs_nil (ag_Hh g)).
have so ys : bounds pt cg nl fl (ag_Hh g) (ag_Rh g) (re (ag_PWAW g)) eta Gn (re (ag_q g)) beta dn tf ares = Ok ys -> sorted >=%R ys.
  rewrite hb; case: (_ == _) => //; case: (ares) => // a0 ares' E2; have [zs /loop_mono + [<-]] := bind_ok E2; by [].
by case: (pt) npt so => // _ so E2; have [ys /so + [<-]] := bind_ok E2; apply: homo_sorted => x y h;
  rewrite /= ler_pmul2r ?invr_gt0 // lecR.
Qed.
End Attributes.

(** The sequence in relation to the one of pseudo_type='omit', for residual minimising methods *)
Definition shaped n_ n (b : byprod C N n_ n m) : Prop :=
  rank_args pqr nrm2 l ob b Bm -> (0 < n_)%N -> forall k r (Wt : 'M[C]_(n + m, k)) v w r0norm,
  let W := dbasis ob b *m Wt in let sigma := smin (inner Bm W (imcols MA W)) in
  (k + r.+1 = n + m)%N -> inner Bm W (imcols MA W) \in unitmx -> fqr_ok Wt (fqr Wt) ->
  (forall A : 'M[C]_r.+1, hess_ok A (hess A).1 (hess A).2) -> ((0 < k)%N -> forall G : 'M[C]_k, smin_ok G (smin G)) ->
  d_res0 l ob x0 = Ok (v, w, r0norm) -> forall pt nl (gn Gn GWn wgw : R) dn tf,
  0 <= gn -> 0 <= Gn -> 0 <= GWn -> 0 <= wgw -> pt <> PtOmit ->
  exists2 a, init b = Ok a &
  let out := full b a r0norm pt (BpMinimal C) nl fl Wt r gn Gn GWn wgw dn tf in
  if ((0 < k)%N && (sigma <= wgw%:C)) || (rhs_norm l <= gn%:C) then out = Err AssumptionError else
  exists2 os, bound_pseudo sqr fqr hess smin l Minv ob b a r0norm (d_UMlr l ob x0) (BpMinimal C) fl Wt r gn%:C wgw%:C = Ok os &
  forall bs, out = Ok bs ->
    [/\ (0 < size bs <= size os)%N, nth 0 bs 0 = nth 0 os 0, sorted >=%R bs & forall i, (i < size bs)%N -> nth 0 os i <= nth 0 bs i].

Theorem C69_attributes n_ n (b : byprod C N n_ n m) (ex : Prop) :
  Properties.DeflRitz.rel_ok l U x0 Bm ob b ex -> ex -> shaped b.
Proof.
move=> rel hex ra n0 k r Wt v w t W sigma hkr hD hf hh hm hres pt nl gn Gn GWn wgw dn tf g0 G0 GW0 w0 np.
by eapply shape_in; eassumption.
Qed.

Theorem C69_gmres s : ortho_ok l ortho ->
  of_run (deflated_gmres sqr snorm l Minv same U kw o ortho x0) s ->
  let a := gm_a (s_st s).1 in a_inv a = false \/ a_H a (a_iter a) (a_iter a).-1 = 0 ->
  shaped (arn_byprod l fl ob a (s_st s).2).
Proof.
move=> ho hs a; apply: C69_attributes.
exact: (Properties.DeflRitz.C31_gmres hsqr hl ha eBm vBm hadj hsep hfl hMr nb hob ho hs).
Qed.

Theorem C69_minres s : ortho_ok l ortho -> self_adjoint (ip1 (lB l)) A ->
  of_run (deflated_minres sqr snorm l Minv same U kw o ortho x0) s ->
  let a := mr_a (s_st s).1 in a_inv a = false \/ a_H a (a_iter a) (a_iter a).-1 = 0 ->
  shaped (arn_byprod l fl ob a (s_st s).2).
Proof.
move=> ho sa hs a; apply: C69_attributes.
exact: (Properties.DeflRitz.C31_minres hsqr hl ha eBm vBm hadj hsep hfl hMr nb hob ho sa hs).
Qed.
End Runs.

Section Perturbed.
Variable R : rcfType.
Local Notation C := [numClosedFieldType of R[i]].
Local Notation re := (@complex.Re R).
Variable pi : R.
Variable argsort : seq C -> seq nat.
Hypothesis hargsort : Properties.Poly.argsort_perm argsort.
Variable paths : R -> R * seq C.
Local Notation bpg := (bound_perturbed_gmres pi argsort paths).

(** The values *)
Theorem C70_values roots eps deltas : all (fun t => t != 0) roots ->
  (forall d, d \in deltas -> [/\ eps < d, d != 0 & (paths d).2 != [::]]) ->
  exists2 bs, bpg roots eps deltas = Ok bs & size bs = size deltas /\ forall i, (i < size deltas)%N ->
    let d := nth 0 deltas i in exists2 sup, is_max (fun z => z \in (paths d).2) (fun z => re `|npol roots z|) sup &
      nth 0 bs i = eps / (d - eps) * ((paths d).1 / (2%:R * pi * d)) * sup.
Proof.
move=> nz hd; rewrite /bound_perturbed_gmres; have -> : all (fun d => eps < d) deltas by apply/allP => d /hd[].
rewrite /=; elim: deltas hd => [|d ds IH] hd; first by exists [::].
have [h1 h2 h3] := hd d (mem_head _ _); have [m em hm] := polymaxE hargsort nz h3.
have [|bs eb [sz hb]] := IH; first by move=> x xd; apply: hd; rewrite inE xd orbT.
rewrite /= em /= (negbTE h2) eb /=; eexists; first by []; split; first by rewrite /= sz.
by case=> [_|i ib]; [exists m; rewrite //= -!mulrA|apply: hb].
Qed.

(** In every other case there is an error. *)
Theorem C70_errors roots eps deltas :
  [/\ forall d, d \in deltas -> d <= eps -> bpg roots eps deltas = Err ArgumentError,
      forall d, d \in deltas -> eps < d -> ((paths d).2 = [::] \/ d = 0) -> exists e, bpg roots eps deltas = Err e
    & forall d, d \in deltas -> 0 \in roots -> exists e, bpg roots eps deltas = Err e].
Proof.
have gen : (exists2 d, d \in deltas & ((paths d).2 = [::] \/ d = 0) \/ 0 \in roots) -> exists e, bpg roots eps deltas = Err e.
  rewrite /bound_perturbed_gmres; case: (all _ _) => /=; last by exists ArgumentError.
  elim: deltas => [|d ds IH] [x] //; rewrite inE => xd hx; rewrite /=.
  case em: (polymax argsort roots (paths d).2) => [m|e]; last by exists e.
  rewrite /=; case: (eqVneq d 0) => [_|d0]; first by exists DivZero.
  have [|e ->] := IH; last by exists e.
  exists x => //; case/orP: xd => // /eqP xd; exfalso; subst x.
  case: hx => [[h|h]|h]; [by rewrite h in em|by rewrite h eqxx in d0|].
  by have := polymax_nz em => /allP/(_ _ h); rewrite eqxx.
split=> [d dd de|d dd ed h|d dd h]; [|by apply: gen; exists d => //; left|by apply: gen; exists d => //; right].
by rewrite /bound_perturbed_gmres; case: allP => // /(_ _ dd); rewrite ltNge de.
Qed.
End Perturbed.

Print Assumptions C69_omit.
Print Assumptions C69_pseudo_type_refuted.
Print Assumptions C69_contain.
Print Assumptions C69_invariant_refuted.
Print Assumptions C69_intervals.
Print Assumptions C69_monotone.
Print Assumptions C69_attributes.
Print Assumptions C69_gmres.
Print Assumptions C69_minres.
Print Assumptions C70_values.
Print Assumptions C70_errors.
