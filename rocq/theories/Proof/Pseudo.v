(** bound_pseudo with pseudospectra: the parts. *)
From mathcomp Require Import all_ssreflect all_algebra perm complex.
From Verif Require Import Base Spec.LinAlg Spec.Pseudo Model.Interval Spec.Interval Proof.Interval Model.Poly Proof.Poly Model.Pseudo Model.BoundPseudo.
From Verif Require Import Proof.Algebra Proof.IpTheory Model.Inner Spec.Inner Proof.Inner Spec.Projection Proof.Qr Model.Ritz Proof.Ritz.
From Verif Require Properties.Interval Properties.Poly.

Set Implicit Arguments.
Unset Strict Implicit.
Unset Printing Implicit Defensive.
Import Order.TTheory GRing.Theory Num.Theory.
Local Open Scope ring_scope.
Local Open Scope complex_scope.

Section Real.
Variable R : rcfType.
Local Notation C := [numClosedFieldType of R[i]].
Local Notation re := (@complex.Re R).

Lemma reK (x : R) : re (x%:C) = x. Proof. by []. Qed.
Lemma norm_re (z : C) : (re `|z|)%:C = `|z|.
Proof. by rewrite normc_def. Qed.
Lemma re_norm_ge0 (z : C) : 0 <= re `|z|.
Proof. by rewrite normc_def /= sqrtr_ge0. Qed.
Lemma re_normR (x : R) : re `|x%:C : C| = `|x|.
Proof. by rewrite normc_def /= expr0n /= addr0 sqrtr_sqr. Qed.
Lemma re_of (z : C) : 0 <= z -> (re z)%:C = z /\ 0 <= re z.
Proof. by rewrite lecE /= => /andP[/eqP i0 r0]; split=> //; case: z i0 {r0} => a b /= ->. Qed.
Lemma rc_le (x y : R) : (x%:C <= y%:C :> C) = (x <= y).
Proof. by rewrite lecR. Qed.
Lemma rc_lt (x y : R) : (x%:C < y%:C :> C) = (x < y).
Proof. by rewrite ltcR. Qed.
Lemma re_le (x y : C) : x <= y -> re x <= re y.
Proof. by rewrite lecE => /andP[]. Qed.

Lemma npolR (roots : seq R) x : npol [seq t%:C : C | t <- roots] (x%:C : C) = (npol roots x)%:C.
Proof.
rewrite /npol big_map; elim: roots => [|t s IH]; first by rewrite !big_nil.
by rewrite !big_cons IH !(rmorphM, rmorphB, rmorph1, fmorphV).
Qed.

Lemma np_maxP (s : seq R) : s != [::] -> exists2 m, np_max s = Ok m & m \in s /\ forall x, x \in s -> x <= m.
Proof.
case: s => // a s _; exists (foldl Num.max a s) => //.
elim: s a => [|b s IH] a /=; first by split; rewrite ?mem_head // => x; rewrite inE => /eqP->.
have [h1 h2] := IH (Num.max a b); have hm : Num.max a b <= foldl Num.max (Num.max a b) s by apply: h2; rewrite mem_head.
split=> [|x]; last first.
  rewrite !inE => /or3P[/eqP->|/eqP->|xs]; last by apply: h2; rewrite inE xs orbT.
    by apply: le_trans hm; rewrite le_maxr lexx.
  by apply: le_trans hm; rewrite le_maxr lexx orbT.
move: h1; rewrite !inE => /orP[/eqP e|->]; last by rewrite !orbT.
by rewrite e; case: (leP a b) => _; rewrite eqxx ?orbT.
Qed.

Section Polymax.
Variable argsort : seq C -> seq nat.
Hypothesis ha : Properties.Poly.argsort_perm argsort.

Lemma polymaxE (roots points : seq C) : all (fun t => t != 0) roots -> points != [::] ->
  exists2 m, polymax argsort roots points = Ok m & is_max (fun x => x \in points) (fun x => re `|npol roots x|) m.
Proof.
move=> nz pn; rewrite /polymax (eval_allE ha) //= -map_comp.
have [|m -> [/mapP[x xp ->] hm]] := @np_maxP [seq (re \o (fun v => `|v|)) (\prod_(r <- roots) (1 - x / r)) | x <- points].
  by case: (points) pn.
by eexists; first by []; split=> [y yp|]; [apply: hm; apply/mapP; exists y|exists x].
Qed.

Variable orders : nat -> itvs R -> itvs R.
Hypothesis ho : forall n, some_order (orders n).
Variable proots : {poly R} -> seq R.
Hypothesis hp : forall (q : {poly R}) y, q != 0 -> root q y -> y \in proots q.

Lemma itvsE (d : R) evals : 0 <= d -> bp_itvs d evals = Ok [seq Itv (e - d) (e + d) | e <- evals].
Proof.
move=> d0; elim: evals => //= e s ->; rewrite /mk_itv ltNge -subr_ge0 (_ : _ - (e - d) = d + d) ?addr_ge0 //.
by rewrite opprB addrC addrA subrK.
Qed.

Lemma mem_near (d : R) evals x : mem_union [seq Itv (e - d) (e + d) | e <- evals] x <-> near evals d x.
Proof.
split=> [[a /mapP[e es ->] [/= h1 h2]]|[e es h]].
  by exists e => //; rewrite ler_norml ler_subr_addr ler_subl_addr addrC h1 addrC h2.
exists (Itv (e - d) (e + d)); first by apply/mapP; exists e.
move: h; rewrite ler_norml => /andP[h1 h2]; split=> /=.
  by move: h1; rewrite ler_subr_addr addrC.
by move: h2; rewrite ler_subl_addr addrC.
Qed.

Lemma hermitianE evals roots (d : R) : 0 <= d -> all (fun t => t != 0) roots -> evals != [::] ->
  exists2 m, bp_hermitian argsort proots orders evals roots d = Ok (2%:R * d, m) &
    is_max (near evals d) (fun x => `|npol roots x|) m.
Proof.
move=> d0 nz en; rewrite /bp_hermitian itvsE //=.
set news := map _ _; have vn a : a \in news -> valid a.
  by move=> /mapP[e _ ->]; rewrite /valid /= ler_add2l ge0_cp.
have [s -> [vs _ hs hc]] := Properties.Interval.C35_add_disjoint_union ho vn; rewrite /=.
set cs := filter _ _; set pts := endpoints s ++ cs.
have [_ hend] := Properties.Interval.C35_endpoints s.
have un x : mem_union s x <-> near evals d x by rewrite hs mem_near.
have nzC : all (fun t => t != 0) [seq x%:C : C | x <- roots].
  by rewrite all_map; apply: sub_all nz => x /= x0; rewrite eq_complex /= negb_and x0.
have e0 : exists e, e \in evals by case: (evals) en => // e ? _; exists e; rewrite mem_head.
have pn : pts != [::].
  case: e0 => e es; have : near evals d e by exists e; rewrite // subrr normr0.
  move/un => [a ai _]; have : left a \in endpoints s by apply/hend; exists a => //; left.
  by rewrite /pts; case: (endpoints s).
have inp x : x \in pts -> near evals d x.
  rewrite mem_cat => /orP[/hend[a ai h]|]; last by rewrite mem_filter => /andP[/hc/mem_near].
  by apply/un; exists a => //; case: h => ->; split=> //; exact: vs.
have [|m -> [h1 [y /mapP[x xp ->] h2]]] := polymaxE (points := [seq x%:C : C | x <- pts]) nzC.
  by case: (pts) pn.
exists m => //; split=> [z|]; last by exists x; [exact: inp|rewrite -h2 npolR re_normR].
move/un => [a ai [la ra]].
have [c [cc le]] := Properties.Poly.C40_extrema hp nz la ra.
apply: le_trans le _; have cp : c \in pts.
  rewrite mem_cat; case: cc => [->|->|/andP[c1 c2]].
  - by apply/orP; left; apply/hend; exists a => //; left.
  - by apply/orP; left; apply/hend; exists a => //; right.
  apply/orP; right; rewrite mem_filter c1 andbT; apply/hc; rewrite -hs; exists a => //; exact/andP.
have := h1 (c%:C); rewrite npolR re_normR; apply; apply/mapP; by exists c.
Qed.
End Polymax.

(** The range of delta *)
Lemma eps_gt0 PWAW eta Hn Gn Rn : 0 <= PWAW -> 0 <= eta -> 0 <= Hn -> 0 <= Gn -> 0 <= Rn ->
  0 < bp_eps PWAW eta Hn Gn Rn :> R.
Proof.
move=> h1 h2 h3 h4 h5; rewrite /bp_eps; case: eqP => [_|/eqP e].
  by rewrite invr_gt0 exprn_gt0 // ltr0n.
by rewrite lt_def e addr_ge0 // mulr_ge0 // addr_ge0 // mulr_ge0 // addr_ge0.
Qed.

Variable pick : (R -> res R) -> R -> R -> nat -> R.
Hypothesis hpick : forall f lo hi n, lo <= hi -> lo <= pick f lo hi n <= hi.

Lemma minimizeE f eps dmax n : 0 < eps -> eps < dmax ->
  let lo := 101%:R / 100%:R * eps in
  if (0 < n)%N && (dmax < lo) then bp_minimize pick f eps dmax n = Err ValueError
  else exists2 d, bp_minimize pick f eps dmax n = f d & [/\ eps < d, lo <= d & d <= Num.max lo dmax].
Proof.
move=> e0 ed; rewrite /bp_minimize; set lo := _ * eps; rewrite /=.
have le : eps < lo by rewrite ltr_pmull // ltr_pdivl_mulr ?ltr0n // mul1r ltr_nat.
have lo0 := lt_trans e0 le; have d0 := lt_trans e0 ed.
set z := n.+1.-root _; have [|zE z0] := @re_of z.
  by rewrite rootC_ge0 // lecR mulr_ge0 ?exprn_ge0 // ltW.
have zX : (re z) ^+ n.+1 = lo * dmax ^+ n.
  by apply: (@complexI R); rewrite -[LHS]/(_%:C) rmorphX /= zE rootCK.
have cmp : (re z < lo) = (0 < n)%N && (dmax < lo).
  rewrite -[LHS](@ltr_pexpn2r _ n.+1) ?nnegrE ?(ltW lo0) // zX exprS ltr_pmul2l //.
  case: n {z zE z0 zX} => [|n]; first by rewrite !expr0 ltxx.
  by rewrite ltr_pexpn2r ?nnegrE ?(ltW lo0) ?(ltW d0).
rewrite cmp; case hc: (_ && _) => //.
have lz : lo <= re z by rewrite leNgt cmp hc.
have /andP[p1 p2] := hpick f n lz; eexists; first by [].
split=> //; first exact: lt_le_trans le p1.
apply: le_trans p2 _; rewrite le_maxr.
case: (lerP dmax lo) => h; apply/orP; [left|right]; rewrite -(@ler_pexpn2r _ n.+1) ?nnegrE ?(ltW lo0) ?(ltW d0) // zX exprS.
  by rewrite ler_pmul2l //; case: (n) => [|k]; rewrite ?expr0 // ler_pexpn2r ?nnegrE ?(ltW lo0) ?(ltW d0).
by rewrite ler_pmul2r ?exprn_gt0 // ltW.
Qed.
End Real.

(** The roots *)
Section Roots.
Variable R : rcfType.
Local Notation C := [numClosedFieldType of R[i]].
Local Notation re := (@complex.Re R).

Lemma det_char n (A : 'M[C]_n) (s : seq C) z : spectrum A s -> \det (1%:M - z *: A) = \prod_(x <- s) (1 - z * x).
Proof.
move=> hs; have szs : size s = n.
  by apply: succn_inj; rewrite -(size_char_poly A) hs size_prod_XsubC.
case: (eqVneq z 0) => [->|z0].
  by rewrite scale0r subr0 det1 big1 // => x _; rewrite mul0r subr0.
have -> : 1%:M - z *: A = z *: ((z^-1)%:M - A).
  by rewrite scalerBr scale_scalar_mx divff.
rewrite detZ; have -> : \det ((z^-1)%:M - A) = (char_poly A).[z^-1].
  rewrite -horner_evalE -det_map_mx; congr (\det _); apply/matrixP => i j.
  by rewrite !mxE /= /horner_eval hornerD hornerN hornerC hornerMn hornerX.
rewrite hs horner_prod -szs; elim: (s) => [|x t IH]; first by rewrite !big_nil mulr1.
rewrite !big_cons -IH exprS mulrACA; congr (_ * _).
by rewrite hornerXsubC mulrBr divff.
Qed.

Lemma mtakeE r p q (H : 'M[C]_r.+1) : (p <= r.+1)%N -> (q <= r.+1)%N -> mtake p q H = lead p q H.
Proof.
move=> pr qr; apply/matrixP => i j; rewrite !mxE /mx_ent.
case: insubP => [i' _ ei|]; last by rewrite (leq_trans (ltn_ord i) pr).
case: insubP => [j' _ ej|]; last by rewrite (leq_trans (ltn_ord j) qr).
by congr (H _ _); apply: val_inj; rewrite /= ?ei ?ej inordK // (leq_trans (ltn_ord _)).
Qed.

Variable sqr : forall n k, 'M[C]_(n, k) -> 'M[C]_(n, k) * 'M[C]_k.
Hypothesis hsqr : qr_spec sqr.
Variable eigh : forall n, 'M[C]_n -> seq R.
Variable gev : forall n, 'M[C]_n -> 'M[C]_n -> seq C.
Hypothesis hgev : gev_ok gev.
Local Notation tiny := ((10%:R ^+ 14)^-1 : C).

Lemma real_quot (a b z : C) : 0 < a -> b \is Num.real -> b = z * a -> z \is Num.real.
Proof. by move=> a0 rb e; rewrite -(mulfK (lt0r_neq0 a0) z) -e rpred_div // gtr0_real. Qed.

Lemma bp_rootsE (sa : bool) r (Hh : 'M[C]_r.+1) i : (i <= r.+1)%N -> full_rank (lead (minn i.+1 r.+1) i Hh) ->
  (forall t, eigenvalue (harm_mx Hh i) t -> t = 0 \/ tiny < `|t|) -> (sa -> (lead i i Hh)^h = lead i i Hh) ->
  let roots := bp_roots sqr eigh gev false sa Hh i in
  [/\ all (fun t => t != 0) roots, sa -> roots = [seq (re x)%:C | x <- roots]
    & forall z, npol roots z = \det (1%:M - z *: harm_mx Hh i)].
Proof.
move=> ir fr hsep hsa; rewrite /bp_roots; set p := minn i.+1 r.+1 in fr *.
have ip : (i <= p)%N by rewrite leq_min leqnSn.
rewrite mtakeE ?geq_minr //; set G := lead p i Hh in fr *.
have [GE QQ _] := hsqr G ip; case e: (sqr G) => [Q F] /=; rewrite e /= in GE QQ.
have uF := full_rank_fac fr GE.
set Q1 := mtake i i Q; set H := lead i i Hh in hsa *.
have HE : H = Q1 *m F.
  apply/matrixP => a b; rewrite mxE; have := congr1 (fun X : 'M[C]_(p, i) => X (widen_ord ip a) b) GE.
  rewrite !mxE /= => ->; apply: eq_bigr => j _; congr (_ * _); rewrite mxE /mx_ent.
  case: insubP => [a' _ ea|]; last by rewrite (leq_trans (ltn_ord a) ip).
  case: insubP => [b' _ eb|]; last by rewrite ltn_ord.
  by congr (Q _ _); apply: val_inj.
have GG : G^h *m G = F^h *m F by rewrite [G in LHS]GE ctrM -mulmxA (mulmxA Q^h) QQ mul1mx.
have KE : harm_mx Hh i = invmx F *m Q1^h.
  rewrite /harm_mx -/p -/G -/H HE GG ctrM.
  have uF' : F^h \in unitmx by rewrite unitmx_ctr.
  have -> : invmx (F^h *m F) = invmx F *m invmx F^h.
    apply: (can_inj (mulKmx (_ : F^h *m F \in unitmx))); first by rewrite unitmx_mul uF' uF.
    by rewrite mulmxV ?unitmx_mul ?uF' // mulmxA mulmxK // mulmxV.
  by rewrite -mulmxA mulKmx.
have sp := hgev Q1^h uF; rewrite -KE in sp; rewrite tconjE; set ms := gev _ _ in sp *.
have hms x : x \in ms -> x = 0 \/ tiny < `|x|.
  move=> xm; apply: hsep; rewrite eigenvalue_root_char sp root_prod_XsubC //.
set ns := [seq x <- ms | _].
have nz : all (fun t => t != 0) [seq 1 / x | x <- ns].
  apply/allP => t /mapP[x]; rewrite mem_filter => /andP[h _] ->; rewrite mul1r invr_eq0 -normr_gt0.
  by apply: lt_trans h; rewrite invr_gt0 exprn_gt0 // ltr0n.
have pE z : npol [seq 1 / x | x <- ns] z = \det (1%:M - z *: harm_mx Hh i).
  rewrite (det_char _ sp) /npol big_map big_filter [RHS](bigID (fun x => tiny < `|x|)) /=.
  rewrite [X in _ = _ * X]big_seq_cond [X in _ = _ * X]big1 ?mulr1; last first.
    by move=> x /andP[/hms[->|->] //]; rewrite mulr0 subr0.
  by apply: eq_bigr => x _; rewrite mul1r invrK.
case: sa hsa => // /(_ isT) hH.
suff rE : [seq (re x)%:C | x <- [seq 1 / x | x <- ns]] = [seq 1 / x | x <- ns] by rewrite !rE.
rewrite -[RHS]map_id; apply/eq_in_map => t /mapP[x]; rewrite mem_filter => /andP[_ xm] -> {t}.
suff rx : x \is Num.real.
  have : 1 / x \is Num.real by rewrite rpred_div // rpred1.
  by move: (1 / x) => y; rewrite -[RHS]/y; case: y => a b; rewrite complex_real => /eqP/= ->.
have : eigenvalue (harm_mx Hh i) x by rewrite eigenvalue_root_char sp root_prod_XsubC.
move/eigenvalueP => [v ev v0]; pose u := v *m invmx (G^h *m G).
have uG : G^h *m G \in unitmx.
  by rewrite GG unitmx_mul unitmx_ctr uF.
have u0 : u^h != 0.
  apply: contraNneq v0 => h; have : u = 0 by rewrite -[u]ctrK h ctr0.
  by move=> h0; rewrite -[v](mulmxKV uG) -/u h0 mul0mx.
have e1 : u *m H = x *: (u *m (G^h *m G)).
  by rewrite /u mulmxKV // -ev /harm_mx -/p -/G -/H hH mulmxA.
clearbody u; have hip := ipE_ip C p.
have : (u *m H *m u^h) 0 0 = x * ipE (G *m u^h) (G *m u^h).
  by rewrite e1 -scalemxAl mxE /ipE ctrM ctrK -!mulmxA.
apply: real_quot.
  by apply: (ip_pos hip); apply: contra_neq u0; apply: fr.
have e2 : (u *m H *m u^h)^h = u *m H *m u^h by rewrite !ctrM ctrK hH mulmxA.
by rewrite CrealE -ctrE e2.
Qed.
End Roots.

Section Loop.
Variable R : rcfType.
Local Notation C := [numClosedFieldType of R[i]].
Local Notation re := (@complex.Re R).
Variable pi : R.
Hypothesis pi0 : 0 < pi.
Variable argsort : seq C -> seq nat.
Variable sqr : forall n k, 'M[C]_(n, k) -> 'M[C]_(n, k) * 'M[C]_k.
Variable eigh : forall n, 'M[C]_n -> seq R.
Variable gev : forall n, 'M[C]_n -> 'M[C]_n -> seq C.
Variable nrm : forall p q, 'M[C]_(p, q) -> R.
Hypothesis nrm0 : forall p q (X : 'M[C]_(p, q)), (0 < p)%N -> (0 < q)%N -> 0 <= nrm X.
Variable pick : (R -> res R) -> R -> R -> nat -> R.
Hypothesis hpick : forall f lo hi n, lo <= hi -> lo <= pick f lo hi n <= hi.
Variable proots : {poly R} -> seq R.
Variable orders : nat -> itvs R -> itvs R.

Lemma polymax_ge0 roots points m : polymax argsort roots points = Ok m -> 0 <= m.
Proof.
rewrite /polymax => E0; have [vs _ E] := bind_ok E0; have [|m' e [/mapP[v _ em] _]] := @np_maxP R [seq re `|v| | v <- vs].
  by case: vs E.
by move: E; rewrite e => -[<-]; rewrite em; apply: re_norm_ge0.
Qed.

Lemma polymax_nz roots points m : polymax argsort roots points = Ok m -> all (fun t => t != 0) roots.
Proof.
rewrite /polymax => E0; have [vs E E1] := bind_ok E0; case: points {E0} E => [[e]|x pts /= E].
  by move: E1; rewrite -e.
have [v + _] := bind_ok E; rewrite /eval_at; case hz: (has _ _) => // _.
by apply/allP => t tr; apply/eqP => t0; move/hasP: hz; apply; exists t; rewrite // t0.
Qed.

Lemma hermitian_nz evals roots (dl : R) t : bp_hermitian argsort proots orders evals roots dl = Ok t -> all (fun x => x != 0) roots.
Proof.
move=> E; have [nw _ E1] := bind_ok E; have [s _ E2] := bind_ok E1; have [m0 /polymax_nz + _] := bind_ok E2.
by rewrite all_map; apply: sub_all => x /=; apply: contra_neq => ->.
Qed.

Variables (r p : nat) (d : bp_data R r p).
Hypotheses (h1 : 0 <= bd_PWAW d) (h2 : 0 <= bd_eta d) (h3 : 0 <= bd_Gn d) (h4 : 0 <= bd_q d) (h5 : 0 <= bd_beta d) (h6 : 0 <= bd_Hn d).
Local Notation compute := (bp_compute pi argsort proots orders d).
Local Notation loop pt := (bp_loop pi argsort sqr eigh gev nrm pick proots orders pt d).
Local Notation eps i := (bp_eps (bd_PWAW d) (bd_eta d) (bd_Hn d) (bd_Gn d) (nrm (mtake p i (bd_Rh d)))).

Lemma compute_ge0 roots e dl v : 0 < e -> e < dl -> compute roots e dl = Ok v -> 0 <= v.
Proof.
move=> e0 ed E0; have [[len m] E [<-]] := bind_ok E0; have d0 := lt_trans e0 ed.
have [l0 m0] : 0 <= len /\ 0 <= m.
  move: E; case: (bd_sa d) => E.
    have [news _ E1] := bind_ok E; have [s _ E2] := bind_ok E1; have [m' /polymax_ge0 m0 [<- <-]] := bind_ok E2; split=> //.
    by rewrite mulr_ge0 ?ler0n // ltW.
  move: E; rewrite /bp_path; case: ifP => // l0 E; have [m' /polymax_ge0 m0 [<- <-]] := bind_ok E; split=> //; exact: ltW.
have de : 0 <= dl - e by rewrite subr_ge0 ltW.
have pd : 0 <= 2%:R * pi * dl by rewrite !mulr_ge0 ?ler0n // ltW.
apply: mulr_ge0 => //; apply: mulr_ge0; first exact: divr_ge0.
by rewrite addr_ge0 // mulr_ge0 ?addr_ge0 // divr_ge0 // ltW.
Qed.

Lemma loopS pt i prev a ares : pt <> PtContain -> loop pt i prev (a :: ares) =
  bind (np_norm nrm (mtake p i (bd_Rh d))) (fun Rhnrm =>
    let e := bp_eps (bd_PWAW d) (bd_eta d) (bd_Hn d) (bd_Gn d) Rhnrm in
    if bd_dmax d <= e then Ok [::] else
    bind (bp_minimize pick (compute (bp_roots sqr eigh gev (bd_cg d) (bd_sa d) (bd_Hh d) i) e) e (bd_dmax d) (bd_dn d)) (fun v =>
      if (1 < i)%N && (if prev == 0 then 0 < a + v else bd_tf d < (a + v) / prev) then Ok [::] else
      bind (loop pt i.+1 (Num.min (a + v) prev) ares) (fun bs => Ok (Num.min (a + v) prev :: bs)))).
Proof. by case: pt. Qed.

Lemma loop_pt pt1 pt2 i prev ares : pt1 <> PtContain -> pt2 <> PtContain -> loop pt1 i prev ares = loop pt2 i prev ares.
Proof.
move=> n1 n2; elim: ares i prev => // a ares IH i prev; rewrite !loopS //.
case: (np_norm nrm _) => //= Rn; case: (_ <= _) => //.
by case: (bp_minimize _ _ _ _ _) => [mv|e] //=; case: (_ && _) => //; rewrite IH.
Qed.

Lemma np_normE q1 q2 (X : 'M[C]_(q1, q2)) : np_norm nrm X = if (0 < q1)%N && (0 < q2)%N then Ok (nrm X) else Err ValueError.
Proof. by rewrite /np_norm; case: q1 X => //= q1; case: q2. Qed.

Lemma loop_contain i prev a ares : (0 < i)%N ->
  loop PtContain i prev (a :: ares) = Err (if (0 < p)%N then NotImplementedFallback else ValueError).
Proof. by move=> i0; rewrite /= np_normE i0 andbT; case: (0 < p)%N. Qed.

(** The values that are appended, each one for a delta in the range *)
Lemma loop_values pt i prev ares bs : loop pt i prev ares = Ok bs -> (0 < i)%N ->
  (size bs <= size ares)%N /\ forall j, (j < size bs)%N -> exists dl v, let e := eps (i + j) in
    [/\ (0 < p)%N, [/\ 0 < e, e < bd_dmax d, e < dl, 101%:R / 100%:R * e <= dl & dl <= Num.max (101%:R / 100%:R * e) (bd_dmax d)],
       compute (bp_roots sqr eigh gev (bd_cg d) (bd_sa d) (bd_Hh d) (i + j)) e dl = Ok v, 0 <= v
     & nth 0 bs j = Num.min (nth 0 ares j + v) (nth 0 (prev :: bs) j)].
Proof.
elim: ares i prev bs => [|a ares IH] i prev bs E i0; first by case: E => <-.
have nc : pt <> PtContain by move=> e; move: E; rewrite e loop_contain.
move: E; rewrite loopS // np_normE i0 andbT; case: (posnP p) => //= p0.
have e0 : 0 < eps i by apply: eps_gt0 => //; apply: nrm0.
case: (lerP (bd_dmax d) (eps i)) => ed; first by move=> [<-].
set f := compute _ _; have := minimizeE hpick f (bd_dn d) e0 ed; rewrite /=; case: (_ && _) => [->|] //.
case=> dl -> [q1 q2 q3] E0; have [v ev] := bind_ok E0; have v0 := compute_ge0 e0 q1 ev; case: (_ && _) => [[<-] //|].
move=> E1; have [bs' E [<-]] := bind_ok E1; have [sz hb] := IH _ _ _ E isT.
split=> // -[_|j js]; first by exists dl, v; rewrite /= addn0; split.
by have [dl' [v' hj]] := hb j js; exists dl', v'; move: hj; rewrite addSnnS /= p0.
Qed.

Lemma loop_mono pt i prev ares bs : loop pt i prev ares = Ok bs -> path >=%R prev bs.
Proof.
elim: ares i prev bs => [|a ares IH] i prev bs; first by move=> [<-].
move=> E; have nc : pt <> PtContain by move=> e; move: E; rewrite e /=; case: (np_norm nrm (mtake p i (bd_Rh d))).
move: E; rewrite loopS // => E; have [Rn _ E1] := bind_ok E.
move: E1 => /=; case: ifP => _; first by move=> [<-].
move=> E1; have [v _ E2] := bind_ok E1; move: E2; case: ifP => _; first by move=> [<-].
move=> E2; have [bs' /IH h [<-]] := bind_ok E2; rewrite /= h andbT; change (Num.min (a + v) prev <= prev); by rewrite le_minl lexx orbT.
Qed.

Lemma loop_shape pt i prev ares bs a0 : loop pt i prev ares = Ok bs -> (0 < i)%N -> path >=%R a0 ares -> a0 <= prev ->
  path >=%R prev bs /\ forall j, (j < size bs)%N -> nth 0 ares j <= nth 0 bs j.
Proof.
move=> E i0 pa ap; have [sz hb] := loop_values E i0.
have mono j : (j < size bs)%N -> nth 0 bs j <= nth 0 (prev :: bs) j.
  by move=> /hb[dl [v [_ _ _ _ ->]]]; rewrite le_minl lexx orbT.
have am j : (j < size ares)%N -> nth 0 ares j <= nth 0 (a0 :: ares) j by move/pathP: pa; apply.
split; first by apply/(pathP 0) => j /mono.
elim=> [|j IH] js; have [dl [v [_ _ _ v0 ->]]] := hb _ js; rewrite le_minr ler_addl v0 /=.
  by apply: le_trans ap; apply: (am 0%N); apply: leq_trans sz.
by apply: le_trans (IH (ltnW js)); apply: (am j.+1); apply: leq_trans sz.
Qed.
End Loop.

Section Bounds.
Variable R : rcfType.
Local Notation C := [numClosedFieldType of R[i]].
Local Notation re := (@complex.Re R).
Variable pi : R.
Variable argsort : seq C -> seq nat.
Variable sqr : forall n k, 'M[C]_(n, k) -> 'M[C]_(n, k) * 'M[C]_k.
Variable eigs : forall n, 'M[C]_n -> seq C.
Variable eigh : forall n, 'M[C]_n -> seq R.
Variable gev : forall n, 'M[C]_n -> 'M[C]_n -> seq C.
Variable nrm : forall p q, 'M[C]_(p, q) -> R.
Variable evcond : forall n, 'M[C]_n -> R.
Variable nonnormal_paths : forall n, 'M[C]_n -> R -> R -> R -> R * seq C.
Variable normal_paths : seq C -> R -> R * seq C.
Variable pick : (R -> res R) -> R -> R -> nat -> R.
Variable proots : {poly R} -> seq R.
Variable orders : nat -> itvs R -> itvs R.
Local Notation bounds := (bp_bounds pi argsort sqr eigs eigh gev nrm evcond nonnormal_paths normal_paths pick proots orders).
Local Notation loop := (bp_loop pi argsort sqr eigh gev nrm pick proots orders).

Lemma boundsE (cg nl sa : bool) r (Hh : 'M[C]_r.+1) p (Rh : 'M[C]_(p, r.+1)) PWAW eta Gn q beta dn tf ares :
  eigs Hh != [::] ->
  let evals := if sa then [seq (re x)%:C | x <- eigs Hh] else eigs Hh in
  exists me path, is_max (fun x => x \in evals) (fun x => re `|x|) me /\ forall pt,
    bounds pt cg nl sa Hh Rh PWAW eta Gn q beta dn tf ares = if p == 0%N then Err ValueError else
    if ares is a0 :: ares' then
      bind (loop (if pt is PtContain then PtContain else PtUnknown)
          (BpData cg sa Hh Rh PWAW eta Gn q beta evals (nrm Hh) (100%:R * me) path dn tf) 1 a0 ares')
        (fun bs => Ok (a0 :: bs))
    else Err IndexError.
Proof.
move=> en evals; have [|me em [/mapP[x xe ex] hme]] := @np_maxP R [seq re `|x| | x <- evals].
  by rewrite /evals; case: sa {evals}; case: (eigs Hh) en.
pose path := if ~~ (nl || sa) then nonnormal_paths Hh (bp_eps PWAW eta (nrm Hh) Gn (nrm (mtake p 1 Rh)) * (99%:R / 100%:R))
    (100%:R * me * (101%:R / 100%:R)) else normal_paths evals.
exists me, path; split.
  by split=> [y ye|]; [apply: hme; apply/mapP; exists y|exists x].
move=> pt; rewrite /bp_bounds -/evals /= em /= {1}/np_norm orbF; case: eqP => //= _; case: ares => // a0 ares.
congr (bind _ _); case: pt => //; apply: loop_pt; rewrite /bp_auto //.
by case: ifP => // _; case: ifP.
Qed.
End Bounds.
