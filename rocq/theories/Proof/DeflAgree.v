(** The deflated solvers depend on the span of the deflation vectors only. *)
From mathcomp Require Import all_ssreflect all_algebra.
From mathcomp Require Import ring.
From Verif Require Import Base Spec.LinAlg Model.Inner Spec.Inner Proof.Algebra Proof.Inner Proof.IpTheory.
From Verif Require Import Model.Arnoldi Spec.Arnoldi Proof.Arnoldi Proof.ArnoldiAll.
From Verif Require Import Model.Solver Spec.Solver Model.LinearSystem Model.Krylov Spec.Krylov Spec.Agree.
From Verif Require Import Proof.ArnoldiRel Proof.SolverInv Proof.Gmres Proof.LinearSystem Proof.CgTheory Proof.Cg Proof.Minres Proof.Rates.
From Verif Require Import Model.Projection Spec.Projection Proof.Qr Model.Deflation Spec.Deflation Proof.Logged Proof.Deflation Spec.DeflAgree.
From Verif Require Properties.Solver Properties.Deflation.

Set Implicit Arguments.
Unset Strict Implicit.
Unset Printing Implicit Defensive.
Import Order.TTheory GRing.Theory Num.Theory.
Local Open Scope ring_scope.

Section Defl.
Variable C : numClosedFieldType.
Variable N : nat.
Local Notation vec := 'cV[C]_N.
Local Notation optimal := Properties.Deflation.defl_optimal.
Local Notation eoptimal := Properties.Deflation.defl_energy_optimal.

(** Two vectors that are both not longer than their mean are equal. *)
Lemma mid_eq (ip : vec -> vec -> C) (a b m : vec) : is_ip ip -> a + b = m + m ->
  ip a a <= ip m m -> ip b b <= ip m m -> a = b.
Proof.
move=> hip e ha hb.
have [d ea] : exists d, a = m + d by exists (a - m); rewrite addrC subrK.
have eb : b = m - d by apply: (@addrI _ a); rewrite e ea addrACA subrr addr0.
have par : ip a a + ip b b = ip m m + ip m m + (ip d d + ip d d).
  by rewrite eb ea !(ipDl hip) !(ipDr hip) !(ipNl hip) !(ipNr hip); ring.
have : ip a a + ip b b <= ip m m + ip m m by apply: ler_add.
rewrite par ger_addl -mulr2n pmulrn_lle0 // => h0.
have : ip d d == 0 by rewrite eq_le h0 (ip_ge0' hip).
by rewrite (ip_eq0 hip) => /eqP d0; rewrite ea eb d0 subr0 addr0.
Qed.

Variable l : lsys C N.
Hypothesis hl : lsys_ok l.
Local Notation A := (lMlAMr l).
Local Notation ip := (inner (lB l)).
Let hip : is_ip (ip1 (lB l)) := valid_is_ip (lo_B hl).
Let lin := lMlAMr_lin hl.

Section Span.
Variables (k m : nat) (U : 'M[C]_(N, k)) (V : 'M[C]_(N, m)).
Hypothesis hs : same_span U V.
Hypothesis hU : ip U (imcols A U) \in unitmx.
Hypothesis hV : ip V (imcols A V) \in unitmx.

Lemma span_orth0 (r : vec) : ip U r = 0 -> ip V r = 0.
Proof. by have [[F ->] _] := hs; move=> h; rewrite innerMl ?h ?mulmx0 //; exact: lo_B hl. Qed.

Lemma defl_P_orth j (W : 'M[C]_(N, j)) a : ip W (imcols A W) \in unitmx -> ip W (defl_P (lB l) A W a) = 0.
Proof.
move=> u; have hB := lo_B hl; rewrite /defl_P innerBr // innerMr // innerMr //.
by rewrite mulmxV // mul1mx subrr.
Qed.
End Span.

Lemma same_span_sym k m (U : 'M[C]_(N, k)) (V : 'M[C]_(N, m)) : same_span U V -> same_span V U.
Proof. by case. Qed.

Section Span2.
Variables (k m : nat) (U : 'M[C]_(N, k)) (V : 'M[C]_(N, m)).
Hypothesis hs : same_span U V.
Hypothesis hU : ip U (imcols A U) \in unitmx.
Hypothesis hV : ip V (imcols A V) \in unitmx.

Lemma defl_P_span a : defl_P (lB l) A U a = defl_P (lB l) A V a.
Proof.
have hB := lo_B hl; have o1 := defl_P_orth a hU.
have o2 := span_orth0 (same_span_sym hs) (defl_P_orth a hV).
have [[F eV] _] := hs.
have [e eE] : exists e, defl_P (lB l) A V a - defl_P (lB l) A U a = imcols A U *m e.
  rewrite /defl_P {1}eV (imcolsM lin) -!mulmxA opprB addrC addrA subrK.
  by rewrite -mulmxBr; eexists.
have : ip U (imcols A U) *m e = 0 by rewrite -innerMr // -eE innerBr // o1 o2 subrr.
move=> /(congr1 (mulmx (invmx (ip U (imcols A U))))); rewrite mulKmx // mulmx0 => e0.
by apply/eqP; rewrite eq_sym -subr_eq0 eE e0 mulmx0.
Qed.

Lemma kry_span M r n z : in_krylov (fun v => defl_P (lB l) A U (A v)) M (defl_P (lB l) A U r) n z ->
  in_krylov (fun v => defl_P (lB l) A V (A v)) M (defl_P (lB l) A V r) n z.
Proof.
apply: span_ext => i _; elim: i => [|i IH]; first by rewrite /= defl_P_span.
by rewrite /krylov /= -/(krylov _ _ i) IH defl_P_span.
Qed.
End Span2.

Lemma optimal_span k m (U : 'M[C]_(N, k)) (V : 'M[C]_(N, m)) x0 n y : same_span U V ->
  ip U (imcols A U) \in unitmx -> ip V (imcols A V) \in unitmx -> optimal l U x0 n y -> optimal l V x0 n y.
Proof.
move=> hs hU hV [h1 [z [c [ey k1 h2]]]]; rewrite ey in h1 h2 *; have hs' := same_span_sym hs; split; first exact: (span_orth0 hs).
have [[F eV] [G eU]] := hs; exists z, (G *m c); split.
- by rewrite mulmxA -eU.
- exact: (kry_span hs).
move=> z' c' k' o'; rewrite eV -mulmxA; apply: h2; first exact: (kry_span hs').
by rewrite mulmxA -eV; apply: (span_orth0 hs').
Qed.

Lemma eoptimal_span k m (U : 'M[C]_(N, k)) (V : 'M[C]_(N, m)) x0 n y : same_span U V ->
  ip U (imcols A U) \in unitmx -> ip V (imcols A V) \in unitmx -> eoptimal l U x0 n y -> eoptimal l V x0 n y.
Proof.
move=> hs hU hV [h1 [z [c [ey k1 h2]]]]; rewrite ey in h1 h2 *; have hs' := same_span_sym hs; split; first exact: (span_orth0 hs).
have [[F eV] [G eU]] := hs; exists z, (G *m c); split.
- by rewrite mulmxA -eU.
- exact: (kry_span hs).
move=> w z' c' hw k'; rewrite mulmxA -eU eV -mulmxA; apply: h2 => //; exact: (kry_span hs').
Qed.

Section Uniq.
Variables (k : nat) (U : 'M[C]_(N, k)) (x0 : option vec) (n : nat).
Hypothesis hMr : forall c, lMr l (U *m c) = U *m c.

Let half (a b : vec) : exists2 m, a + b = m + m & m = 2%:R^-1 *: (a + b).
Proof.
exists (2%:R^-1 *: (a + b)) => //.
by rewrite -scalerDl -mulr2n -[_ *+ 2]mulr_natl divff ?pnatr_eq0 // scale1r.
Qed.

Let sub2 (a p q : vec) : (a - p) + (a - q) = a + a - (p + q).
Proof. by rewrite addrACA -opprD. Qed.

Let add2 (z z' m : vec) (c c' d : 'cV[C]_k) : z + z' = m + m -> c + c' = d + d ->
  (z + U *m c) + (z' + U *m c') = (m + U *m d) + (m + U *m d).
Proof. by move=> e1 e2; rewrite addrACA e1 -mulmxDr e2 mulmxDr addrACA. Qed.

Lemma optimal_uniq y y' : injective_op A -> optimal l U x0 n y -> optimal l U x0 n y' -> y' = y.
Proof.
move=> inj [o1 [z [c [e1 k1 m1]]]] [o2 [z' [c' [e2 k2 m2]]]].
have hB := lo_B hl; have hmp := lmip hl.
have rE a b : resid l (x0_of x0 + lMr l a + U *m b) = resid l (x0_of x0) - A (a + U *m b).
  by rewrite -addrA -{1}(hMr b) -(linD (lo_Mr hl)) resid_update.
have [zm ez eZ] := half z z'; have [cm ec eC] : exists2 m, c + c' = m + m & m = 2%:R^-1 *: (c + c').
  exists (2%:R^-1 *: (c + c')) => //.
  by rewrite -scalerDl -mulr2n -[_ *+ 2]mulr_natl divff ?pnatr_eq0 // scale1r.
have km : in_krylov (fun v => defl_P (lB l) A U (A v)) (lMop l) (defl_P (lB l) A U (resid l (x0_of x0))) n zm.
  by rewrite eZ; apply: spanZ; apply: spanD.
pose ym := x0_of x0 + lMr l zm + U *m cm.
have rs : resid l y + resid l y' = resid l ym + resid l ym.
  by rewrite e1 e2 /ym !rE !sub2 -!(linD lin) (add2 ez ec).
have om : ip U (resid l ym) = 0.
  have h : ip U (resid l ym) + ip U (resid l ym) = 0 by rewrite -innerDr // -rs innerDr // o1 o2 addr0.
  apply/matrixP => i j; have := congr1 (fun M : 'M[C]_(k, 1) => M i j) h; rewrite !mxE => /eqP.
  by rewrite -mulr2n mulrn_eq0 /= => /eqP.
have le u v : resid_norm l u <= resid_norm l v ->
    mip (ip1 (lB l)) (lMop l) (resid l u) (resid l u) <= mip (ip1 (lB l)) (lMop l) (resid l v) (resid l v).
  by rewrite ler_sqrtC // nnegrE; apply: (ip_ge0' hmp).
have := mid_eq hmp rs (le _ _ (m1 zm cm km om)) (le _ _ (m2 zm cm km om)).
rewrite {1}e1 {1}e2 !rE => /addrI/oppr_inj/eqP; rewrite -subr_eq0 -(linB lin) => /eqP/inj/eqP.
rewrite subr_eq0 => /eqP eq; rewrite e1 e2 -!addrA -(hMr c) -(hMr c') -!(linD (lo_Mr hl)).
by rewrite eq.
Qed.

Lemma eoptimal_uniq y y' : self_adjoint (ip1 (lB l)) A -> pos_def (ip1 (lB l)) A ->
  eoptimal l U x0 n y -> eoptimal l U x0 n y' -> y' = y.
Proof.
move=> sa pd [o1 [z [c [e1 k1 m1]]]] [o2 [z' [c' [e2 k2 m2]]]].
have hen : is_ip (mip (ip1 (lB l)) A) by apply: mip_is_ip.
have [w hw] := M_onto hip lin pd (resid l (x0_of x0)).
have rw : resid l (x0_of x0 + lMr l w) = 0 by rewrite resid_update // hw subrr.
have [zm ez eZ] := half z z'; have [cm ec eC] : exists2 m, c + c' = m + m & m = 2%:R^-1 *: (c + c').
  exists (2%:R^-1 *: (c + c')) => //.
  by rewrite -scalerDl -mulr2n -[_ *+ 2]mulr_natl divff ?pnatr_eq0 // scale1r.
have km : in_krylov (fun v => defl_P (lB l) A U (A v)) (lMop l) (defl_P (lB l) A U (resid l (x0_of x0))) n zm.
  by rewrite eZ; apply: spanZ; apply: spanD.
have rs : (w - (z + U *m c)) + (w - (z' + U *m c')) = (w - (zm + U *m cm)) + (w - (zm + U *m cm)).
  by rewrite !sub2 (add2 ez ec).
have := mid_eq hen rs (m1 w zm cm rw km) (m2 w zm cm rw km).
move=> /addrI/oppr_inj eq; rewrite e1 e2 -!addrA -(hMr c) -(hMr c') -!(linD (lo_Mr hl)).
by rewrite eq.
Qed.
End Uniq.

(** A component of the initial guess in the span of U has no effect. *)
Section Shift.
Variables (k : nat) (U : 'M[C]_(N, k)) (x0 x0' : option vec) (d : 'cV[C]_k) (n : nat).
Hypothesis hMr : forall c, lMr l (U *m c) = U *m c.
Hypothesis hu : ip U (imcols A U) \in unitmx.
Hypothesis hx : x0_of x0' = x0_of x0 + U *m d.

Let start : defl_P (lB l) A U (resid l (x0_of x0')) = defl_P (lB l) A U (resid l (x0_of x0)).
Proof.
have hB := lo_B hl; have -> : resid l (x0_of x0') = resid l (x0_of x0) - imcols A U *m d.
  by rewrite hx -(hMr d) (resid_update hl) (imcols_vec lin).
rewrite /defl_P innerBr // innerMr // mulmxBr -!mulmxA mulKmx // opprB.
by rewrite addrA subrK.
Qed.

Let move z c : x0_of x0' + lMr l z + U *m c = x0_of x0 + lMr l z + U *m (d + c).
Proof. by rewrite hx mulmxDr addrA; congr (_ + _); rewrite addrAC. Qed.

Lemma optimal_shift y : optimal l U x0' n y -> optimal l U x0 n y.
Proof.
move=> [o1 [z [c [e1 k1 m1]]]]; split=> //; exists z, (d + c); split; first by rewrite -move.
  by rewrite -start.
move=> z' c' k' o'; have e : c' = d + (c' - d) by rewrite addrC subrK.
by rewrite e -move; apply: m1; rewrite ?start // move -e.
Qed.

Lemma eoptimal_shift y : eoptimal l U x0' n y -> eoptimal l U x0 n y.
Proof.
move=> [o1 [z [c [e1 k1 m1]]]]; split=> //; exists z, (d + c); split; first by rewrite -move.
  by rewrite -start.
move=> w z' c' hw k'; have e : c' = d + (c' - d) by rewrite addrC subrK.
have sh a b : w - (a + U *m (d + b)) = (w - U *m d) - (a + U *m b).
  by rewrite mulmxDr addrCA opprD addrA.
rewrite e !sh; apply: m1; last by rewrite start.
by rewrite (linB (lo_Mr hl)) hMr hx addrAC addrA subrK.
Qed.
End Shift.

Lemma dmr_facts k (U : 'M[C]_(N, k)) x0 tol res xk : (forall c, lMr l (U *m c) = U *m c) ->
  lMl l (lb l) <> 0 -> dmr_result l x0 U tol res xk ->
  [/\ (0 < size res)%N /\ ip U (imcols A U) \in unitmx,
      forall i, (i.+1 < size res)%N -> tol < nth 0 res i,
      forall i, (i < size res)%N -> exists2 y, optimal l U x0 i y & nth 0 res i = resid_norm l y / rhs_norm l
    & exists2 y, xk = Some y & optimal l U x0 (size res).-1 y].
Proof.
move=> hMr nb; case=> {tol res xk} sqr snorm Minv same kw o ortho s hq ha ho => [|hsa] h.
  have [h1 hz h3] := Properties.Deflation.C29_gmres_optimal hq hl ha hMr ho nb h; rewrite hz; split=> //.
  - by split; [|exact: da_unit ha].
  - move=> i; rewrite ltnS => hi; move: h hz h1 h3; rewrite /deflated_gmres (bnorm_ok hl) /=.
    have [ob hob] := oblique_total hq hl ha; rewrite hob /= => hs0 hz _ _.
    have hs := @unlog_of C N _ (gmres snorm (d_kdata l ob) (o_maxiter o) ortho) _ _ _ _ _ s hs0.
    have gm := gmres_good (d_kdata l ob) (o_maxiter o) snorm ortho.
    case: hs => E.
      by have [x [_ [hh _]]] := Properties.Solver.C24_accounting gm E; apply: (h_gt hh).
    have [x [_ [hh _]]] := Properties.Solver.C24_accounting_error gm E; apply: (h_gt hh).
    by have := h_size hh; rewrite /= hz => -[<-].
have [h1 hz h3] := Properties.Deflation.C29_minres_optimal hq hl ha hMr ho hsa nb h; rewrite hz; split=> //.
- by split; [|exact: da_unit ha].
- move=> i; rewrite ltnS => hi; move: h hz h1 h3; rewrite /deflated_minres (bnorm_ok hl) /=.
  have [ob hob] := oblique_total hq hl ha; rewrite hob /= => hs0 hz _ _.
  have hs := @unlog_of C N _ (minres snorm (d_kdata l ob) (o_maxiter o) ortho) _ _ _ _ _ s hs0.
  have gm := minres_good (d_kdata l ob) (o_maxiter o) snorm ortho.
  case: hs => E.
    by have [x [_ [hh _]]] := Properties.Solver.C24_accounting gm E; apply: (h_gt hh).
  have [x [_ [hh _]]] := Properties.Solver.C24_accounting_error gm E; apply: (h_gt hh).
  by have := h_size hh; rewrite /= hz => -[<-].
Qed.

Lemma dcg_facts k (U : 'M[C]_(N, k)) x0 tol res xk : (forall c, lMr l (U *m c) = U *m c) ->
  lMl l (lb l) <> 0 -> dcg_result l x0 U tol res xk ->
  [/\ [/\ (0 < size res)%N, ip U (imcols A U) \in unitmx, self_adjoint (ip1 (lB l)) A & pos_def (ip1 (lB l)) A],
      forall i, (i.+1 < size res)%N -> tol < nth 0 res i,
      forall i, (i < size res)%N -> exists2 y, eoptimal l U x0 i y & nth 0 res i = resid_norm l y / rhs_norm l
    & exists2 y, xk = Some y & eoptimal l U x0 (size res).-1 y].
Proof.
move=> hMr nb; case=> {tol res xk} sqr Minv same kw o store s hq ha sa pd h.
have [[y [h1 h2 _]] hz h3] := Properties.Deflation.C29_cg_optimal hq hl ha hMr sa pd nb h; rewrite hz; split=> //.
- by split=> //; exact: da_unit ha.
- move=> i; rewrite ltnS => hi; move: h hz; rewrite /deflated_cg (bnorm_ok hl) /=.
  have [ob hob] := oblique_total hq hl ha; rewrite hob /= => hs0 hz.
  have hs := @unlog_of C N _ (cg (d_kdata l ob) store) _ _ _ _ _ s hs0.
  have gm := cg_good (d_kdata l ob) store.
  case: hs => E.
    by have [x [_ [hh _]]] := Properties.Solver.C24_accounting gm E; apply: (h_gt hh).
  have [x [_ [hh _]]] := Properties.Solver.C24_accounting_error gm E; apply: (h_gt hh).
  by have := h_size hh; rewrite /= hz => -[<-].
- by exists y.
Qed.

(** Lists of residual norms that agree as far as both go. *)
Lemma agree_intro (tol : C) (res : seq C) (tol' : C) (res' : seq C) : (0 < size res)%N -> (0 < size res')%N ->
  (forall i, (i.+1 < size res)%N -> tol < nth 0 res i) ->
  (forall i, (i.+1 < size res')%N -> tol' < nth 0 res' i) ->
  (forall i, (i < size res)%N -> (i < size res')%N -> nth 0 res' i = nth 0 res i) -> agree tol res tol' res'.
Proof.
move=> s0 s0' g g' h; split=> // et l1 l2.
have lE (s : seq C) : last 0 s = nth 0 s (size s).-1 by rewrite nth_last.
have es : size res' = size res.
  apply/eqP; rewrite eqn_leq; apply/andP; split; rewrite leqNgt; apply/negP => hlt.
    have := g' (size res).-1; rewrite prednK // => /(_ hlt).
    rewrite h ?prednK //; last exact: ltnW.
    by rewrite -lE -et => /lt_le_trans/(_ l1); rewrite ltxx.
  have := g (size res').-1; rewrite prednK // => /(_ hlt).
  rewrite -h ?prednK //; last exact: ltnW.
  by rewrite -lE => /lt_le_trans/(_ l2); rewrite ltxx.
by apply: (@eq_from_nth _ 0) => // i hi; apply: h => //; rewrite -es.
Qed.
End Defl.
