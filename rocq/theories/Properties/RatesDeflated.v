(** C59, C60, C61: the deflated solvers obey the a priori bounds for the eigenvalues that the
    deflation leaves over. *)
From mathcomp Require Import all_ssreflect all_algebra ring.
From Verif Require Import Base Spec.LinAlg Model.Inner Spec.Inner Proof.Algebra Proof.Inner Proof.IpTheory.
From Verif Require Import Model.Arnoldi Spec.Arnoldi Proof.Arnoldi Proof.ArnoldiAll Proof.ArnoldiExample.
From Verif Require Import Model.Solver Spec.Solver Model.LinearSystem Model.Krylov Spec.Krylov.
From Verif Require Import Proof.ArnoldiRel Proof.SolverInv Proof.Gmres Proof.LinearSystem Proof.CgTheory Proof.Cg Proof.Minres.
From Verif Require Import Properties.Solver Properties.Gmres Properties.Minres Properties.Cg.
From Verif Require Import Model.Projection Spec.Projection Model.Deflation Spec.Deflation Proof.Projection Proof.Deflation.
From Verif Require Import Proof.Qr Proof.QrExist Properties.Deflation.
From Verif Require Import Spec.Rates Model.Bounds Proof.Bounds Proof.Chebyshev Proof.Rates Properties.Bounds Properties.Rates.

Set Implicit Arguments.
Unset Strict Implicit.
Unset Printing Implicit Defensive.
Import Order.TTheory GRing.Theory Num.Theory.
Local Open Scope ring_scope.

Local Arguments norm : simpl never.

(** Reading guide: as for Properties/Rates.v and Properties/Deflation.v.  [MPA l U] is the
    operator M P Ml A Mr; 0 is one of its eigenvalues (P Ml A Mr U = 0), and only the
    other ones count. *)
Definition MPA (C : numClosedFieldType) (N k : nat) (l : lsys C N) (U : 'M[C]_(N, k)) (v : 'cV[C]_N) : 'cV[C]_N :=
  lMop l (defl_P (lB l) (lMlAMr l) U (lMlAMr l v)).

(** The nonzero eigenvalues lie between two members of s. *)
Definition remaining_within (C : numClosedFieldType) (N : nat) (T : 'cV[C]_N -> 'cV[C]_N) (s : seq C) : Prop :=
  forall mu, eigenvalue_of T mu -> mu != 0 -> between s mu.
Definition remaining_within2 (C : numClosedFieldType) (N : nat) (T : 'cV[C]_N -> 'cV[C]_N) (s : seq C) : Prop :=
  forall mu, eigenvalue_of T mu -> mu != 0 ->
    between [seq x <- s | x < 0] mu \/ between [seq x <- s | 0 < x] mu.

Section Deflated.
Variable C : numClosedFieldType.
Variable sqr : forall n k, 'M[C]_(n, k) -> 'M[C]_(n, k) * 'M[C]_k.
Hypothesis hsqr : qr_spec sqr.
Variable N k : nat.
Local Notation vec := 'cV[C]_N.
Variable l : lsys C N.
Hypothesis hl : lsys_ok l.
Variables (Minv : option (vec -> vec)) (same : bool) (U : 'M[C]_(N, k)) (kw : pkwargs).
Hypothesis ha : defl_args sqr l Minv same U kw.
Local Notation A := (lMlAMr l).
Local Notation M := (lMop l).
Local Notation ip := (inner (lB l)).
Local Notation ip_ := (ip1 (lB l)).
Local Notation P := (defl_P (lB l) A U).
Hypothesis hMr : forall c, lMr l (U *m c) = U *m c.
Hypothesis sa : self_adjoint ip_ A.
Variables (o : opts C) (x0 : option vec).
Local Notation x := (x0_of x0).
Local Notation K := (in_krylov (fun v => P (A v)) M (P (resid l x))).
Local Notation energy v := (ip_ v (A v)).
Let hip : is_ip ip_ := valid_is_ip (lo_B hl).

Let PA (v : vec) := P (A v).
Let PAlin : is_linear PA.
Proof.
have [ob hob] := oblique_total hsqr hl ha.
by move=> a u v; rewrite /PA -!(PdE hl ha hob) -/(dop l ob _) (dop_lin hl ob).
Qed.
Let PAsa : self_adjoint ip_ PA.
Proof.
have [ob hob] := oblique_total hsqr hl ha.
by move=> u v; rewrite /PA -!(PdE hl ha hob); apply: (dop_sa hl ha hob).
Qed.

Let solE y : resid l (x + lMr l y) = 0 -> resid l x = A y.
Proof. by move=> /eqP; rewrite resid_update // subr_eq0 => /eqP. Qed.

Section Pd.
Hypothesis pd : pos_def ip_ A.

Let Age0 v : 0 <= energy v.
Proof. by case: (altP (v =P 0)) => [->|/pd/ltW //]; rewrite (ipl0 hip). Qed.

Let PApsd v : 0 <= ip_ v (PA v).
Proof.
have [ob hob] := oblique_total hsqr hl ha.
rewrite /PA -(PdE hl ha hob) -/(dop l ob v) (dop_psd hl ha hob); exact: Age0.
Qed.

Lemma rem_pos mu : eigenvalue_of (MPA l U) mu -> mu != 0 -> 0 < mu.
Proof. exact: (eig_psd hip (lo_M hl) (lo_Msa hl) (lo_Mpd hl) PApsd). Qed.

(** The polynomial argument *)
Let cg_gen n xk (p : {poly C}) b : defl_energy_optimal l U x0 n xk ->
  (size p <= n.+1)%N -> p.[0] = 1 -> 0 <= b ->
  (forall mu, eigenvalue_of (MPA l U) mu -> 0 < mu -> `|p.[mu]| <= b) ->
  exists z c, xk = x + lMr l z + U *m c /\
    forall y c', resid l (x + lMr l y) = 0 ->
      sqrtC (energy (y - (z + U *m c))) <= b * sqrtC (energy (y - U *m c')).
Proof.
move=> [_ [z [c [ex kz hz]]]] sp p0 b0 hb; exists z, c; split=> // y c' hy.
have [ob hob] := oblique_total hsqr hl ha.
have [z' k1 k2] := energy_rate hip PAlin (lo_M hl) PAsa (lo_Msa hl) (lo_Mpd hl) y PApsd sp p0 hb.
have {}k1 : K n z' by rewrite (solE hy).
have [c1 e1] := span_U ha hob (cU l ob (y - z')).
have h1 := hz y z' c1 hy k1.
have e2 : energy (y - (z' + U *m c1)) = ip_ (y - z') (PA (y - z')).
  by rewrite -e1 opprD addrA -(dop_psd hl ha hob) /dop (PdE hl ha hob).
have [c2 e3] := span_U0 ha hob c'.
have h3 : ip_ y (PA y) <= energy (y - U *m c').
  by rewrite e3 /PA -(PdE hl ha hob); apply: (dop_energy_min hl ha hob sa pd).
rewrite -[X in _ <= X](@sqrCK _ (b * _)) ?mulr_ge0 ?sqrtC_ge0 // ler_sqrtC ?nnegrE ?exprn_ge0 ?mulr_ge0 ?sqrtC_ge0 //.
rewrite exprMn sqrtCK; apply: le_trans h1 _; rewrite e2; apply: le_trans k2 _.
by rewrite ler_wpmul2l // exprn_ge0.
Qed.

(** C59, CG: the energy norms of the errors decrease as eval_step says.  For every y with
    Ml (b - A (x0 + Mr y)) = 0 the errors are y - (z + U c), the initial one is y - U c'
    for any c'. *)
Definition cg_rate (base : C) (i : nat) (xi : vec) : Prop :=
  exists z c, xi = x + lMr l z + U *m c /\
    forall y c', resid l (x + lMr l y) = 0 ->
      sqrtC (energy (y - (z + U *m c))) <= cg_eval_step base i * sqrtC (energy (y - U *m c')).

Theorem C59_cg_bound store evals base s : bound_cg (EList evals) false = Ok base ->
  remaining_within (MPA l U) evals -> lMl l (lb l) <> 0 ->
  of_run (deflated_cg sqr l Minv same U kw o store x0) s ->
  (exists2 xk, s_xk s = Some xk & cg_rate base (size (s_res s)).-1 xk) /\
  forall i, (i < size (s_res s))%N -> exists2 xi, cg_rate base i xi & nth 0 (s_res s) i = resid_norm l xi / rhs_norm l.
Proof.
move=> hb hs nb h; have [[xk [h1 h2 h3]] h4 h5] := C29_cg_optimal hsqr hl ha hMr sa pd nb h.
have key n xi : defl_energy_optimal l U x0 n xi -> cg_rate base n xi.
  move=> hx; have [p [p1 p2 p3]] := poly_cg n hb.
  apply: (cg_gen hx p1 p2); first exact: cg_eval_ge0 hb.
  move=> mu hmu mu0; apply: p3 => // m hm; apply: (between_all hb mu0 hm); apply: hs => //.
  by rewrite gt_eqF.
rewrite h4 /=; split; first by exists xk => //; apply: key.
by move=> i hi; have [xi k1 k2] := h5 i hi; exists xi => //; apply: key.
Qed.

(** RitzApriori passes the Ritz values that remain; with exclude_zeros also 0 may be among
    them. *)
Theorem C59_cg_bound_zeros store evals base s m : bound_cg (EList evals) true = Ok base ->
  greatest evals m -> remaining_within (MPA l U) [seq t <- evals | eps15 C * m < t] -> lMl l (lb l) <> 0 ->
  of_run (deflated_cg sqr l Minv same U kw o store x0) s ->
  (exists2 xk, s_xk s = Some xk & cg_rate base (size (s_res s)).-1 xk) /\
  forall i, (i < size (s_res s))%N -> exists2 xi, cg_rate base i xi & nth 0 (s_res s) i = resid_norm l xi / rhs_norm l.
Proof.
move=> hb hm hs nb h; have [[xk [h1 h2 h3]] h4 h5] := C29_cg_optimal hsqr hl ha hMr sa pd nb h.
have key n xi : defl_energy_optimal l U x0 n xi -> cg_rate base n xi.
  move=> hx; have [p [p1 p2 p3]] := poly_cg n hb.
  apply: (cg_gen hx p1 p2); first exact: cg_eval_ge0 hb.
  move=> mu hmu mu0; apply: p3 => // m' hm'; rewrite (greatest_uniq hm' hm); apply: hs => //.
  by rewrite gt_eqF.
rewrite h4 /=; split; first by exists xk => //; apply: key.
by move=> i hi; have [xi k1 k2] := h5 i hi; exists xi => //; apply: key.
Qed.
End Pd.

(** GMRES and MINRES *)
Let opt0 xi : defl_optimal l U x0 0 xi -> resid_norm l xi = mnorm ip_ M (P (resid l x)).
Proof.
have [ob hob] := oblique_total hsqr hl ha.
move=> [h0 [z [c [ex [d kz] _]]]]; move: kz; rewrite big_ord0 => ez.
have [c1 e1] := span_U0 ha hob c; rewrite /resid_norm; congr (mnorm _ _ _).
have /(orth_U hl ha hob) h0' := h0.
rewrite -(PdE hl ha hob) -[LHS](Pd_id h0') ex ez (lin0 (lo_Mr hl)) addr0 e1 (resid_U hl ha hob hMr).
by rewrite (linB (Pd_lin hl ob)) (PdAU hl ha hob) subr0.
Qed.

Let res_bound (R : seq C) n (p : {poly C}) b i y : size R = n.+1 ->
  (forall j, (j <= n)%N -> exists2 xi, defl_optimal l U x0 j xi & nth 0 R j = resid_norm l xi / rhs_norm l) ->
  resid l (x + lMr l y) = 0 ->
  (i < size R)%N -> (size p <= i.+1)%N -> p.[0] = 1 -> 0 <= b ->
  (forall mu, eigenvalue_of (MPA l U) mu -> mu != 0 -> `|p.[mu]| <= b) ->
  nth 0 R i <= b * nth 0 R 0.
Proof.
move=> sR hR hy; rewrite sR ltnS => hi sp p0 b0 hb.
have [xi [_ [z [c [_ _ hz]]]] ->] := hR i hi.
have [x1 /opt0 e1 ->] := hR 0%N (leq0n _).
have [ob hob] := oblique_total hsqr hl ha.
have [z' k1 k2] := resid_rate0 hip PAlin (lo_M hl) PAsa (lo_Msa hl) (lo_Mpd hl) y sp p0 hb b0.
have {}k1 : K i z' by rewrite (solE hy).
have n0 : 0 <= (rhs_norm l)^-1 by rewrite invr_ge0 sqrtC_ge0; apply: (ip_ge0' (lmip hl)).
rewrite mulrA ler_wpmul2r // e1 (solE hy).
have e := o_correctE hsqr hl ha hob (x + lMr l z').
set c' := invmx _ *m _ in e; have [c2 ec] := span_U ha hob c'; rewrite ec in e.
have rE := resid_correct hsqr hl ha hob hMr e.
apply: le_trans (hz z' c2 k1 _) _; first by apply/(orth_U hl ha hob); rewrite rE (UPd hl ha hob).
move: k2; rewrite /resid_norm rE (resid_update hl) (solE hy) (linB (Pd_lin hl ob)) !(PdE hl ha hob).
by [].
Qed.

Variable snorm : nat -> nat -> (nat -> nat -> C) -> C.
Variable ortho : ortho_t.
Hypothesis ho : ortho_ok l ortho.

Let solvable : pos_def ip_ A -> exists y, resid l (x + lMr l y) = 0.
Proof.
move=> pd; have [y hy] := M_onto hip (lMlAMr_lin hl) pd (resid l x).
by exists y; rewrite resid_update // hy subrr.
Qed.

(** C59, GMRES and MINRES: the residual norms, relative to the first one, which is that of
    the corrected initial guess. *)
Theorem C59_minres_definite evals base s i : bound_minres (EList evals) = Ok (BCg base) ->
  pos_def ip_ A -> remaining_within (MPA l U) evals -> lMl l (lb l) <> 0 ->
  of_run (deflated_minres sqr snorm l Minv same U kw o ortho x0) s -> (i < size (s_res s))%N ->
  nth 0 (s_res s) i <= cg_eval_step base i * nth 0 (s_res s) 0.
Proof.
move=> /bminres_cg hb pd hs nb h hi; have [y hy] := solvable pd; have [p [p1 p2 p3]] := poly_cg i hb.
have [_ h2 h3] := C29_minres_optimal hsqr hl ha hMr ho sa nb h.
apply: (res_bound h2 h3 hy hi p1 p2); first exact: cg_eval_ge0 hb.
move=> mu hmu mun; have mu0 := rem_pos pd hmu mun.
by apply: p3 => // m hm; apply: (between_all hb mu0 hm); apply: hs.
Qed.

Theorem C59_gmres_definite evals base s i : bound_minres (EList evals) = Ok (BCg base) ->
  pos_def ip_ A -> remaining_within (MPA l U) evals -> lMl l (lb l) <> 0 ->
  of_run (deflated_gmres sqr snorm l Minv same U kw o ortho x0) s -> (i < size (s_res s))%N ->
  nth 0 (s_res s) i <= cg_eval_step base i * nth 0 (s_res s) 0.
Proof.
move=> /bminres_cg hb pd hs nb h hi; have [y hy] := solvable pd; have [p [p1 p2 p3]] := poly_cg i hb.
have [_ h2 h3] := C29_gmres_optimal hsqr hl ha hMr ho nb h.
apply: (res_bound h2 h3 hy hi p1 p2); first exact: cg_eval_ge0 hb.
move=> mu hmu mun; have mu0 := rem_pos pd hmu mun.
by apply: p3 => // m hm; apply: (between_all hb mu0 hm); apply: hs.
Qed.

(** C60.  Indefinite operators, with the restrictions of C58. *)
Theorem C60_minres_indefinite_partial evals base s i : bound_minres (EList evals) = Ok (BMinres base) ->
  none_negligible evals -> same_length evals -> remaining_within2 (MPA l U) evals -> lMl l (lb l) <> 0 ->
  (exists y, resid l (x + lMr l y) = 0) ->
  of_run (deflated_minres sqr snorm l Minv same U kw o ortho x0) s -> (i < size (s_res s))%N ->
  nth 0 (s_res s) i <= minres_eval_step base i * nth 0 (s_res s) 0.
Proof.
move=> /bminres_mr hb hn hq hs nb [y hy] h hi; have [p [p1 p2 p3]] := poly_minres i hb hn hq.
have [_ h2 h3] := C29_minres_optimal hsqr hl ha hMr ho sa nb h.
apply: (res_bound h2 h3 hy hi p1 p2); first exact: minres_eval_ge0 hb.
by move=> mu hmu /(hs _ hmu); apply: p3.
Qed.

Theorem C60_gmres_indefinite_partial evals base s i : bound_minres (EList evals) = Ok (BMinres base) ->
  none_negligible evals -> same_length evals -> remaining_within2 (MPA l U) evals -> lMl l (lb l) <> 0 ->
  (exists y, resid l (x + lMr l y) = 0) ->
  of_run (deflated_gmres sqr snorm l Minv same U kw o ortho x0) s -> (i < size (s_res s))%N ->
  nth 0 (s_res s) i <= minres_eval_step base i * nth 0 (s_res s) 0.
Proof.
move=> /bminres_mr hb hn hq hs nb [y hy] h hi; have [p [p1 p2 p3]] := poly_minres i hb hn hq.
have [_ h2 h3] := C29_gmres_optimal hsqr hl ha hMr ho nb h.
apply: (res_bound h2 h3 hy hi p1 p2); first exact: minres_eval_ge0 hb.
by move=> mu hmu /(hs _ hmu); apply: p3.
Qed.

(** C61.  If the columns of U are eigenvectors of M Ml A Mr, deflation removes them and
    nothing else: mu <> 0 is an eigenvalue of M P Ml A Mr if and only if M Ml A Mr has an
    eigenvector v for mu with <U, Ml A Mr v> = 0. *)
Hypothesis heig : forall j, exists d, MA l (col j U) = d *: col j U.

Let AUE (c : 'cV[C]_k) : imcols A U *m c = A (U *m c).
Proof. by rewrite imcols_vec //; apply: lMlAMr_lin hl. Qed.

Theorem C61_remaining mu : mu != 0 ->
  eigenvalue_of (MPA l U) mu <-> exists v, [/\ v != 0, MA l v = mu *: v & ip U (A v) = 0].
Proof.
move=> mun; split; last first.
  by move=> [v [v0 hv h]]; exists v; rewrite // /MPA /defl_P h mulmx0 subr0.
move=> [v v0 hv]; have hB := lo_B hl; have uE := da_unit ha.
have PE : P (A v) = A (v - U *m (invmx (ip U (imcols A U)) *m ip U (A v))).
  by rewrite /defl_P -mulmxA AUE (linB (lMlAMr_lin hl)).
have o1 : ip U (P (A v)) = 0.
  by rewrite /defl_P innerBr // -mulmxA innerMr // mulKVmx // subrr.
have h : ip U (A v) = 0.
  apply/matrixP => j q; rewrite ord1 [RHS]mxE inner_entry // col_id -sa.
  have -> : v = mu^-1 *: M (P (A v)) by rewrite -/(MPA l U v) hv scalerA mulVf // scale1r.
  have [d hd] := heig j.
  rewrite (ipZr hip) -(lo_Msa hl) -/(MA l _) hd (ipZl hip).
  have /matrixP/(_ j 0) := o1; rewrite inner_entry // col_id mxE => ->.
  by rewrite !mulr0.
exists v; split=> //; move: hv; rewrite /MPA PE h mulmx0 mulmx0 subr0 //.
Qed.

(** Therefore the bound for the numbers that RitzApriori evaluates with strategy 'simple',
    if the selected Ritz vectors are eigenvectors: those eigenvalues that are left over. *)
Theorem C61_cg_bound store evals base s : pos_def ip_ A -> bound_cg (EList evals) false = Ok base ->
  (forall mu v, v != 0 -> MA l v = mu *: v -> ip U (A v) = 0 -> mu \in evals) -> lMl l (lb l) <> 0 ->
  of_run (deflated_cg sqr l Minv same U kw o store x0) s ->
  (exists2 xk, s_xk s = Some xk & cg_rate base (size (s_res s)).-1 xk) /\
  forall i, (i < size (s_res s))%N -> exists2 xi, cg_rate base i xi & nth 0 (s_res s) i = resid_norm l xi / rhs_norm l.
Proof.
move=> pd hb hs nb h; apply: (C59_cg_bound pd hb _ nb h) => mu hmu mun.
have [v [v0 h1 h2]] := proj1 (C61_remaining mun) hmu; have hm := hs _ _ v0 h1 h2.
exists mu, mu; split=> //.
Qed.

Theorem C61_minres_bound evals base s i : pos_def ip_ A -> bound_minres (EList evals) = Ok (BCg base) ->
  (forall mu v, v != 0 -> MA l v = mu *: v -> ip U (A v) = 0 -> mu \in evals) -> lMl l (lb l) <> 0 ->
  of_run (deflated_minres sqr snorm l Minv same U kw o ortho x0) s -> (i < size (s_res s))%N ->
  nth 0 (s_res s) i <= cg_eval_step base i * nth 0 (s_res s) 0.
Proof.
move=> pd hb hs nb h; apply: (C59_minres_definite hb pd _ nb h) => mu hmu mun.
have [v [v0 h1 h2]] := proj1 (C61_remaining mun) hmu; have hm := hs _ _ v0 h1 h2.
exists mu, mu; split=> //.
Qed.
End Deflated.

(** Non-vacuity: the system of Properties/Deflation.v, A = [[2,1],[1,2]], M = 5, Ml = 2,
    U = [e_0].  M Ml A Mr has the eigenvalues 10 and 30; 15 remains after deflation. *)
Section Example.
Variable C : numClosedFieldType.

Lemma defl_P1 N (B : ipB C N) (A : 'cV[C]_N -> 'cV[C]_N) (u a : 'cV[C]_N) :
  defl_P B A u a = a - (ip1 B u a / ip1 B u (A u)) *: A u.
Proof.
have iE : imcols A u = A u by apply/matrixP => i j; rewrite mxE !ord1 col_id.
have m1 (X : 'M[C]_1) : X = (X 0 0)%:M by apply/matrixP => i j; rewrite !ord1 mxE eqxx.
rewrite /defl_P iE (m1 (inner B u (A u))) (m1 (inner B u a)) invmx_scalar !mul_mx_scalar scalerA.
by rewrite /ip1.
Qed.

Lemma split2 (v : 'cV[C]_2) : v = v 0 0 *: e0 C + v 1 0 *: e1 C.
Proof.
apply/matrixP => i j; rewrite !mxE ord1; case: i => -[|[|//]] hi /=; rewrite ?mulr0 ?mulr1 ?addr0 ?add0r //; congr (v _ _); exact: val_inj.
Qed.

Lemma dex_MPA (v : 'cV[C]_2) : MPA (dex_lsys C) (e0 C) v = (15%:R * v 1 0) *: e1 C.
Proof.
have ev := split2 v.
have Ae v' : lMlAMr (dex_lsys C) v' = 2%:R *: spd_op v' by [].
have s0 : lMlAMr (dex_lsys C) (e0 C) = 4%:R *: e0 C + 2%:R *: e1 C.
  by rewrite Ae /spd_op swap_e0 scalerDr scalerA -natrM.
have s1 : lMlAMr (dex_lsys C) (e1 C) = 2%:R *: e0 C + 4%:R *: e1 C.
  by rewrite Ae /spd_op swap_e1 scalerDr scalerA -natrM addrC.
have hip := valid_is_ip (B := @IpNone C 2) I.
have eA : lMlAMr (dex_lsys C) v = (4%:R * v 0 0 + 2%:R * v 1 0) *: e0 C + (2%:R * v 0 0 + 4%:R * v 1 0) *: e1 C.
  rewrite [in LHS]ev (linD (lMlAMr_lin (dex_ok C))) !(linZ (lMlAMr_lin (dex_ok C))) s0 s1.
  by rewrite !scalerDr !scalerA addrACA -!scalerDl; congr (_ *: _ + _ *: _); ring.
rewrite /MPA defl_P1 s0 eA /= !(ipDr hip) !(ipZr hip) e0_ip e01_ip.
rewrite !mulr0 !addr0 !mulr1.
have h4 : 4%:R != 0 :> C by rewrite pnatr_eq0.
have h2 : 2%:R != 0 :> C by rewrite pnatr_eq0.
move: (v 0 0 : C) (v 1 0 : C) => a b.
have -> : (4%:R * a + 2%:R * b) / 4%:R = a + b / 2%:R by field.

rewrite !scalerDr !scalerA opprD addrACA -!scalerBl.
rewrite (_ : _ - _ * 4%:R = 0 :> C) ?scale0r ?add0r; last by field.
rewrite /lMop /= scalerA; congr (_ *: _); by field.
Qed.

Lemma dex_remaining : remaining_within (MPA (dex_lsys C) (e0 C)) [:: 15%:R; 15%:R].
Proof.
move=> mu [v v0 hv] mun; rewrite dex_MPA in hv.
have e : mu = 15%:R.
  have h1 : v 1 0 != 0.
    apply: contraNneq v0 => e; move/eqP: hv; rewrite e mulr0 scale0r eq_sym scaler_eq0.
    by rewrite (negbTE mun).
  apply: (mulIf h1); have /matrixP/(_ 1 0) := hv; rewrite !mxE /= mulr1 => ->.
  by [].
by exists 15%:R, 15%:R; rewrite e !inE eqxx.
Qed.

Lemma dex_base : bound_minres (EList [:: 15%:R; 15%:R : C]) = Ok (BCg 0).
Proof.
have [//|//|//|base h _] := @cg_two C 15 15.
have e : base = 0.
  have [_ [m hm [[_ ->] //|[m' [h1 h2 h3 _ ->]]]]] := bound_cg_inv h.
  have e1 : m = 15%:R by have := hm.1; rewrite !inE orbb => /eqP.
  have e2 : m' = 15%:R by have := h3.1; rewrite mem_filter !inE orbb => /andP[_ /eqP].
  by rewrite e1 e2 divff ?pnatr_eq0 // sqrtC1 subrr mul0r.
by rewrite e in h; apply: (@bminres_two C 15 15).
Qed.

(** One step suffices. *)
Example C59_run ortho tol x0 s : ortho = Mgs \/ ortho = Dmgs \/ ortho = Lanczos ->
  deflated_minres (@some_qr C) (@frob C) (dex_lsys C) (dex_Minv C) false (e0 C) dex_kw (Opts tol 2 false) ortho x0 = Returns s ->
  (1 < size (s_res s))%N -> nth 0 (s_res s) 1 <= 0.
Proof.
move=> ho E hi; have ho' : ortho_ok (dex_lsys C) ortho by case: ho => [|[]] -> //; apply: dex_sa.
have mr (c : 'cV[C]_1) : lMr (dex_lsys C) (e0 C *m c) = e0 C *m c by [].
have := C59_minres_definite (@some_qr_spec C) (@dex_ok C) (@dex_args C) mr (@dex_sa C) ho' dex_base (@dex_pd C) dex_remaining (@dex_nz C) (or_introl E) hi.
by rewrite /cg_eval_step expr1 mulr0 mul0r.
Qed.

(** C61: the eigenvector u = e_0 + e_1 of the same system for the eigenvalue 30; the
    other eigenvalue 10 is left over. *)
Definition dex_u : 'cV[C]_2 := e0 C + e1 C.
Local Notation ip := (ip1 (@IpNone C 2)).
Let hip := valid_is_ip (B := @IpNone C 2) I.

Lemma dex_u_swap : swap_op dex_u = dex_u.
Proof. by rewrite /dex_u (linD (@swap_lin C)) swap_e0 swap_e1 addrC. Qed.
Lemma dex_u_spd : spd_op dex_u = 3%:R *: dex_u.
Proof. by rewrite /spd_op dex_u_swap -{2}[dex_u]scale1r -scalerDl -[X in _ + X]/1%:R -natrD. Qed.
Lemma dex_u_ip : ip dex_u dex_u = 2%:R.
Proof.
have e10 : ip (e1 C) (e0 C) = 0 by rewrite (ipC hip) e01_ip conjC0.
have e11 : ip (e1 C) (e1 C) = 1 by rewrite -swap_e0 swap_sa swap_e0 swap_e1 e0_ip.
by rewrite /dex_u !(ipDl hip) !(ipDr hip) e0_ip e01_ip e10 e11 addr0 add0r -[1]/1%:R -natrD.
Qed.

Lemma dex_u_args : defl_args (@some_qr C) (dex_lsys C) (dex_Minv C) false dex_u dex_kw.
Proof.
have h5 : 5%:R != 0 :> C by rewrite pnatr_eq0.
have [|||B eB [vB hB]] := @C43_Minv_inner_product C 2 (dex_lsys C) _ (fun x => 5%:R^-1 *: x) (dex_ok C) erefl.
- by move=> x; rewrite scalerA mulVf // scale1r.
- by move=> x; rewrite scalerA divff // scale1r.
- by [].
have eBn v : ip1 B v v = 5%:R^-1 * ip v v by have [_ ->] := hB v v; rewrite (ipZr hip).
apply: (defl_args1 (@some_qr_spec C) _ eB vB) => //.
- by rewrite /ipnorm eBn dex_u_ip eps_sqrt // ler_pemulr ?invr_ge0 ?ler0n // ler1n.
- move=> v; rewrite eBn => e; have ev : ip v v = 5%:R.
    by apply: (mulfI (invr_neq0 h5)); rewrite e mulVf.
  have h15 : 5%:R^-1 <= 5%:R :> C by rewrite (le_trans _ (_ : 1 <= _)) ?ler1n // invf_le1 ?ltr0n // ler1n.
  rewrite /ipnorm /lMlAMr /= (ipZl hip) (ipZr hip) conjC_nat ev; split; apply: eps_sqrt => //.
  apply: le_trans h15 _; rewrite -ev mulrA -natrM; apply: le_trans (spd_norm v) _.
  by rewrite ler_pemull ?(ip_ge0' hip) // ler1n.
rewrite /lMlAMr /= dex_u_spd !(ipZr hip) dex_u_ip.
by rewrite -!natrM pnatr_eq0.
Qed.

Lemma dex_u_eig j : exists d, MA (dex_lsys C) (col j dex_u) = d *: col j dex_u.
Proof.
exists 30%:R; rewrite ord1 col_id /MA /lMlAMr /lMop /= dex_u_spd !scalerA -!natrM.
by [].
Qed.

Lemma dex_u_rest mu (v : 'cV[C]_2) : v != 0 -> MA (dex_lsys C) v = mu *: v ->
  inner (lB (dex_lsys C)) dex_u (lMlAMr (dex_lsys C) v) = 0 -> mu \in [:: 10%:R; 10%:R : C].
Proof.
move=> v0 hv h0; have h : ip dex_u v = 0.
  have /matrixP/(_ 0 0) : inner (lB (dex_lsys C)) dex_u (lMlAMr (dex_lsys C) v) = 0 by [].
  rewrite [RHS]mxE -[LHS]/(ip dex_u _) -[ip dex_u _](@dex_sa C) /lMlAMr /= dex_u_spd !(ipZl hip) !conjC_nat => /eqP.
  by rewrite !mulf_eq0 !pnatr_eq0 /= => /eqP.
have e10 : ip (e1 C) (e0 C) = 0 by rewrite (ipC hip) e01_ip conjC0.
have e11 : ip (e1 C) (e1 C) = 1 by rewrite -swap_e0 swap_sa swap_e0 swap_e1 e0_ip.
have es : swap_op v = - v.
  move: h; rewrite [in LHS](split2 v) [in swap_op _](split2 v) [in - v](split2 v) /dex_u.
  rewrite !(ipDl hip) !(ipDr hip) !(ipZr hip) e0_ip e01_ip e10 e11 !mulr0 !mulr1 addr0 add0r => /eqP.
  rewrite addr_eq0 => /eqP ->; rewrite (linD (@swap_lin C)) !(linZ (@swap_lin C)) swap_e0 swap_e1.
  by rewrite opprD !scaleNr opprK addrC.
have : (mu - 10%:R) *: v = 0.
  rewrite scalerBl -hv /MA /lMlAMr /lMop /= /spd_op es -{2}[v]scale1r -scalerBl !scalerA.
  rewrite -scalerBl (_ : _ - _ = 0 :> C) ?scale0r //; by ring.
move/eqP; rewrite scaler_eq0 (negbTE v0) orbF subr_eq0 => /eqP ->.
by rewrite !inE eqxx.
Qed.

Lemma dex_base2 : bound_cg (EList [:: 10%:R; 10%:R : C]) false = Ok 0.
Proof.
have [//|//|//|base h _] := @cg_two C 10 10.
have e : base = 0; last by rewrite e in h.
have [_ [m hm [[_ ->] //|[m' [h1 h2 h3 _ ->]]]]] := bound_cg_inv h.
have e1 : m = 10%:R by have := hm.1; rewrite !inE orbb => /eqP.
have e2 : m' = 10%:R by have := h3.1; rewrite mem_filter !inE orbb => /andP[_ /eqP].
by rewrite e1 e2 divff ?pnatr_eq0 // sqrtC1 subrr mul0r.
Qed.

Example C61_run store tol x0 s :
  deflated_cg (@some_qr C) (dex_lsys C) (dex_Minv C) false dex_u dex_kw (Opts tol 2 false) store x0 = Returns s ->
  (exists2 xk, s_xk s = Some xk & cg_rate (dex_lsys C) dex_u x0 0 (size (s_res s)).-1 xk).
Proof.
move=> E; have mr (c : 'cV[C]_1) : lMr (dex_lsys C) (dex_u *m c) = dex_u *m c by [].
by have [] := C61_cg_bound (@some_qr_spec C) (@dex_ok C) dex_u_args mr (@dex_sa C) dex_u_eig (@dex_pd C) dex_base2 dex_u_rest (@dex_nz C) (or_introl E).
Qed.
End Example.

Print Assumptions C59_cg_bound.
Print Assumptions C59_cg_bound_zeros.
Print Assumptions C59_minres_definite.
Print Assumptions C59_gmres_definite.
Print Assumptions C61_remaining.
Print Assumptions C61_cg_bound.
Print Assumptions C61_minres_bound.
Print Assumptions C60_minres_indefinite_partial.
Print Assumptions C60_gmres_indefinite_partial.
