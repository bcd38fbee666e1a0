(** C57, C58: the residual norms and errors of the solvers obey the a priori bounds BoundCG
    and BoundMinres. *)
From mathcomp Require Import all_ssreflect all_algebra ring.
From Verif Require Import Base Spec.LinAlg Model.Inner Spec.Inner Proof.Algebra Proof.Inner Proof.IpTheory.
From Verif Require Import Model.Arnoldi Spec.Arnoldi Proof.Arnoldi Proof.ArnoldiAll Proof.ArnoldiExample.
From Verif Require Import Model.Solver Spec.Solver Model.LinearSystem Model.Krylov Spec.Krylov.
From Verif Require Import Proof.ArnoldiRel Proof.SolverInv Proof.Gmres Proof.LinearSystem Proof.CgTheory Proof.Cg Proof.Minres.
From Verif Require Import Properties.Solver Properties.Gmres Properties.Minres Properties.Cg.
From Verif Require Import Spec.Rates Model.Projection Model.Bounds Proof.Bounds Proof.Chebyshev Proof.Rates Properties.Bounds.

Set Implicit Arguments.
Unset Strict Implicit.
Unset Printing Implicit Defensive.
Import Order.TTheory GRing.Theory Num.Theory.
Local Open Scope ring_scope.

Local Arguments norm : simpl never.

(** Reading guide: [bound_cg (EList evals) ez] is BoundCG(evals, exclude_zeros=ez).base,
    [cg_eval_step base n] is eval_step(n); [bound_minres (EList evals)] is the object
    BoundMinres(evals): [BCg base] or [BMinres base].  [MA l] is M Ml A Mr, the operator
    whose eigenvalues count. *)
Definition MA (C : numClosedFieldType) (N : nat) (l : lsys C N) (v : 'cV[C]_N) : 'cV[C]_N :=
  lMop l (lMlAMr l v).

Section Properties.
Variable C : numClosedFieldType.
Variable N : nat.
Local Notation vec := 'cV[C]_N.
Variables (l : lsys C N) (o : opts C) (x0 : option vec).
Hypothesis hl : lsys_ok l.
Hypothesis hsa : self_adjoint (ip1 (lB l)) (lMlAMr l).
Let x := x0_of x0.
Local Notation ip := (ip1 (lB l)).
Local Notation energy e := (ip e (lMlAMr l e)).
Let hip : is_ip ip := valid_is_ip (lo_B hl).

Section Cg.
Hypothesis hpd : pos_def ip (lMlAMr l).
Variable store : bool.

Let cg_bound_gen s n (p : {poly C}) b : lMl l (lb l) <> 0 -> of_run (cg_solve l o store x0) s ->
  forall z : nat -> vec, (forall i, (i <= n)%N -> in_krylov (lMlAMr l) (lMop l) (resid l x) i (z i) /\
          forall y z', resid l (x + lMr l y) = 0 -> in_krylov (lMlAMr l) (lMop l) (resid l x) i z' ->
            energy (y - z i) <= energy (y - z')) ->
  forall i y, (i <= n)%N -> resid l (x + lMr l y) = 0 ->
  (size p <= i.+1)%N -> p.[0] = 1 -> 0 <= b ->
  (forall mu, eigenvalue_of (MA l) mu -> 0 < mu -> `|p.[mu]| <= b) ->
  sqrtC (energy (y - z i)) <= b * sqrtC (energy y).
Proof.
move=> nb hs z hz i y hi hy sp p0 b0 hb.
have ge0 v : 0 <= energy v.
  by case: (altP (v =P 0)) => [->|/hpd/ltW //]; rewrite (ipl0 hip).
have er : lMlAMr l y = resid l x.
  by apply/eqP; move/eqP: hy; rewrite resid_update // subr_eq0 eq_sym.
have [z' k1 k2] := energy_rate hip (lMlAMr_lin hl) (lo_M hl) hsa (lo_Msa hl) (lo_Mpd hl) y ge0 sp p0 hb.
rewrite er in k1; have [_ h] := hz i hi; have {}h := h _ _ hy k1.
rewrite -[X in _ <= X](@sqrCK _ (b * _)) ?mulr_ge0 ?sqrtC_ge0 // ler_sqrtC ?nnegrE ?exprn_ge0 ?mulr_ge0 ?sqrtC_ge0 //.
by rewrite exprMn sqrtCK; apply: le_trans h k2.
Qed.

(** C57.  If every eigenvalue of M Ml A Mr lies between two of the numbers given to
    BoundCG, and BoundCG accepts them, then the energy norm of the error of the i-th
    iterate is at most eval_step(i) times that of the initial guess: for every y with
    Ml (b - A (x0 + Mr y)) = 0 the errors are y - z_i, z_0 = 0. *)
Theorem C57_cg_bound evals base s : bound_cg (EList evals) false = Ok base ->
  spectrum_within (MA l) evals ->
  lMl l (lb l) <> 0 -> of_run (cg_solve l o store x0) s ->
  exists z : nat -> vec,
    [/\ z 0%N = 0, s_xk s = Some (x + lMr l (z (cg_it (s_st s)))),
        forall i, (i <= cg_it (s_st s))%N -> nth 0 (s_res s) i = resid_norm l (x + lMr l (z i)) / rhs_norm l
      & forall i y, (i <= cg_it (s_st s))%N -> resid l (x + lMr l y) = 0 ->
          sqrtC (energy (y - z i)) <= cg_eval_step base i * sqrtC (energy y)].
Proof.
move=> hb hs nb h; have [z [[h1 h2] h3 h4 _ _]] := C21_cg_iterates hl hsa hpd nb h.
exists z; split=> // i y hi hy; have [p [p1 p2 p3]] := poly_cg i hb.
apply: (cg_bound_gen nb h h4 hi hy p1 p2).
  exact: cg_eval_ge0 hb.
by move=> mu hmu mu0; apply: p3 => // m hm; apply: (between_all hb mu0 hm); apply: hs.
Qed.

(** With exclude_zeros the eigenvalues must lie between two of the numbers that are not
    negligible: greater than 1e-15 times the greatest one. *)
Theorem C57_cg_bound_zeros evals base s m : bound_cg (EList evals) true = Ok base ->
  greatest evals m ->
  spectrum_within (MA l) [seq t <- evals | eps15 C * m < t] ->
  lMl l (lb l) <> 0 -> of_run (cg_solve l o store x0) s ->
  exists z : nat -> vec,
    [/\ z 0%N = 0, s_xk s = Some (x + lMr l (z (cg_it (s_st s)))),
        forall i, (i <= cg_it (s_st s))%N -> nth 0 (s_res s) i = resid_norm l (x + lMr l (z i)) / rhs_norm l
      & forall i y, (i <= cg_it (s_st s))%N -> resid l (x + lMr l y) = 0 ->
          sqrtC (energy (y - z i)) <= cg_eval_step base i * sqrtC (energy y)].
Proof.
move=> hb hm hs nb h; have [z [[h1 h2] h3 h4 _ _]] := C21_cg_iterates hl hsa hpd nb h.
exists z; split=> // i y hi hy; have [p [p1 p2 p3]] := poly_cg i hb.
apply: (cg_bound_gen nb h h4 hi hy p1 p2).
  exact: cg_eval_ge0 hb.
by move=> mu hmu mu0; apply: p3 => // m' hm'; rewrite (greatest_uniq hm' hm); apply: hs.
Qed.

(** Without Ml and Mr: the A-norm of the error of xk. *)
Theorem C57_cg_bound_plain evals base s xs : (forall v, lMl l v = v) -> (forall v, lMr l v = v) ->
  bound_cg (EList evals) false = Ok base -> spectrum_within (fun v => lMop l (lA l v)) evals ->
  lb l <> 0 -> of_run (cg_solve l o store x0) s -> lA l xs = lb l ->
  exists2 xk, s_xk s = Some xk &
    sqrtC (ip (xs - xk) (lA l (xs - xk))) <=
      cg_eval_step base (size (s_res s)).-1 * sqrtC (ip (xs - x) (lA l (xs - x))).
Proof.
move=> eMl eMr hb hs nb h hx; have nb' : lMl l (lb l) <> 0 by rewrite eMl.
have hs' : spectrum_within (MA l) evals.
  by move=> mu [v v0 hv]; apply: hs; exists v; rewrite // -hv /MA /lMlAMr eMr eMl.
have [z [h1 h2 h3 h4]] := C57_cg_bound hb hs' nb' h.
have [-> _] := C21_cg_last_norm hl hsa hpd nb' h.
exists (x + z (cg_it (s_st s))); first by rewrite h2 eMr.
have := h4 _ (xs - x) (leqnn _); rewrite /resid /lMlAMr !eMr !eMl.
by rewrite [x + _]addrC subrK hx subrr => /(_ erefl); rewrite opprD addrA.
Qed.
End Cg.

(** The residual norms of GMRES and MINRES: relative to the first one. *)
Let res_bound (R : seq C) (p : {poly C}) b i : lMl l (lb l) <> 0 ->
  (forall j, (j < size R)%N -> exists z, [/\ in_krylov (lMlAMr l) (lMop l) (resid l x) j z,
     nth 0 R j = resid_norm l (x + lMr l z) / rhs_norm l
    & forall z', in_krylov (lMlAMr l) (lMop l) (resid l x) j z' ->
        resid_norm l (x + lMr l z) <= resid_norm l (x + lMr l z')]) ->
  (i < size R)%N -> (size p <= i.+1)%N -> p.[0] = 1 -> 0 <= b ->
  (forall mu, eigenvalue_of (MA l) mu -> `|p.[mu]| <= b) ->
  nth 0 R i <= b * nth 0 R 0.
Proof.
move=> nb hR hi sp p0 b0 hb.
have [z [_ -> hz]] := hR i hi.
have [z0 [k0 -> _]] := hR 0%N (leq_ltn_trans (leq0n i) hi).
have e0 : z0 = 0 by have [c ->] := k0; rewrite big_ord0.
have [z' k1 k2] := resid_rate hip (lMlAMr_lin hl) (lo_M hl) hsa (lo_Msa hl) (lo_Mpd hl) (resid l x) sp p0 hb b0.
have n0 : 0 <= (rhs_norm l)^-1 by rewrite invr_ge0 sqrtC_ge0; apply: (ip_ge0' (lmip hl)).
rewrite mulrA ler_wpmul2r //; apply: le_trans (hz _ k1) _.
by rewrite e0 /resid_norm !resid_update // (lin0 (lMlAMr_lin hl)) subr0.
Qed.

Variable snorm : nat -> nat -> (nat -> nat -> C) -> C.
Variable ortho : ortho_t.
Hypothesis ho : ortho_ok l ortho.

(** C58.  If BoundMinres hands over to BoundCG (all numbers positive, or nearly so) and M Ml A Mr is
    positive definite, the residual norms decrease as fast as eval_step says. *)
Theorem C58_minres_definite evals base s i : bound_minres (EList evals) = Ok (BCg base) ->
  pos_def ip (lMlAMr l) -> spectrum_within (MA l) evals ->
  lMl l (lb l) <> 0 -> of_run (minres_solve snorm l o ortho x0) s -> (i < size (s_res s))%N ->
  nth 0 (s_res s) i <= cg_eval_step base i * nth 0 (s_res s) 0.
Proof.
move=> /bminres_cg hb hpd hs nb h hi; have [p [p1 p2 p3]] := poly_cg i hb.
apply: (res_bound nb (fun j => C20_minres_residual_norms hl ho hsa nb h) hi p1 p2).
  exact: cg_eval_ge0 hb.
move=> mu hmu; have mu0 := eig_pos hip (lo_M hl) (lo_Msa hl) (lo_Mpd hl) hpd hmu.
by apply: p3 => // m hm; apply: (between_all hb mu0 hm); apply: hs.
Qed.

Theorem C58_gmres_definite evals base s i : bound_minres (EList evals) = Ok (BCg base) ->
  pos_def ip (lMlAMr l) -> spectrum_within (MA l) evals ->
  lMl l (lb l) <> 0 -> of_run (gmres_solve snorm l o ortho x0) s -> (i < size (s_res s))%N ->
  nth 0 (s_res s) i <= cg_eval_step base i * nth 0 (s_res s) 0.
Proof.
move=> /bminres_cg hb hpd hs nb h hi; have [p [p1 p2 p3]] := poly_cg i hb.
apply: (res_bound nb (fun j => C19_gmres_residual_norms hl ho nb h) hi p1 p2).
  exact: cg_eval_ge0 hb.
move=> mu hmu; have mu0 := eig_pos hip (lo_M hl) (lo_Msa hl) (lo_Mpd hl) hpd hmu.
by apply: p3 => // m hm; apply: (between_all hb mu0 hm); apply: hs.
Qed.

(** Indefinite operators: every eigenvalue lies between two negative or between two
    positive ones of the given numbers, none of which is negligible, and the negative
    numbers and the positive numbers extend over intervals of the same length. *)
Definition same_length (evals : seq C) : Prop := forall l1 ls lt lN,
  least [seq t <- evals | t < 0] l1 -> greatest [seq t <- evals | t < 0] ls ->
  least [seq t <- evals | 0 < t] lt -> greatest [seq t <- evals | 0 < t] lN -> lN - lt = ls - l1.
Definition none_negligible (evals : seq C) : Prop :=
  forall u v, u \in evals -> v \in evals -> eps15 C * `|v| < `|u|.

Theorem C58_minres_indefinite_partial evals base s i : bound_minres (EList evals) = Ok (BMinres base) ->
  none_negligible evals -> same_length evals -> spectrum_within2 (MA l) evals ->
  lMl l (lb l) <> 0 -> of_run (minres_solve snorm l o ortho x0) s -> (i < size (s_res s))%N ->
  nth 0 (s_res s) i <= minres_eval_step base i * nth 0 (s_res s) 0.
Proof.
move=> /bminres_mr hb hn hq hs nb h hi; have [p [p1 p2 p3]] := poly_minres i hb hn hq.
apply: (res_bound nb (fun j => C20_minres_residual_norms hl ho hsa nb h) hi p1 p2).
  exact: minres_eval_ge0 hb.
by move=> mu /hs; apply: p3.
Qed.

Theorem C58_gmres_indefinite_partial evals base s i : bound_minres (EList evals) = Ok (BMinres base) ->
  none_negligible evals -> same_length evals -> spectrum_within2 (MA l) evals ->
  lMl l (lb l) <> 0 -> of_run (gmres_solve snorm l o ortho x0) s -> (i < size (s_res s))%N ->
  nth 0 (s_res s) i <= minres_eval_step base i * nth 0 (s_res s) 0.
Proof.
move=> /bminres_mr hb hn hq hs nb h hi; have [p [p1 p2 p3]] := poly_minres i hb hn hq.
apply: (res_bound nb (fun j => C19_gmres_residual_norms hl ho nb h) hi p1 p2).
  exact: minres_eval_ge0 hb.
by move=> mu /hs; apply: p3.
Qed.
End Properties.

(** Non-vacuity: the systems of Properties/Cg.v and Properties/Minres.v. *)
Section Example.
Variable C : numClosedFieldType.
Local Notation eps := (eps15 C).

Lemma eps_nat n : (n <= 100)%N -> eps * n%:R < 1.
Proof.
move=> h; rewrite ltr_pdivr_mull ?exprn_gt0 ?ltr0n // mulr1.
apply: (@le_lt_trans _ _ (10%:R ^+ 2)); first by rewrite -natrX ler_nat.
by rewrite ltr_eexpn2l // ltr1n.
Qed.

Lemma cg_two (a b : nat) : (0 < a)%N -> (a <= b)%N -> (b <= 100)%N ->
  exists2 base, bound_cg (EList [:: a%:R; b%:R : C]) false = Ok base & 0 <= base < 1.
Proof.
move=> a0 ab hb; have eb : eps * b%:R < 1 by apply: eps_nat.
have ea x : x \in [:: a%:R; b%:R : C] -> eps * b%:R < x.
  rewrite !inE => /orP[] /eqP->; apply: lt_le_trans eb _; rewrite ler1n //; exact: leq_trans ab.
have [||||||base h [_ h']] := @C38_base C [:: a%:R; b%:R] false b%:R a%:R.
- by rewrite /= !realn.
- by split; [rewrite !inE eqxx orbT|move=> x; rewrite !inE => /orP[] /eqP->; rewrite ler_nat].
- by rewrite ltr0n (leq_trans a0).
- split; first by rewrite mem_filter ea !inE eqxx.
  by move=> x; rewrite mem_filter !inE => /andP[_ /orP[] /eqP->]; rewrite ler_nat.
- move=> x /ea; apply: le_lt_trans; rewrite mulNr ler_oppl.
  by apply: (@le_trans _ _ 0); rewrite ?oppr_le0 mulr_ge0 ?ler0n // ltW ?eps_gt0.
- by right.
by exists base.
Qed.

Definition spd_ev (h : bool) : nat := if h then 6%N else 30%N.
Lemma spd_spectrum h : spectrum_within (MA (spd_lsys C h)) [:: (spd_ev h)%:R; (3 * spd_ev h)%:R].
Proof.
move=> mu [v v0 hv]; set c : C := (spd_ev h)%:R.
have hv' : (2%:R * c) *: v + c *: swap_op v = mu *: v.
  rewrite -hv /MA /lMop /lMlAMr /= /spd_op /c; case: (h) => /=.
    by rewrite (linZ (@swap_lin C)) !scalerDr !scalerA -!natrM.
  by rewrite (linZ (@swap_lin C)) !scalerDr !scalerA -!natrM.
have c0 : c != 0 by rewrite /c pnatr_eq0; case: (h).
set t := (mu - 2%:R * c) / c.
have sv : swap_op v = t *: v.
  apply: (scalerI c0); rewrite scalerA [c * t]mulrC divfK // scalerBl -hv'.
  by rewrite [_ + c *: _]addrC addrK.
have : (t ^+ 2 - 1) *: v = 0.
  by rewrite scalerBl scale1r expr2 -scalerA -sv -(linZ (@swap_lin C)) -sv swap_swap subrr.
move/eqP; rewrite scaler_eq0 (negbTE v0) orbF subr_eq0 sqrf_eq1.
have em : mu = (2%:R + t) * c by rewrite mulrDl divfK // addrC subrK.
have b1 : mu = c \/ mu = 3%:R * c -> between [:: c; (3 * spd_ev h)%:R] mu.
  rewrite natrM -/c; case=> ->; [exists c, c|exists (3%:R * c), (3%:R * c)]; by rewrite !inE eqxx ?orbT.
by move=> /orP[] /eqP et; apply: b1; rewrite em et; [right|left]; rewrite ?mulrDl; ring.
Qed.

Example C57_run h tol : 0 <= tol ->
  exists base s, [/\ bound_cg (EList [:: (spd_ev h)%:R; (3 * spd_ev h)%:R]) false = Ok base, 0 <= base < 1,
    cg_solve (spd_lsys C h) (Opts tol 2 false) false (Some (e1 C)) = Returns s &
    exists z : nat -> 'cV[C]_2,
    [/\ z 0%N = 0, s_xk s = Some (e1 C + lMr (spd_lsys C h) (z (cg_it (s_st s)))) &
        forall i y, (i <= cg_it (s_st s))%N -> resid (spd_lsys C h) (e1 C + 3%:R *: y) = 0 ->
          sqrtC (ip1 IpNone (y - z i) (lMlAMr (spd_lsys C h) (y - z i))) <=
          cg_eval_step base i * sqrtC (ip1 IpNone y (lMlAMr (spd_lsys C h) y))]].
Proof.
move=> ht; have [s E _] := C21_C28_run h ht.
have [|||base hb b01] := @cg_two (spd_ev h) (3 * spd_ev h); try by case: (h).
exists base, s; split=> //.
have [z [h1 h2 _ h4]] := C57_cg_bound (spd_ok C h) (@spd_lsa C h) (@spd_lpd C h) hb (@spd_spectrum h) (@spd_nz C h) (or_introl E).
by exists z.
Qed.

(** With a zero eigenvalue in the list: 4, 0, 1 for an operator with the eigenvalues 1 and
    3 and the base 1/3. *)
Example C57_zeros_run : exists s,
  [/\ bound_cg (EList [:: 4%:R; 0; 1 : C]) true = Ok (1 / 3%:R), greatest [:: 4%:R; 0; 1 : C] 4%:R,
      spectrum_within (MA (LSys (@spd_op C) (e0 C) None id id IpNone None)) [seq t <- [:: 4%:R; 0; 1] | eps * 4%:R < t] &
      cg_solve (LSys (@spd_op C) (e0 C) None id id IpNone None) (Opts 0 2 false) false (Some (e1 C)) = Returns s].
Proof.
have ok : lsys_ok (LSys (@spd_op C) (e0 C) None id id IpNone None).
  by split=> //=; [exact: spd_lin|move=> x; apply: ip_pos; apply: (valid_is_ip (B := @IpNone C 2))].
have [||||s E _] := @C28_cg_converges C 2 (LSys (@spd_op C) (e0 C) None id id IpNone None) (Opts 0 2 false) false
  (Some (e1 C)) ok (@spd_sa C) (@spd_pd C) => //; first by apply/eqP; exact: e0_nz.
exists s; split=> //.
- by have [_ []] := C38_ex C.
- split; first by rewrite mem_head.
  by move=> x; rewrite !inE => /or3P[] /eqP->; rewrite ?ler0n ?ler1n.
move=> mu [v v0 hv].
have sv : swap_op v = (mu - 2%:R) *: v.
  by rewrite scalerBl -hv /MA /lMop /lMlAMr /= /spd_op [2%:R *: v + _]addrC addrK.
have : ((mu - 2%:R) ^+ 2 - 1) *: v = 0.
  by rewrite scalerBl scale1r expr2 -scalerA -sv -(linZ (@swap_lin C)) -sv swap_swap subrr.
have e4 : eps * 4%:R < 1 by apply: eps_nat.
move/eqP; rewrite scaler_eq0 (negbTE v0) orbF subr_eq0 sqrf_eq1 => h.
have em : mu = 3%:R \/ mu = 1.
  by rewrite -(subrK 2%:R mu); case/orP: h => /eqP->; [left|right]; ring.
exists 1, 4%:R; rewrite !mem_filter !inE !eqxx !orbT e4 (lt_trans e4) ?ltr1n //.
by case: em => ->; rewrite ?ler1n ?ler_nat.
Qed.

Lemma bminres_two (a b : nat) base : (0 < a)%N -> (0 < b)%N -> bound_cg (EList [:: a%:R; b%:R : C]) false = Ok base ->
  bound_minres (EList [:: a%:R; b%:R : C]) = Ok (BCg base).
Proof.
move=> a0 b0 h; rewrite C39_nonnegative ?h //=; first by rewrite !realn.
move=> x; rewrite !inE => /orP[] /eqP->; apply: (@lt_le_trans _ _ 0); rewrite ?ler0n ?oppr_lt0 ?eps_gt0 //.
Qed.

Example C58_definite_run h tol : 0 <= tol ->
  exists base s, [/\ bound_minres (EList [:: (spd_ev h)%:R; (3 * spd_ev h)%:R]) = Ok (BCg base), 0 <= base < 1,
    minres_solve (@frob C) (spd_lsys C h) (Opts tol 2 false) Lanczos (Some (e1 C)) = Returns s &
    forall i, (i < size (s_res s))%N -> nth 0 (s_res s) i <= cg_eval_step base i * nth 0 (s_res s) 0].
Proof.
move=> ht; have inj : injective_op (lMlAMr (spd_lsys C h)).
  move=> x hx; apply/eqP; apply: contraT => /(@spd_lpd C h).
  by rewrite hx (ipr0 (valid_is_ip (B := @IpNone C 2) I)) ltxx.
have [||s E _] := @C28_minres_finite_partial C 2 (@frob C) (spd_lsys C h) (Opts tol 2 false) Lanczos
  (Some (e1 C)) (spd_ok C h) (@spd_lsa C h) (@spd_lsa C h) inj (@frob_bounds C) (@spd_nz C h) => //.
have [|||base hb b01] := @cg_two (spd_ev h) (3 * spd_ev h); try by case: (h).
have hb' : bound_minres (EList [:: (spd_ev h)%:R; (3 * spd_ev h)%:R : C]) = Ok (BCg base).
  by apply: bminres_two hb; case: (h).
exists base, s; split=> // i hi.
by apply: (C58_minres_definite (spd_ok C h) (@spd_lsa C h) (@spd_lsa C h : ortho_ok (spd_lsys C h) Lanczos) hb' (@spd_lpd C h) (@spd_spectrum h) (@spd_nz C h) (or_introl E)).
Qed.

Definition swp_lsys : lsys C 2 := LSys (@swap_op C) (e0 C) None id id IpNone None.
Lemma swp_ok : lsys_ok swp_lsys.
Proof.
split=> //=; first exact: swap_lin.
by move=> x; apply: ip_pos; apply: (valid_is_ip (B := @IpNone C 2)).
Qed.

Lemma ev4_length : same_length [:: -1; 4%:R; 1; - 4%:R : C].
Proof.
have fn : [seq x <- [:: -1; 4%:R; 1; - 4%:R : C] | x < 0] = [:: -1; - 4%:R].
  by rewrite /= !oppr_lt0 ltr01 !ltr0n [1 < 0]lt_gtF ?ltr01 // [4%:R < 0]lt_gtF ?ltr0n.
have fp : [seq x <- [:: -1; 4%:R; 1; - 4%:R : C] | 0 < x] = [:: 4%:R; 1].
  by rewrite /= !oppr_gt0 ltr01 !ltr0n [1 < 0]lt_gtF ?ltr01 // [4%:R < 0]lt_gtF ?ltr0n.
move=> l1 ls lt lN; rewrite fn fp => h1 h2 h3 h4.
have -> : l1 = - 4%:R.
  apply: (least_uniq h1); split; first by rewrite !inE eqxx orbT.
  by move=> x; rewrite !inE => /orP[] /eqP->; rewrite ?ler_opp2 ?ler1n.
have -> : ls = -1.
  apply: (greatest_uniq h2); split; first by rewrite !inE eqxx.
  by move=> x; rewrite !inE => /orP[] /eqP->; rewrite ?ler_opp2 ?ler1n.
have -> : lt = 1.
  apply: (least_uniq h3); split; first by rewrite !inE eqxx orbT.
  by move=> x; rewrite !inE => /orP[] /eqP->; rewrite ?ler1n.
have -> : lN = 4%:R.
  apply: (greatest_uniq h4); split; first by rewrite !inE eqxx.
  by move=> x; rewrite !inE => /orP[] /eqP->; rewrite ?ler1n.
by rewrite opprK addrC.
Qed.

(** Two intervals of equal length: [-4,-1] and [1,4], base 3/5. *)
Example C58_indefinite_run tol : 0 <= tol ->
  exists s, [/\ bound_minres (EList [:: -1; 4%:R; 1; - 4%:R : C]) = Ok (BMinres (3%:R / 5%:R)),
    minres_solve (@frob C) swp_lsys (Opts tol 2 false) Lanczos (Some (e1 C)) = Returns s &
    forall i, (i < size (s_res s))%N -> nth 0 (s_res s) i <= minres_eval_step (3%:R / 5%:R) i * nth 0 (s_res s) 0].
Proof.
move=> ht; have sa : self_adjoint (ip1 (lB swp_lsys)) (lMlAMr swp_lsys) by exact: swap_sa.
have nz : lMl swp_lsys (lb swp_lsys) <> 0 by apply/eqP; exact: e0_nz.
have [||s E _] := @C28_minres_finite_partial C 2 (@frob C) swp_lsys (Opts tol 2 false) Lanczos
  (Some (e1 C)) swp_ok sa sa (@swap_inj C) (@frob_bounds C) nz => //.
exists s; split=> // [|i hi]; first exact: C39_ex.
apply: (C58_minres_indefinite_partial swp_ok sa (sa : ortho_ok swp_lsys Lanczos) (C39_ex C) _ ev4_length _ nz (or_introl E)) => //.
- move=> u v; rewrite !inE => hu hv; apply: (@lt_le_trans _ _ 1); last first.
    by case/or4P: hu => /eqP->; rewrite ?normrN ?normr1 ?normr_nat ?ler1n.
  apply: le_lt_trans (eps_nat (isT : (4 <= 100)%N)); rewrite ler_wpmul2l ?(ltW (eps_gt0 C)) //.
  by case/or4P: hv => /eqP->; rewrite ?normrN ?normr1 ?normr_nat ?ler1n.
move=> mu [v v0 hv]; have sv : swap_op v = mu *: v by exact: hv.
have : (mu ^+ 2 - 1) *: v = 0.
  by rewrite scalerBl scale1r expr2 -scalerA -sv -(linZ (@swap_lin C)) -sv swap_swap subrr.
move/eqP; rewrite scaler_eq0 (negbTE v0) orbF subr_eq0 sqrf_eq1 => /orP[] /eqP->; [right|left].
  by exists 1, 1; rewrite mem_filter ltr01 !inE eqxx !orbT.
by exists (-1), (-1); rewrite mem_filter oppr_lt0 ltr01 !inE eqxx.
Qed.
End Example.

(** The bound of BoundMinres is wrong if the negative and the positive eigenvalues extend
    over intervals of different lengths (utils.py 1919-1944, 1963-1998): A =
    [[4,4,0],[4,4,3],[0,3,4]] has the eigenvalues -1, 4, 9, so base = 1/5 and eval_step(2) =
    2/5, but the relative residual norm after two steps for b = e_0 is at least
    1/sqrt 2. *)
Section Unequal.
Variable C : numClosedFieldType.
Local Notation vec := 'cV[C]_3.
Let ip := ip1 (@IpNone C 3).
Let hip : is_ip ip := valid_is_ip (B := @IpNone C 3) I.

Definition tri_mx : 'M[C]_3 := \matrix_(i, j)
  (nth 0%N (nth [::] [:: [:: 4; 4; 0]; [:: 4; 4; 3]; [:: 0; 3; 4]]%N i) j)%:R.
Definition tri_op (x : vec) : vec := tri_mx *m x.
Definition tri_lsys : lsys C 3 := LSys tri_op (delta_mx 0 0) None id id IpNone None.

Let o0 : 'I_3 := ord0.
Let o1 : 'I_3 := inord 1.
Let o2 : 'I_3 := inord 2.
Let o1E : nat_of_ord o1 = 1%N. Proof. exact: inordK. Qed.
Let o2E : nat_of_ord o2 = 2%N. Proof. exact: inordK. Qed.

Let sum3 (F : 'I_3 -> C) : \sum_i F i = F o0 + F o1 + F o2.
Proof.
rewrite !big_ord_recr big_ord0 /= add0r; congr (F _ + F _ + F _); by apply: val_inj => //=.
Qed.

Let ipE x y : ip x y = \sum_i (x i 0)^* * y i 0.
Proof. exact: ip3. Qed.

Lemma tri_lin : is_linear tri_op.
Proof. exact: lin_mx. Qed.

Lemma tri_ok : lsys_ok tri_lsys.
Proof. by split=> //=; [exact: tri_lin|move=> x; apply: ip_pos]. Qed.

Lemma tri_sa : self_adjoint (ip1 (lB tri_lsys)) (lMlAMr tri_lsys).
Proof.
move=> x y; rewrite -[LHS]/(ip (tri_op x) y) -[RHS]/(ip x (tri_op y)) !ipE !sum3 !mxE !sum3 !mxE /= o1E o2E /=.
by rewrite !rmorphD !rmorphM !conjC_nat /=; ring.
Qed.

Lemma tri_spectrum mu : eigenvalue_of (MA tri_lsys) mu -> mu \in [:: -1; 4%:R; 9%:R : C].
Proof.
move=> [v v0 hv]; have {}hv : tri_op v = mu *: v by exact: hv.
set a := v o0 0; set b := v o1 0; set c := v o2 0.
have := congr1 (fun w : vec => w o0 0) hv; have := congr1 (fun w : vec => w o1 0) hv; have := congr1 (fun w : vec => w o2 0) hv.
rewrite /tri_op !mxE !sum3 !mxE /= o1E o2E /= -/a -/b -/c => h2 h1 h0.
set t := mu - 4%:R.
have k0 : t * a = 4%:R * b by rewrite mulrBl -h0; ring.
have k1 : t * b = 4%:R * a + 3%:R * c by rewrite mulrBl -h1; ring.
have k2 : t * c = 3%:R * b by rewrite mulrBl -h2; ring.
have em : mu = t + 4%:R by rewrite subrK.
have : (t - 5%:R) * (t + 5%:R) * b = 0.
  have -> : (t - 5%:R) * (t + 5%:R) * b = t * (t * b) - 25%:R * b by ring.
  have -> : t * (t * b) = 4%:R * (t * a) + 3%:R * (t * c) by rewrite k1; ring.
  by rewrite k0 k2; ring.
move/eqP; rewrite !mulf_eq0 subr_eq0 addr_eq0 => /orP[/orP[]|] /eqP h.
- by rewrite em h !inE; apply/or3P; apply: Or33; apply/eqP; ring.
- by rewrite em h !inE; apply/or3P; apply: Or31; apply/eqP; ring.
have [t0|tn] := eqVneq t 0; first by rewrite em t0 add0r !inE eqxx orbT.
case/negP: v0; apply/eqP/matrixP => i j; rewrite ord1 mxE.
move/eqP: k0; rewrite h mulr0 mulf_eq0 (negbTE tn) /= => /eqP a0.
move/eqP: k2; rewrite h mulr0 mulf_eq0 (negbTE tn) /= => /eqP c0.
case: i => -[|[|[|//]]] hi.
- by rewrite -a0; congr (v _ _); apply: val_inj.
- by rewrite -h; congr (v _ _); apply: val_inj; rewrite /= o1E.
- by rewrite -c0; congr (v _ _); apply: val_inj; rewrite /= o2E.
Qed.

Lemma tri_inj : injective_op (lMlAMr tri_lsys).
Proof.
move=> x hx; apply/eqP; apply: contraT => nx.
have : (0 : C) \in [:: -1; 4%:R; 9%:R : C].
  by apply: tri_spectrum; exists x => //; rewrite scale0r; exact: hx.
by rewrite !inE eq_sym oppr_eq0 oner_eq0 !(eq_sym 0) !pnatr_eq0.
Qed.

Let b0 : vec := delta_mx 0 0.
Let q : vec := \col_i (nth 0 [:: 1; -1; 0 : C] i).

Let ipqb : ip q b0 = 1.
Proof. by rewrite ipE !sum3 !mxE /= o1E o2E -!val_eqE /= o1E o2E /= !mulr0 !addr0 mulr1 conjC1. Qed.
Let ipbq : ip b0 q = 1.
Proof. by rewrite (ip_conj hip) -/ip ipqb conjC1. Qed.
Let ipqq : ip q q = 2%:R.
Proof. by rewrite ipE !sum3 !mxE /= o1E o2E /= rmorphN conjC1 mulr0 !addr0 mulrNN mulr1. Qed.

Let krylov_flat (j : nat) (z : vec) : (j <= 2)%N -> in_krylov tri_op id b0 j z -> z o2 0 = 0.
Proof.
move=> hj /(span_widen hj) [c ->]; rewrite big_ord_recl big_ord1 /=.
rewrite !mxE !sum3 !mxE -!val_eqE /= o1E o2E /=; ring.
Qed.

Let ipqA (z : vec) : z o2 0 = 0 -> ip q (tri_op z) = 0.
Proof.
move=> hz; rewrite ipE !sum3 !mxE /= !sum3 !mxE /= o1E o2E /= hz rmorphN conjC0 conjC1; ring.
Qed.

Let lower (j : nat) (z : vec) : (j <= 2)%N -> in_krylov tri_op id b0 j z ->
  2%:R^-1 <= ip (b0 - tri_op z) (b0 - tri_op z).
Proof.
move=> hj /(krylov_flat hj) /ipqA h; set r := b0 - _.
have qr : ip q r = 1 by rewrite (ipBr hip) h ipqb subr0.
have rq : ip r q = 1 by rewrite (ip_conj hip) -/ip qr conjC1.
clearbody r; have := ip_ge0' hip (q - 2%:R *: r).
rewrite (ipBl hip) !(ipBr hip) !(ipZl hip) !(ipZr hip) conjC_nat -/ip ipqq qr rq !mulr1.
have -> : 2%:R - 2%:R - (2%:R - 2%:R * (2%:R * ip r r)) = 4%:R * (ip r r - 2%:R^-1) :> C.
  by field.
by rewrite pmulr_rge0 ?ltr0n // subr_ge0.
Qed.

Lemma tri_bound : bound_minres (EList [:: -1; 4%:R; 9%:R : C]) = Ok (BMinres (1 / 5%:R)).
Proof.
have e9 : eps15 C * 9%:R < 1 by apply: eps_nat.
have e0 : 0 < eps15 C * 9%:R by rewrite mulr_gt0 ?eps_gt0 ?ltr0n.
have h1 : -1 < - eps15 C * 9%:R by rewrite mulNr ltr_opp2.
have p n : (0 < n)%N -> (n%:R < - eps15 C * 9%:R) = false.
  by move=> n0; rewrite lt_gtF // (@lt_trans _ _ 0) ?ltr0n // mulNr oppr_lt0.
have g n : (0 < n)%N -> eps15 C * 9%:R < n%:R by move=> n0; rewrite (lt_le_trans e9) // ler1n.
have fn : [seq x <- [:: -1; 4%:R; 9%:R : C] | x < - eps15 C * 9%:R] = [:: -1] by rewrite /= h1 !p.
have fp : [seq x <- [:: -1; 4%:R; 9%:R : C] | eps15 C * 9%:R < x] = [:: 4%:R; 9%:R].
  have h2 : (eps15 C * 9%:R < -1) = false by rewrite lt_gtF // (@lt_trans _ _ 0) // oppr_lt0 ltr01.
  by rewrite /= h2 !g.
have one (x : C) : least [:: x] x /\ greatest [:: x] x.
  by split; split; rewrite ?mem_head // => y; rewrite inE => /eqP->.
have [|||||||b -> [hb _]] := @C39_indefinite C [:: -1; 4%:R; 9%:R] 9%:R (-1) (-1) 4%:R 9%:R.
- by rewrite /= rpredN rpred1 !realn.
- by exists (-1); rewrite ?mem_head // ler_opp2 ltW ?eps_lt1.
- rewrite /= normrN normr1 !normr_nat; split; first by rewrite !inE eqxx !orbT.
  by move=> x; rewrite !inE => /or3P[] /eqP->; rewrite ?ler1n ?ler_nat.
- by rewrite fn; case: (one (-1)).
- by rewrite fn; case: (one (-1)).
- rewrite fp; split; first by rewrite mem_head.
  by move=> x; rewrite !inE => /orP[] /eqP->; rewrite ?ler_nat.
- rewrite fp; split; first by rewrite !inE eqxx orbT.
  by move=> x; rewrite !inE => /orP[] /eqP->; rewrite ?ler_nat.
move: hb; rewrite !mulN1r !normrN !normr_nat.
have -> : sqrtC (9%:R : C) = 3%:R by have -> : 9%:R = 3%:R ^+ 2 :> C by [rewrite -natrX]; rewrite sqrCK ?ler0n.
have -> : sqrtC (4%:R : C) = 2%:R by have -> : 4%:R = 2%:R ^+ 2 :> C by [rewrite -natrX]; rewrite sqrCK ?ler0n.
have -> : 3%:R + 2%:R = 5%:R :> C by rewrite -natrD.
have -> : 3%:R - 2%:R = 1 :> C by ring.
by move=> hb; congr (Ok (BMinres _)); apply: (@mulIf _ 5%:R); rewrite ?divfK ?pnatr_eq0.
Qed.

(** The run does not stop before the second step. *)
Theorem C58_unequal_refuted ortho : ortho_ok tri_lsys ortho ->
  exists s, [/\ bound_minres (EList [:: -1; 4%:R; 9%:R : C]) = Ok (BMinres (1 / 5%:R)),
    forall mu, eigenvalue_of (MA tri_lsys) mu -> mu \in [:: -1; 4%:R; 9%:R : C],
    minres_solve (@frob C) tri_lsys (Opts 0 3 false) ortho None = Returns s,
    (2 < size (s_res s))%N &
    minres_eval_step (1 / 5%:R) 2 * nth 0 (s_res s) 0 < nth 0 (s_res s) 2].
Proof.
move=> ho.
have nb : lMl tri_lsys (lb tri_lsys) <> 0.
  by move=> /= /matrixP/(_ 0 0)/eqP; rewrite !mxE /= oner_eq0.
have [||s E [_ h]] := @C28_minres_finite_partial C 3 (@frob C) tri_lsys (Opts 0 3 false) ortho None
  tri_ok ho tri_sa tri_inj (@frob_bounds C) nb => //.
have hs : of_run (minres_solve (@frob C) tri_lsys (Opts 0 3 false) ortho None) s by left.
have r0E : resid tri_lsys (x0_of None) = b0 by rewrite /resid /= (lin0 tri_lin) subr0.
have n1 : mnorm ip id b0 = 1.
  by rewrite /mnorm ipE !sum3 !mxE -!val_eqE /= o1E o2E /= !mulr0 !addr0 conjC1 mulr1 sqrtC1.
have rn1 : rhs_norm tri_lsys = 1 := n1.
have low j z : (j <= 2)%N -> in_krylov (lMlAMr tri_lsys) (lMop tri_lsys) (resid tri_lsys (x0_of None)) j z ->
    2%:R^-1 <= resid_norm tri_lsys (x0_of None + lMr tri_lsys z) ^+ 2.
  move=> hj; rewrite r0E => hz; rewrite /resid_norm resid_update ?r0E; last exact: tri_ok.
  by rewrite sqrtCK; apply: lower hz.
have low' j : (j <= 2)%N -> (j < size (s_res s))%N -> 0 <= nth 0 (s_res s) j /\ 2%:R^-1 <= nth 0 (s_res s) j ^+ 2.
  move=> hj js; have [z [k1 -> _]] := C20_minres_residual_norms tri_ok ho tri_sa nb hs js.
  by rewrite rn1 divr1; split; [rewrite sqrtC_ge0; apply: (ip_ge0' hip)|apply: low k1].
have [sz _] := C20_minres_last_norm tri_ok ho tri_sa nb hs.
have h0 : nth 0 (s_res s) 0 = 1.
  have [|z [[c ->] -> _]] := C20_minres_residual_norms tri_ok ho tri_sa nb hs (i := 0); first by rewrite sz.
  rewrite rn1 divr1 big_ord0 /resid_norm resid_update; last exact: tri_ok.
  by rewrite (lin0 (lMlAMr_lin tri_ok)) subr0 r0E.
have two : (2 < size (s_res s))%N.
  rewrite sz ltnS; case: ltnP => // h1; exfalso.
  case: h => [|[k [ek hk]]].
    have -> : last 0 (s_res s) = nth 0 (s_res s) (a_iter (mr_a (s_st s))).
      by rewrite (last_nth 0); case: (s_res s) sz => //= a t [->].
    have [||l1 l2] := low' (a_iter (mr_a (s_st s))); [exact: leq_trans h1 _|by rewrite sz|].
    move=> /= l3; have e : nth 0 (s_res s) (a_iter (mr_a (s_st s))) = 0 by apply/eqP; rewrite eq_le l1 l3.
    by move: l2; rewrite e expr0n /= => /le_gtF; rewrite invr_gt0 ltr0n.
  have k0 : k = 0%N by case: k ek hk => // k ek _; move: h1; rewrite ek.
  rewrite {k}k0 in ek hk.
  have [nb' _] : y_bnorm (lsys_sys tri_lsys (rhs_norm tri_lsys)) != 0 /\ True by rewrite /= rn1 oner_neq0.
  have hs' : of_run (krun (lsys_sys tri_lsys (rhs_norm tri_lsys)) (Opts 0 3 false)
      (minres (@frob C) (kdata_lsys tri_lsys (rhs_norm tri_lsys)) 3 ortho) None) s.
    by move: hs; rewrite /minres_solve (bnorm_ok tri_ok).
  have [[G [R [Y [z hok]]]] _ _ _] := minres_run (lsys_kd tri_ok None) (lsys_cfg tri_ok _ _ ho) tri_sa nb' hs'.
  have Rel := ma_hm (mi_a hok); rewrite ek r0E -[ip1 _]/ip -[k_A _]/tri_op in Rel.
  set H := a_H _ in Rel hk; set m := ncols _ in Rel.
  have m0 : (0 < m)%N by rewrite /m /ncols ek addn1 || rewrite /m /ncols ek.
  have V0 : a_V (mr_a (s_st s)) 0%N = b0.
    rewrite (ar_V Rel m0); have := ar_first Rel m0; rewrite -[ipnorm _ _]/(mnorm ip id _) n1 scale1r.
    by move=> <-.
  have [w [w1 w2 w3 _]] := ar_step Rel (ltnSn 0).
  rewrite big_ord1 (_ : Pb _ _ 0%N = b0) in w1; last by rewrite -V0 (ar_V Rel m0).
  rewrite V0 in w1 w2; have {}w2 := w2 0%N isT; rewrite V0 in w2.
  have bw : ip b0 w = w o0 0.
    by rewrite ipE sum3 !mxE -!val_eqE /= o1E o2E /= !conjC0 conjC1 !mul0r !addr0 mul1r.
  rewrite bw in w2.
  have c0 := congr1 (fun u : vec => u o0 0) w1; have c1 := congr1 (fun u : vec => u o1 0) w1.
  have c2 := congr1 (fun u : vec => u o2 0) w1.
  move: c0 c1 c2; rewrite !mxE !sum3 !mxE -!val_eqE /= o1E o2E /= w2 !(mulr0, mulr1, addr0, add0r).
  move=> c0 c1 c2.
  have H10 : H 1%N 0%N = 4%:R.
    rewrite w3 /ipnorm /mip ipE sum3 w2 -c1 -c2 !(conjC_nat, conjC0, mulr0, addr0, add0r).
    by rewrite -expr2 sqrCK ?ler0n.
  case/andP: hk => _; rewrite H10 /frob !big_ord_recl !big_ord0 /= !addr0 -c0 H10 !normr_nat.
  have -> : 4%:R ^+ 2 + 4%:R ^+ 2 = 2%:R * 4%:R ^+ 2 :> C by ring.
  rewrite sqrtCM ?nnegrE ?exprn_ge0 ?ler0n // sqrCK ?ler0n // mulrA -[X in X <= _]mul1r ler_pmul2r ?ltr0n //.
  apply/negP; rewrite -real_ltNge ?realE ?ler01 ?mulr_ge0 ?invr_ge0 ?exprn_ge0 ?ler0n ?sqrtC_ge0 ?ler0n //.
  rewrite ltr_pdivr_mull ?exprn_gt0 ?ltr0n // mulr1 -(@ltr_pexpn2r _ 2) ?nnegrE ?sqrtC_ge0 ?exprn_ge0 ?ler0n //.
  rewrite sqrtCK -exprM; apply: (@lt_le_trans _ _ (10%:R ^+ 1)); first by rewrite expr1 ltr_nat.
  by rewrite ler_eexpn2l // ltr1n.
exists s; split=> //; first exact: tri_bound.
- exact: tri_spectrum.
rewrite h0 mulr1 /minres_eval_step /= expr1; have [l1 l2] := low' 2%N isT two.
rewrite -(@ltr_pexpn2r _ 2) ?nnegrE // ?mulr_ge0 ?ler0n ?divr_ge0 ?ler01 ?invr_ge0 ?ler0n //.
apply: lt_le_trans l2; have -> : (2%:R * (1 / 5%:R)) ^+ 2 = 2%:R^-1 * (8%:R / 25%:R) :> C by field.
by rewrite -[X in _ < X]mulr1 ltr_pmul2l ?invr_gt0 ?ltr0n // ltr_pdivr_mulr ?ltr0n // mul1r ltr_nat.
Qed.

Example tri_ortho : [/\ ortho_ok tri_lsys Lanczos, ortho_ok tri_lsys Mgs & ortho_ok tri_lsys Dmgs].
Proof. by split=> //; exact: tri_sa. Qed.
End Unequal.

(** With exclude_zeros=True positive eigenvalues up to 1e-15 times the greatest one are
    ignored, too, and the bound is wrong: A = diag(1, 1e-15) gives base 0, but one step of CG
    does not solve A x = (1,1). *)
Section Tiny.
Variable C : numClosedFieldType.
Local Notation vec := 'cV[C]_2.
Local Notation eps := (eps15 C).
Let ip := ip1 (@IpNone C 2).
Let hip : is_ip ip := valid_is_ip (B := @IpNone C 2) I.

Definition tiny_mx : 'M[C]_2 := \matrix_(i, j) (if i == j then (if i == 0 then 1 else eps) else 0).
Definition tiny_op (x : vec) : vec := tiny_mx *m x.
Definition tiny_lsys : lsys C 2 := LSys tiny_op (const_mx 1) None id id IpNone None.

Let ipE (x y : vec) : ip x y = (x 0 0)^* * y 0 0 + (x 1 0)^* * y 1 0.
Proof.
rewrite /ip /ip1 /= tconjE !mxE big_ord_recl big_ord1 !mxE.
by rewrite (_ : lift _ _ = 1) //; apply: val_inj.
Qed.

Lemma tiny0 (x : vec) : tiny_op x 0 0 = x 0 0.
Proof. by rewrite !mxE big_ord_recl big_ord1 !mxE /= mul1r mul0r addr0. Qed.
Lemma tiny1 (x : vec) : tiny_op x 1 0 = eps * x 1 0.
Proof.
rewrite !mxE big_ord_recl big_ord1 !mxE /= mul0r add0r.
by rewrite (_ : lift _ _ = 1) //; apply: val_inj.
Qed.

Let vec2 (x y : vec) : x 0 0 = y 0 0 -> x 1 0 = y 1 0 -> x = y.
Proof.
move=> h0 h1; apply/matrixP => i j; rewrite (ord1 j); case: i => -[|[|//]] hi.
  by rewrite (_ : Ordinal hi = 0) //; apply: val_inj.
by rewrite (_ : Ordinal hi = 1) //; apply: val_inj.
Qed.

Let ec : eps^* = eps.
Proof. by rewrite conj_Creal // ger0_real // ltW ?eps_gt0. Qed.

Lemma tiny_lin : is_linear tiny_op.
Proof. exact: lin_mx. Qed.
Lemma tiny_ok : lsys_ok tiny_lsys.
Proof. by split=> //=; [exact: tiny_lin|move=> x; apply: ip_pos]. Qed.
Lemma tiny_sa : self_adjoint ip tiny_op.
Proof. by move=> x y; rewrite !ipE !tiny0 !tiny1 rmorphM /= ec; ring. Qed.
Lemma tiny_pd : pos_def ip tiny_op.
Proof.
move=> x nx; rewrite ipE tiny0 tiny1 mulrCA -!normCK2 lt_def.
rewrite addr_ge0 ?mulr_ge0 ?exprn_ge0 ?(ltW (eps_gt0 C)) // andbT paddr_eq0 ?mulr_ge0 ?exprn_ge0 ?(ltW (eps_gt0 C)) //.
rewrite [eps * _ == 0]mulf_eq0 (gt_eqF (eps_gt0 C)) /= !expf_eq0 /= !normr_eq0; apply: contraNN nx => /andP[/eqP h0 /eqP h1].
by apply/eqP; apply: vec2; rewrite ?h0 ?h1 mxE.
Qed.

Lemma tiny_spectrum mu : eigenvalue_of (MA tiny_lsys) mu -> mu \in [:: 1; eps].
Proof.
move=> [v v0 hv]; have {}hv : tiny_op v = mu *: v by exact: hv.
have := congr1 (fun w : vec => w 0 0) hv; have := congr1 (fun w : vec => w 1 0) hv.
rewrite tiny0 tiny1 !mxE => h1 h0; rewrite !inE.
have [//|n1] := eqVneq mu 1; have [//|n2] := eqVneq mu eps.
have e0 : v 0 0 = 0.
  have : (mu - 1) * v 0 0 = 0 by rewrite mulrBl mul1r -h0 subrr.
  by move/eqP; rewrite mulf_eq0 subr_eq0 (negbTE n1) => /eqP.
have e1 : v 1 0 = 0.
  have : (mu - eps) * v 1 0 = 0 by rewrite mulrBl -h1 subrr.
  by move/eqP; rewrite mulf_eq0 subr_eq0 (negbTE n2) => /eqP.
by case/negP: v0; apply/eqP; apply: vec2; rewrite ?e0 ?e1 mxE.
Qed.

Lemma tiny_base : bound_cg (EList [:: 1; eps : C]) true = Ok 0.
Proof.
have e1 := eps_lt1 C; have e0 := eps_gt0 C.
have f : [seq x <- [:: 1; eps : C] | eps * 1 < x] = [:: 1] by rewrite /= mulr1 e1 ltxx.
have [||||||base -> [hb _]] := @C38_base C [:: 1; eps] true 1 1.
- by rewrite /= rpred1 ger0_real // ltW.
- split; first by rewrite mem_head.
  by move=> x; rewrite !inE => /orP[] /eqP-> //; apply: ltW.
- exact: ltr01.
- by rewrite f; split; [rewrite mem_head|move=> x; rewrite inE => /eqP->].
- move=> x; rewrite mulr1 => h; apply: (@lt_trans _ _ 0); first by rewrite oppr_lt0.
  by move: h; rewrite !inE => /orP[] /eqP->; rewrite ?ltr01.
- by left.
congr Ok; move/eqP: hb; rewrite divr1 sqrtC1 subrr mulf_eq0 => /orP[/eqP //|].
by rewrite -mulr2n pnatr_eq0.
Qed.

Let kry1 j (z : vec) : (j <= 1)%N -> in_krylov tiny_op id (const_mx 1) j z -> z 0 0 = z 1 0.
Proof. by move=> hj /(span_widen hj) [c ->]; rewrite big_ord1 /= !mxE. Qed.

Theorem C57_tiny_refuted (xs : vec) : lA tiny_lsys xs = lb tiny_lsys ->
  exists s xk, [/\ bound_cg (EList [:: 1; eps : C]) true = Ok 0,
    forall mu, eigenvalue_of (MA tiny_lsys) mu -> mu \in [:: 1; eps],
    cg_solve tiny_lsys (Opts 0 1 false) false None = NoConvergence s /\ size (s_res s) = 2%N,
    s_xk s = Some xk &
    cg_eval_step 0 1 * sqrtC (ip xs (lA tiny_lsys xs)) < sqrtC (ip (xs - xk) (lA tiny_lsys (xs - xk)))].
Proof.
move=> hx; have x0 : xs 0 0 = 1 by rewrite -tiny0 [tiny_op xs]hx mxE.
have x1 : eps * xs 1 0 = 1 by rewrite -tiny1 [tiny_op xs]hx mxE.
have nx : xs 0 0 != xs 1 0.
  rewrite x0; apply: contraTneq (eps_lt1 C) => e; by rewrite -e mulr1 in x1; rewrite x1 ltxx.
have nb : lMl tiny_lsys (lb tiny_lsys) <> 0 by move=> /= /matrixP/(_ 0 0)/eqP; rewrite !mxE oner_eq0.
have r0E : resid tiny_lsys (x0_of None) = const_mx 1 by rewrite /resid /= (lin0 tiny_lin) subr0.
have nz z : in_krylov (lMlAMr tiny_lsys) (lMop tiny_lsys) (resid tiny_lsys (x0_of None)) 1 z ->
    resid tiny_lsys (x0_of None + lMr tiny_lsys z) <> 0.
  rewrite r0E => /(kry1 (leqnn 1)) hz; rewrite add0r => /eqP; rewrite subr_eq0 => /eqP hr.
  have h0 : z 0 0 = 1 by rewrite -tiny0 -[tiny_op z]hr mxE.
  have h1 : eps * z 1 0 = 1 by rewrite -tiny1 -[tiny_op z]hr mxE.
  by have := eps_lt1 C; rewrite -h1 -hz h0 mulr1 ltxx.
have [||s hs] := @C22_cg_returns C 2 tiny_lsys (Opts 0 1 false) false None tiny_ok tiny_sa tiny_pd nb => //.
have [sz [xk ex el]] := C21_cg_last_norm tiny_ok tiny_sa tiny_pd nb hs.
have [z [ez kz _]] := C21_cg_optimal tiny_ok tiny_sa tiny_pd nb hs.
have good := cg_good (kdata_lsys tiny_lsys (rhs_norm tiny_lsys)) false.
have rp : 0 < rhs_norm tiny_lsys.
  rewrite lt_def rhs_norm_eq0; last exact: tiny_ok.
  by move/eqP: (nb) => ->; rewrite sqrtC_ge0; apply: (ip_ge0' hip).
have run : cg_solve tiny_lsys (Opts 0 1 false) false None = krun (lsys_sys tiny_lsys (rhs_norm tiny_lsys))
    (Opts 0 1 false) (cg (kdata_lsys tiny_lsys (rhs_norm tiny_lsys)) false) None.
  by rewrite /cg_solve (bnorm_ok tiny_ok).
have e : xk = z by move: ez; rewrite ex add0r => -[].
have it1 : (cg_it (s_st s) <= 1)%N /\ cg_solve tiny_lsys (Opts 0 1 false) false None = NoConvergence s.
  case: hs => E; last first.
    have [_ hm _ _ _] := C23_convergence_error good (etrans (esym run) E).
    by split=> //; have -> : cg_it (s_st s) = 1%N := hm.
  exfalso; have [xk' [_ [hh _]]] := C24_accounting good (etrans (esym run) E).
  have [_] := C23_normal_return good (etrans (esym run) E); case=> //=.
  rewrite el divr_gt0 // sqrtC_gt0; apply: (ip_pos hip); apply/eqP.
  by rewrite e -[z]add0r; apply: nz; apply: (span_widen _ kz); exact: h_max hh.
have kx := kry1 it1.1; rewrite r0E in kz; have {}kx := kx _ kz.
exists s, xk; split=> //; first exact: tiny_base.
- exact: tiny_spectrum.
- by split; [exact: it1.2|have [_ _ -> _ _] := C23_convergence_error good (etrans (esym run) it1.2)].
rewrite /cg_eval_step expr1 mulr0 mul0r sqrtC_gt0; apply: tiny_pd.
by rewrite subr_eq0; apply: contraNneq nx => ->; rewrite e kx.
Qed.

Example tiny_solution : exists xs, lA tiny_lsys xs = lb tiny_lsys.
Proof.
exists (\col_i (if i == 0 then 1 else eps^-1)); apply: vec2 => /=.
  by rewrite tiny0 !mxE.
by rewrite tiny1 !mxE /= mulfV // gt_eqF ?eps_gt0.
Qed.
End Tiny.


Print Assumptions C57_cg_bound.
Print Assumptions C57_cg_bound_zeros.
Print Assumptions C57_cg_bound_plain.
Print Assumptions C58_minres_definite.
Print Assumptions C58_gmres_definite.
Print Assumptions C58_minres_indefinite_partial.
Print Assumptions C58_gmres_indefinite_partial.
Print Assumptions C58_unequal_refuted.
Print Assumptions C57_tiny_refuted.
