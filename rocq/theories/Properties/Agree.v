(** C76: what the solvers return does not depend on how it is computed. *)
From mathcomp Require Import all_ssreflect all_algebra.
From mathcomp Require Import ring.
From Verif Require Import Base Spec.LinAlg Model.Inner Spec.Inner Proof.Algebra Proof.Inner Proof.IpTheory.
From Verif Require Import Model.Arnoldi Spec.Arnoldi Proof.Arnoldi Proof.ArnoldiAll Proof.ArnoldiExample.
From Verif Require Import Model.Solver Spec.Solver Model.LinearSystem Model.Krylov Spec.Krylov Spec.Agree.
From Verif Require Import Proof.ArnoldiRel Proof.SolverInv Proof.Gmres Proof.LinearSystem Proof.CgTheory Proof.Agree.
From Verif Require Import Properties.Gmres Properties.Minres Properties.Cg.

Set Implicit Arguments.
Unset Strict Implicit.
Unset Printing Implicit Defensive.
Import Order.TTheory GRing.Theory Num.Theory.
Local Open Scope ring_scope.

(** Reading guide: Spec/Agree.v.  [mr_result l x0 tol res xk]: some run of Gmres or Minres
    on the system l ended with these attributes; [cg_result]: of Cg.  [agree tol res tol'
    res']: the residual norms agree as far as both lists go, and the lists are equal if
    the runs reach the same tolerance. *)
Section Properties.
Variable C : numClosedFieldType.
Variable N : nat.
Local Notation vec := 'cV[C]_N.
Implicit Types (l : lsys C N).

Section Two.
Variables (l : lsys C N) (x0 : option vec).
Hypothesis hl : lsys_ok l.
Hypothesis nb : lMl l (lb l) <> 0.

(** Gmres with mgs, dmgs, house or lanczos, and Minres, whatever maxiter and
    explicit_residual are: the same residual norms, and after the same number of
    iterations the same approximation. *)
Theorem C76_minimal_residual tol res xk tol' res' xk' :
  mr_result l x0 tol res xk -> mr_result l x0 tol' res' xk' ->
  agree tol res tol' res' /\ (size res = size res' -> injective_op (lMlAMr l) -> xk' = xk).
Proof.
move=> h1 h2; have hr := rel_refl l (x0_of x0); split.
  by apply: (mr_agree hl hl hr nb nb _ h1 h2); rewrite mul1r.
have [_ h] := mr_rel hl hl hr nb nb h1 h2; move=> e inj; have [z [-> ->]] := h e inj.
by rewrite scale1r.
Qed.

(** Cg with and without store_arnoldi, whatever maxiter and explicit_residual are. *)
Theorem C76_cg tol res xk tol' res' xk' :
  cg_result l x0 tol res xk -> cg_result l x0 tol' res' xk' ->
  agree tol res tol' res' /\ (size res = size res' -> xk' = xk).
Proof.
move=> h1 h2; have hr := rel_refl l (x0_of x0); split.
  by apply: (cg_agree hl hl hr nb nb _ h1 h2); rewrite mul1r.
have [_ h] := cg_rel hl hl hr nb nb h1 h2; move=> e; have [z [-> ->]] := h e.
by rewrite scale1r.
Qed.

(** The residual norms of Cg determine those of Minres and Gmres: the inverse squares add
    up.  In particular the latter are never larger. *)
Theorem C76_peaks tol res xk tol' res' xk' i :
  cg_result l x0 tol res xk -> mr_result l x0 tol' res' xk' ->
  (i < size res)%N -> (i < size res')%N -> nth 0 res i <> 0 ->
  (nth 0 res' i) ^- 2 = \sum_(j < i.+1) (nth 0 res j) ^- 2.
Proof.
move=> /(cg_facts hl nb)[_ _ h1 [_ sa pd nz]] /(mr_facts hl nb)[_ _ h2 _] i1 i2 ni.
have lin := lMlAMr_lin hl; have [[M1 M2] M3] := (lo_M hl, lo_Msa hl, lo_Mpd hl).
have hip : is_ip (ip1 (lB l)) := valid_is_ip (lo_B hl).
have hs : cg_spd (ip1 (lB l)) (lMlAMr l) (resid l (x0_of x0)) by apply: (pos_def_spd _ hip lin).
have hmp := lmip hl.
have bn : rhs_norm l != 0 by rewrite rhs_norm_eq0 //; apply/eqP.
set r0 := resid l (x0_of x0) in h1 hs nz *.
have rE j : resid l (x0_of x0 + lMr l (cy (ip1 (lB l)) (lMlAMr l) (lMop l) r0 j)) =
    cr (ip1 (lB l)) (lMlAMr l) (lMop l) r0 j.
  by rewrite resid_update // -(cr_res (ip1 (lB l)) (lMop l) r0 lin).
have e1 j : (j < size res)%N ->
    (nth 0 res j) ^- 2 = (rho (ip1 (lB l)) (lMlAMr l) (lMop l) r0 j)^-1 * rhs_norm l ^+ 2.
  move=> hj; have [-> _ _] := h1 j hj; rewrite /resid_norm rE expr_div_n sqrtCK invf_div mulrC.
  by [].
have nzi j : (j <= i)%N -> cr (ip1 (lB l)) (lMlAMr l) (lMop l) r0 j != 0.
  rewrite leq_eqVlt => /orP[/eqP->|hj]; last by apply: nz; apply: leq_ltn_trans hj i1.
  apply/eqP => c0; apply: ni; have [-> _ _] := h1 i i1.
  by rewrite /resid_norm rE c0 /mnorm (ipl0 hip) sqrtC0 mul0r.
have [z [k1 k2] ->] := h2 i i2.
rewrite expr_div_n sqrtCK invf_div -[ip1 _ _ _]/(mip (ip1 (lB l)) (lMop l) _ _) resid_update //.
rewrite mulrC (peaks hip lin M1 M2 M3 hs nzi k1); last first.
  move=> z' hz'; have := k2 z' hz'; rewrite /resid_norm /mnorm !resid_update // ler_sqrtC //.
    by rewrite nnegrE; apply: (ip_ge0' hmp).
  by rewrite nnegrE; apply: (ip_ge0' hmp).
rewrite mulr_suml; apply: eq_bigr => j _; rewrite e1 //.
exact: leq_ltn_trans (leq_ord j) i1.
Qed.

Theorem C76_cg_not_smaller tol res xk tol' res' xk' i :
  cg_result l x0 tol res xk -> mr_result l x0 tol' res' xk' ->
  (i < size res)%N -> (i < size res')%N -> nth 0 res' i <= nth 0 res i.
Proof.
move=> /(cg_facts hl nb)[_ _ h1 _] /(mr_facts hl nb)[_ _ h2 _] i1 i2.
have [-> k _] := h1 i i1; have [z [_ kz] ->] := h2 i i2.
rewrite ler_wpmul2r ?invr_ge0 ?kz //.
by rewrite sqrtC_ge0; apply: (ip_ge0' (lmip hl)).
Qed.

(** Conversely the energy norm of the error of Cg is not larger after the same number of
    iterations. *)
Theorem C76_energy tol res xk tol' res' xk' :
  cg_result l x0 tol res xk -> mr_result l x0 tol' res' xk' -> size res = size res' ->
  exists z z', [/\ xk = Some (x0_of x0 + lMr l z), xk' = Some (x0_of x0 + lMr l z')
    & forall y, resid l (x0_of x0 + lMr l y) = 0 ->
        ip1 (lB l) (y - z) (lMlAMr l (y - z)) <= ip1 (lB l) (y - z') (lMlAMr l (y - z'))].
Proof.
move=> /(cg_facts hl nb)[s0 _ h1 [-> sa pd nz]] /(mr_facts hl nb)[_ _ _ [z' -> [hz _]]] es.
have lin := lMlAMr_lin hl; have [[M1 M2] M3] := (lo_M hl, lo_Msa hl, lo_Mpd hl).
have hip : is_ip (ip1 (lB l)) := valid_is_ip (lo_B hl).
have hs : cg_spd (ip1 (lB l)) (lMlAMr l) (resid l (x0_of x0)) by apply: (pos_def_spd _ hip lin).
eexists; exists z'; split=> // y hy.
apply: (cg_opt hip lin M1 M2 M3 hs (n := (size res).-1) _ (leqnn _)); last first.
- by move/eqP: hy; rewrite resid_update // subr_eq0 => /eqP.
- by rewrite es.
by move=> j hj; apply: nz; rewrite -(prednK s0) ltnS.
Qed.
End Two.

Section Scaled.
Variables (a be m p q g : C) (l l' : lsys C N) (x0 x0' : option vec).
Hypothesis hl : lsys_ok l.
Hypothesis hl' : lsys_ok l'.
Hypothesis hs : scaled a be m p q g l l'.
Hypothesis hx : x0_of x0' = (be / a) *: x0_of x0.
Hypothesis nb : lMl l (lb l) <> 0.

Let nb' : lMl l' (lb l') <> 0.
Proof.
apply/eqP; rewrite (sc_Ml hs) (sc_b hs) (linZ (lo_Ml hl)) !scaler_eq0 !negb_or (sc_p hs) (sc_be hs) /=.
exact/eqP.
Qed.

Let xE (z : vec) : x0_of x0' + lMr l' ((be / (a * q)) *: z) = (be / a) *: (x0_of x0 + lMr l z).
Proof.
rewrite (sc_Mr hs) (linZ (lo_Mr hl)) scalerA hx scalerDr; congr (_ + _ *: _).
by have [a0 q0] := (sc_a hs, sc_q hs); field; apply/andP.
Qed.

(** Multiplying A, b, the preconditioners or the inner product by scalars changes neither
    the residual norms nor (up to the scaling of the solution) the approximations. *)
Theorem C76_scaling tol res xk tol' res' xk' :
  mr_result l x0 tol res xk -> mr_result l' x0' tol' res' xk' ->
  agree tol res tol' res' /\ (size res = size res' -> injective_op (lMlAMr l) ->
    exists2 x, xk = Some x & xk' = Some ((be / a) *: x)).
Proof.
move=> h1 h2; have [hr ec] := rel_scaled hl hs hx; split; first exact: (mr_agree hl hl' hr nb nb' ec h1 h2).
have [_ h] := mr_rel hl hl' hr nb nb' h1 h2; move=> e inj; have [z [-> ->]] := h e inj.
by rewrite xE; eexists.
Qed.

Theorem C76_cg_scaling tol res xk tol' res' xk' :
  cg_result l x0 tol res xk -> cg_result l' x0' tol' res' xk' ->
  agree tol res tol' res' /\ (size res = size res' ->
    exists2 x, xk = Some x & xk' = Some ((be / a) *: x)).
Proof.
move=> h1 h2; have [hr ec] := rel_scaled hl hs hx; split; first exact: (cg_agree hl hl' hr nb nb' ec h1 h2).
have [_ h] := cg_rel hl hl' hr nb nb' h1 h2; move=> e; have [z [-> ->]] := h e.
by rewrite xE; eexists.
Qed.
End Scaled.

Section Left.
Variables (l l' : lsys C N) (x0 : option vec).
Hypothesis hl : lsys_ok l.
Hypothesis hl' : lsys_ok l'.
Hypothesis hp : left_precon l l'.
Hypothesis nb : lMl l (lb l) <> 0.

Let nb' : lMl l' (lb l') <> 0.
Proof.
rewrite (lp_Ml hp) (lp_b hp) => e; have /eqP := nb => /(lo_Mpd hl).
by rewrite e (ipr0 (valid_is_ip (lo_B hl))) ltxx.
Qed.

(** M is the left preconditioner M Ml together with the inner product <., M^-1 .>. *)
Theorem C76_preconditioner tol res xk tol' res' xk' :
  mr_result l x0 tol res xk -> mr_result l' x0 tol' res' xk' ->
  agree tol res tol' res' /\ (size res = size res' -> injective_op (lMlAMr l) -> xk' = xk).
Proof.
move=> h1 h2; have [hr ec] := rel_left (x0_of x0) hl hp; split; first exact: (mr_agree hl hl' hr nb nb' ec h1 h2).
have [_ h] := mr_rel hl hl' hr nb nb' h1 h2; move=> e inj; have [z [-> ->]] := h e inj.
by rewrite scale1r (lp_Mr hp).
Qed.

Theorem C76_cg_preconditioner tol res xk tol' res' xk' :
  cg_result l x0 tol res xk -> cg_result l' x0 tol' res' xk' ->
  agree tol res tol' res' /\ (size res = size res' -> xk' = xk).
Proof.
move=> h1 h2; have [hr ec] := rel_left (x0_of x0) hl hp; split; first exact: (cg_agree hl hl' hr nb nb' ec h1 h2).
have [_ h] := cg_rel hl hl' hr nb nb' h1 h2; move=> e; have [z [-> ->]] := h e.
by rewrite scale1r (lp_Mr hp).
Qed.
End Left.

Section Reduced.
Variables (l l' : lsys C N) (x0 x0' : option vec).
Hypothesis hl : lsys_ok l.
Hypothesis hl' : lsys_ok l'.
Hypothesis hp : reduced l (x0_of x0) l'.
Hypothesis hx : x0_of x0' = 0.
Hypothesis nb : lMl l (lb l) <> 0.
Hypothesis nr : resid l (x0_of x0) <> 0.

Let nb' : lMl l' (lb l') <> 0.
Proof. by rewrite (rd_Ml hp) (rd_b hp). Qed.

(** The solvers work on Ml A Mr y = Ml (b - A x0), started from 0, and return x0 + Mr y;
    the residual norms are relative to the right hand side of the original system. *)
Theorem C76_reduction tol res xk tol' res' xk' :
  mr_result l x0 tol res xk -> mr_result l' x0' tol' res' xk' ->
  [/\ forall i, (i < size res)%N -> (i < size res')%N ->
        nth 0 res i * rhs_norm l = nth 0 res' i * rhs_norm l',
      x0_of x0 = 0 -> agree tol res tol' res'
    & size res = size res' -> injective_op (lMlAMr l) ->
      exists2 y, xk' = Some y & xk = Some (x0_of x0 + lMr l y)].
Proof.
move=> h1 h2; have hr := rel_reduced hl hp; rewrite -hx in hr.
have [k1 k2] := mr_rel hl hl' hr nb nb' h1 h2; split.
- by move=> i i1 i2; rewrite k1 // mul1r.
- move=> ex; apply: (mr_agree hl hl' hr nb nb' _ h1 h2); rewrite mul1r.
  rewrite /rhs_norm (rd_Ml hp) (rd_b hp) ex (lin0 (lo_A hl)) subr0.
  by rewrite /mnorm (rd_M hp) (rd_ip hp).
- move=> e inj; have [z [-> ->]] := k2 e inj; exists z => //.
  by rewrite hx add0r scale1r (rd_Mr hp).
Qed.

Theorem C76_cg_reduction tol res xk tol' res' xk' :
  cg_result l x0 tol res xk -> cg_result l' x0' tol' res' xk' ->
  [/\ forall i, (i < size res)%N -> (i < size res')%N ->
        nth 0 res i * rhs_norm l = nth 0 res' i * rhs_norm l',
      x0_of x0 = 0 -> agree tol res tol' res'
    & size res = size res' ->
      exists2 y, xk' = Some y & xk = Some (x0_of x0 + lMr l y)].
Proof.
move=> h1 h2; have hr := rel_reduced hl hp; rewrite -hx in hr.
have [k1 k2] := cg_rel hl hl' hr nb nb' h1 h2; split.
- by move=> i i1 i2; rewrite k1 // mul1r.
- move=> ex; apply: (cg_agree hl hl' hr nb nb' _ h1 h2); rewrite mul1r.
  rewrite /rhs_norm (rd_Ml hp) (rd_b hp) ex (lin0 (lo_A hl)) subr0.
  by rewrite /mnorm (rd_M hp) (rd_ip hp).
- move=> e; have [z [-> ->]] := k2 e; exists z => //.
  by rewrite hx add0r scale1r (rd_Mr hp).
Qed.
End Reduced.
End Properties.

(** Concrete cases: A = [[2,1],[1,2]], b = e_0, with and without preconditioners. *)
Section Examples.
Variable C : numClosedFieldType.
Let hip := valid_is_ip (B := @IpNone C 2) I.
Local Notation ip := (ip1 (@IpNone C 2)).

Definition plain : lsys C 2 := LSys (@spd_op C) (e0 C) None id id IpNone None.
Definition left_sys : lsys C 2 :=
  LSys (@spd_op C) (e0 C) None (fun x => 10%:R *: x) (fun x => 3%:R *: x) (IpOp (5%:R^-1)%:M) None.
Definition red_sys : lsys C 2 :=
  LSys (fun v => 6%:R *: spd_op v) (2%:R *: (e0 C - spd_op (e1 C))) (ex_M C false) id id IpNone None.

Lemma plain_ok : lsys_ok plain.
Proof. by split=> //=; [exact: spd_lin|move=> x; apply: ip_pos]. Qed.
Lemma plain_sa : self_adjoint ip (lMlAMr plain). Proof. exact: spd_sa. Qed.
Lemma plain_pd : pos_def ip (lMlAMr plain). Proof. exact: spd_pd. Qed.
Lemma plain_nz : lMl plain (lb plain) <> 0. Proof. by apply/eqP; apply: e0_nz. Qed.

Example C76_scaled_case : scaled 1 1 5%:R 2%:R 3%:R 1 plain (spd_lsys C false).
Proof.
split; rewrite ?oner_eq0 ?ltr0n ?pnatr_eq0 ?ltr01 // => *; by rewrite ?scale1r ?mul1r.
Qed.

Lemma left_ip u v : ip1 (lB left_sys) u v = 5%:R^-1 * ip u v.
Proof. by rewrite /ip1 /= mul_scalar_mx -scalemxAr mxE. Qed.

Example C76_left_case : left_precon (spd_lsys C false) left_sys /\ lsys_ok left_sys.
Proof.
split.
  split=> //= [v|u v]; first by rewrite /lMop /= scalerA -natrM.
  by rewrite left_ip /lMop /= (ipZr hip) mulrA mulVf ?mul1r ?pnatr_eq0.
have h5 : 0 < (5%:R^-1 : C) by rewrite invr_gt0 ltr0n.
split=> //=; try exact: scale_lin.
- exact: spd_lin.
- split=> [|x nx].
    apply/matrixP => i j; rewrite !mxE eq_sym.
    by case: eqP => _; rewrite ?mulr1n ?mulr0n ?rmorph0 ?fmorphV ?rmorph_nat.
  rewrite mul_mx_scalar -scalemxAl mxE; have := ip_pos hip nx; rewrite {1}/ip1 /= => hx.
  by rewrite mulr_gt0 //; rewrite tconjE in hx.
- by move=> x nx; rewrite -[IpOp _]/(lB left_sys) left_ip mulr_gt0 // ip_pos.
Qed.

Example C76_reduced_case : reduced (spd_lsys C false) (x0_of (Some (e1 C))) red_sys.
Proof. by split=> //= v; rewrite (linZ (@spd_lin C)) scalerA -natrM. Qed.

(** All solvers run on each of the systems. *)
Example C76_runs (h : bool) x0 o : o <> OrthoOther -> (o = Householder -> h) ->
  [/\ exists res xk, mr_result (spd_lsys C h) x0 0 res xk,
      exists res xk, cg_result (spd_lsys C h) x0 0 res xk
    & exists res xk, cg_result plain x0 0 res xk].
Proof.
move=> h1 h2.
have inj : injective_op (lMlAMr (spd_lsys C h)).
  by move=> x e; apply/eqP; apply: contraT => /(@spd_lpd C h); rewrite e (ipr0 hip) ltxx.
have ho : ortho_ok (spd_lsys C h) o.
  case: (o) h1 h2 => //= _; last by case: h {inj} => // /(_ erefl).
  by move=> _; exact: spd_lsa.
split.
- have [//|//|s E _] := @C28_gmres_finite_partial C 2 (@frob C) (spd_lsys C h) (Opts 0 2 false) o x0
    (spd_ok C h) ho inj (@frob_bounds C) (@spd_nz C h).
  by exists (s_res s), (s_xk s); apply: (MrGmres (o := Opts 0 2 false) ho); left; exact: E.
- have [||||s E _] := @C28_cg_converges C 2 (spd_lsys C h) (Opts 0 2 false) false x0 (spd_ok C h)
    (@spd_lsa C h) (@spd_lpd C h) => //; first exact: spd_nz.
  by exists (s_res s), (s_xk s); apply: (CgRun (o := Opts 0 2 false) (@spd_lsa C h) (@spd_lpd C h)); left; exact: E.
- have [||||s E _] := @C28_cg_converges C 2 plain (Opts 0 2 false) false x0 plain_ok plain_sa plain_pd => //.
    exact: plain_nz.
  by exists (s_res s), (s_xk s); exact: (@CgRun C 2 plain x0 (Opts 0 2 false) false s plain_sa plain_pd (or_introl E)).
Qed.

(** After one step the residual norm of Cg is 1/2, that of Gmres the root of 1/5. *)
Example C76_peaks_example : exists res xk res' xk',
  [/\ cg_result plain None 0 res xk, mr_result plain None 0 res' xk',
      nth 0 res 1 = 2%:R^-1 & nth 0 res' 1 ^- 2 = 5%:R].
Proof.
have inj : injective_op (lMlAMr plain).
  by move=> x e; apply/eqP; apply: contraT => /plain_pd; rewrite e (ipr0 hip) ltxx.
have ho : ortho_ok plain Mgs by [].
have e00 : ip (e0 C) (e0 C) = 1.
  by rewrite /ip1 /= tconjE !mxE !big_ord_recl big_ord0 !mxE /= conjC0 conjC1 mul0r mul1r !addr0.
have e11 : ip (e1 C) (e1 C) = 1.
  by rewrite /ip1 /= tconjE !mxE !big_ord_recl big_ord0 !mxE /= conjC0 conjC1 mul0r mul1r addr0 add0r.
have e01 : ip (e0 C) (e1 C) = 0.
  by rewrite /ip1 /= tconjE !mxE !big_ord_recl big_ord0 !mxE /= conjC0 conjC1 mul0r mulr0 !addr0.
have rn : rhs_norm plain = 1 by rewrite /rhs_norm /mnorm /= e00 sqrtC1.
have [s E [_ hs]] := @C28_gmres_finite_partial C 2 (@frob C) plain (Opts 0 2 false) Mgs None
    plain_ok ho inj (@frob_bounds C) plain_nz isT (lexx 0).
have [//|||//|s' E' [_ [xk' ex' hs']]] := @C28_cg_converges C 2 plain (Opts 0 2 false) false None plain_ok plain_sa plain_pd.
- exact: plain_nz.
- by [].
have hc : cg_result plain None 0 (s_res s') (s_xk s').
  by exact: (@CgRun C 2 plain None (Opts 0 2 false) false s' plain_sa plain_pd (or_introl E')).
have hm : mr_result plain None 0 (s_res s) (s_xk s).
  exact: (@MrGmres C 2 plain None (@frob C) (Opts 0 2 false) Mgs s ho (or_introl E)).
exists (s_res s'), (s_xk s'), (s_res s), (s_xk s).
have hr := or_introl E : of_run (gmres_solve (@frob C) plain (Opts 0 2 false) Mgs None) s.
have hr' := or_introl E' : of_run (cg_solve plain (Opts 0 2 false) false None) s'.
have [z' _] := C21_cg_last_norm plain_ok plain_sa plain_pd plain_nz hr'.
have [z _] := C19_gmres_last_norm plain_ok ho plain_nz hr.
have K0 u : in_krylov (lMlAMr plain) (lMop plain) (resid plain (x0_of None)) 0 u -> u = 0.
  by case=> c ->; rewrite big_ord0.
have r0 : resid plain (x0_of None) = e0 C by rewrite /resid /= (lin0 (@spd_lin C)) subr0.
have n0' : nth 0 (s_res s') 0 = 1.
  have [|u [/K0-> _ ->]] := C21_cg_galerkin plain_ok plain_sa plain_pd plain_nz hr' (i := 0); first by rewrite z'.
  by rewrite [lMr _ _]/= addr0 rn divr1 /resid_norm r0 /mnorm /= e00 sqrtC1.
have n0 : nth 0 (s_res s) 0 = 1.
  have [|u [/K0-> -> _]] := C19_gmres_residual_norms plain_ok ho plain_nz hr (i := 0); first by rewrite z.
  by rewrite [lMr _ _]/= addr0 rn divr1 /resid_norm r0 /mnorm /= e00 sqrtC1.
have s1' : (1 < size (s_res s'))%N.
  rewrite z' ltnS lt0n; apply/eqP => e; move: hs'.
  have [_ [x1]] := C21_cg_last_norm plain_ok plain_sa plain_pd plain_nz hr'.
  rewrite ex' => -[<-]; rewrite /= mul0r rn divr1 => <-; move: n0' z'; rewrite e.
  by case: (s_res s') => // r [|//] /= -> _; rewrite ler10.
have s1 : (1 < size (s_res s))%N.
  case: hs => [/=|[k [ek _]]]; last by rewrite z ek.
  rewrite z ltnS lt0n => h; apply/eqP => e; move: n0 z h; rewrite e.
  by case: (s_res s) => // r [|//] /= -> _; rewrite ler10.
have n1' : nth 0 (s_res s') 1 = 2%:R^-1.
  have [//|u [[c ->] hg ->]] := C21_cg_galerkin plain_ok plain_sa plain_pd plain_nz hr' (i := 1).
  rewrite rn divr1 /resid_norm; move: hg; rewrite big_ord1 r0 /= => hg.
  have rE : e0 C - spd_op (0 + c 0%N *: lMop plain (e0 C)) = (1 - 2%:R * c 0%N) *: e0 C - c 0%N *: e1 C.
    rewrite /lMop /= add0r (linZ (@spd_lin C)) /spd_op swap_e0 scalerDr scalerA scalerBl scale1r.
    by rewrite opprD addrA [c 0%N * _]mulrC.
  have ec : 2%:R * c 0%N = 1.
    have := hg (e0 C); rewrite rE (ipBr hip) !(ipZr hip) e00 e01 mulr1 mulr0 subr0 => h.
    apply/eqP; rewrite eq_sym -subr_eq0; apply/eqP; apply: h.
    by apply: (span_mem (krylov (fun x => lMop plain (lMlAMr plain x)) (lMop plain (e0 C))) (i := 0)).
  have n2 : 2%:R != 0 :> C by rewrite pnatr_eq0.
  have c1 : c 0%N = 2%:R^-1 by apply: (mulfI n2); rewrite ec divff.
  rewrite rE ec subrr scale0r sub0r c1 /mnorm /= (ipNl hip) (ipNr hip) opprK (ipZl hip) (ipZr hip) e11 mulr1.
  by rewrite fmorphV rmorph_nat -expr2 sqrCK // invr_ge0 ler0n.
split=> //; rewrite (C76_peaks plain_ok plain_nz hc hm s1' s1); last first.
  by rewrite n1'; apply/eqP; rewrite invr_eq0 pnatr_eq0.
by rewrite !big_ord_recl big_ord0 /= n0' n1' expr1n invr1 addr0 exprVn invrK -natrX -[1]/(1%:R) -natrD.
Qed.
End Examples.

Print Assumptions C76_minimal_residual.
Print Assumptions C76_cg.
Print Assumptions C76_peaks.
Print Assumptions C76_cg_not_smaller.
Print Assumptions C76_energy.
Print Assumptions C76_scaling.
Print Assumptions C76_cg_scaling.
Print Assumptions C76_preconditioner.
Print Assumptions C76_cg_preconditioner.
Print Assumptions C76_reduction.
Print Assumptions C76_cg_reduction.
