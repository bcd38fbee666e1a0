(** C21, C22, C26, C28: the conjugate gradient method. *)
From mathcomp Require Import all_ssreflect all_algebra ring.
From Verif Require Import Base Spec.LinAlg Model.Inner Spec.Inner Proof.Algebra Proof.Inner Proof.IpTheory.
From Verif Require Import Model.Arnoldi Spec.Arnoldi Proof.Arnoldi Proof.ArnoldiAll Proof.ArnoldiExample.
From Verif Require Import Model.Solver Spec.Solver Model.LinearSystem Model.Krylov Spec.Krylov.
From Verif Require Import Proof.ArnoldiRel Proof.SolverInv Proof.Gmres Proof.LinearSystem Proof.CgTheory Proof.Cg.
From Verif Require Properties.Solver.
From Verif Require Import Properties.Gmres.

Set Implicit Arguments.
Unset Strict Implicit.
Unset Printing Implicit Defensive.
Import Order.TTheory GRing.Theory Num.Theory.
Local Open Scope ring_scope.

Local Arguments norm : simpl never.

(** Reading guide: see Properties/Gmres.v.  [cg_solve l o store x0] is the constructor
    Cg(LinearSystem(...), ..., store_arnoldi=store).  CG needs a self-adjoint positive
    definite Ml A Mr. *)
Section Properties.
Variable C : numClosedFieldType.
Variable N : nat.
Local Notation vec := 'cV[C]_N.
Implicit Types (l : lsys C N) (o : opts C).

Theorem C26_cg_no_guess l o store : lsys_ok l ->
  cg_solve l o store None = cg_solve l o store (Some 0).
Proof.
move=> hl; rewrite /cg_solve (bnorm_ok hl) /bindO /krun.
apply: (@Properties.Solver.C26_no_guess C vec _ _ _ _ _ _ _ o (cg (kdata_lsys l (rhs_norm l)) store)) => /=.
  by rewrite /r0_norm !(ko_res (lsys_kd hl _)).
by rewrite /cg_start !(ko_res (lsys_kd hl _)).
Qed.

Theorem C26_cg_zero_rhs l o store x0 : lsys_ok l -> 0 <= o_tol o ->
  lMl l (lb l) = 0 ->
  exists2 s, cg_solve l o store x0 = Returns s &
    [/\ s_xk s = Some 0, s_x0 s = 0 & s_res s = [:: 0]].
Proof.
move=> hl tol0 hb; rewrite /cg_solve (bnorm_ok hl) /=.
have hd := lsys_kd hl.
apply: (@Properties.Solver.C26_zero_rhs C vec _ _ _ _ _ _ _ o (cg (kdata_lsys l (rhs_norm l)) store)) => /=.
- by rewrite rhs_norm_eq0 // hb.
- by rewrite le_gtF.
- by rewrite /r0_norm (ko_res (hd x0)).
- by rewrite /cg_start (ko_res (hd x0)).
- move=> en; case: (lexact l) => // e [<-]; eexists; first by [].
  by rewrite norm_ip; [eexists|exact: lo_B hl].
Qed.

Section Run.
Variables (l : lsys C N) (o : opts C) (store : bool) (x0 : option vec).
Hypothesis hl : lsys_ok l.
Hypothesis hsa : self_adjoint (ip1 (lB l)) (lMlAMr l).
Hypothesis hpd : pos_def (ip1 (lB l)) (lMlAMr l).
Let x := x0_of x0.
Local Notation K := (in_krylov (lMlAMr l) (lMop l) (resid l x)).
Local Notation ip := (ip1 (lB l)).
(** The square of the energy norm. *)
Local Notation energy e := (ip e (lMlAMr l e)).
Local Notation cy := (cy ip (lMlAMr l) (lMop l) (resid l x)).
Local Notation cr := (cr ip (lMlAMr l) (lMop l) (resid l x)).

Let hip : is_ip ip := valid_is_ip (lo_B hl).
Let hmp := lmip hl.
Let hs : cg_spd ip (lMlAMr l) (resid l x).
Proof. exact: (pos_def_spd _ hip (lMlAMr_lin hl)). Qed.

Let runE s : lMl l (lb l) <> 0 -> of_run (cg_solve l o store x0) s ->
  [/\ cg_ok (kdata_lsys l (rhs_norm l)) x0 (resid l x) store (s_st s),
      size (s_res s) = (cg_it (s_st s)).+1,
      forall i, (i <= cg_it (s_st s))%N -> nth 0 (s_res s) i = resid_norm l (x + lMr l (cy i)) / rhs_norm l
    & s_xk s = Some (x + lMr l (cy (cg_it (s_st s))))].
Proof.
move=> /eqP nb; rewrite /cg_solve (bnorm_ok hl) /= => h.
have nb' : y_bnorm (lsys_sys l (rhs_norm l)) != 0 by rewrite /= rhs_norm_eq0.
have [h1 h2 h3 [x' -> [<-]]] := cg_run (lsys_kd hl x0) hs nb' h; split=> // i hi.
by rewrite h3 // /resid_norm resid_update // -(cr_res ip (lMop l) (resid l x) (lMlAMr_lin hl)).
Qed.

(** C21.  After n iterations the approximation is x0 + Mr z with z in K_n, and the
    energy norm of the error of z is minimal over K_n: for every y with
    Ml (b - A (x0 + Mr y)) = 0. *)
Theorem C21_cg_optimal s : lMl l (lb l) <> 0 -> of_run (cg_solve l o store x0) s ->
  exists z, [/\ s_xk s = Some (x + lMr l z), K (cg_it (s_st s)) z
    & forall y z', resid l (x + lMr l y) = 0 -> K (cg_it (s_st s)) z' ->
        energy (y - z) <= energy (y - z')].
Proof.
move=> h1 h2; have [h3 h4 h5 h6] := runE h1 h2; exists (cy (cg_it (s_st s))); split=> //.
  exact: (cy_span ip (resid l x) (lMlAMr_lin hl) (lo_M hl)).
move=> y z' hy hz; apply: (ci_opt (lsys_kd hl x0) hs h3 hz).
by move/eqP: hy; rewrite resid_update // subr_eq0 => /eqP.
Qed.

(** Without Ml and Mr: the A-norm of the error of xk is minimal over x0 + K_n. *)
Theorem C21_cg_optimal_plain s xs : (forall v, lMl l v = v) -> (forall v, lMr l v = v) ->
  lb l <> 0 -> of_run (cg_solve l o store x0) s -> lA l xs = lb l ->
  exists xk, [/\ s_xk s = Some xk, K (cg_it (s_st s)) (xk - x)
    & forall z, K (cg_it (s_st s)) z ->
        ip (xs - xk) (lA l (xs - xk)) <= ip (xs - (x + z)) (lA l (xs - (x + z)))].
Proof.
move=> eMl eMr nb h hx; have [||z [h1 h2 h3]] := @C21_cg_optimal s; [by rewrite eMl|by []|].
rewrite eMr in h1; exists (x + z); split=> //; first by rewrite addrC addKr.
move=> z' hz'; have := h3 (xs - x) z' _ hz'; rewrite /resid /lMlAMr !eMr !eMl.
by rewrite [x + _]addrC subrK hx subrr => /(_ erefl); rewrite -!addrA -!opprD.
Qed.

(** The iterates z_0, ..., z_n: the recorded norms are those of their residuals, the
    residuals are mutually orthogonal in <.,M .>, the steps z_(i+1) - z_i are
    conjugate, z_i is optimal in K_i, and z_n gives xk. *)
Theorem C21_cg_iterates s : lMl l (lb l) <> 0 -> of_run (cg_solve l o store x0) s ->
  exists z : nat -> vec,
    [/\ z 0%N = 0 /\ s_xk s = Some (x + lMr l (z (cg_it (s_st s)))),
        forall i, (i <= cg_it (s_st s))%N -> nth 0 (s_res s) i = resid_norm l (x + lMr l (z i)) / rhs_norm l,
        forall i, (i <= cg_it (s_st s))%N -> K i (z i) /\
          forall y z', resid l (x + lMr l y) = 0 -> K i z' -> energy (y - z i) <= energy (y - z'),
        forall i j, (i < j)%N -> (j <= cg_it (s_st s))%N ->
          ip (resid l (x + lMr l (z i))) (lMop l (resid l (x + lMr l (z j)))) = 0
      & forall i j, (i < j)%N -> (j < cg_it (s_st s))%N ->
          ip (z i.+1 - z i) (lMlAMr l (z j.+1 - z j)) = 0].
Proof.
move=> h1 h2; have [h3 h4 h5 h6] := runE h1 h2; exists cy.
have lin := lMlAMr_lin hl; have [[M1 M2] M3] := (lo_M hl, lo_Msa hl, lo_Mpd hl).
have rE i : resid l (x + lMr l (cy i)) = cr i.
  by rewrite resid_update // -(cr_res ip (lMop l) (resid l x) lin).
split.
- by split; [rewrite /CgTheory.cy big_ord0|exact: h6].
- exact: h5.
- move=> i hi; split; first exact: (cy_span ip (resid l x) lin M1).
  move=> y z' hy hz; apply: (cg_opt hip lin M1 M2 M3 hs (ci_nz h3) hi hz).
  by move/eqP: hy; rewrite resid_update // subr_eq0 => /eqP.
- move=> i j hij hj; rewrite !rE.
  exact: (cg_orth hip lin M1 M2 M3 hs (ci_nz h3) hij hj).
- move=> i j hij hj; have dE k : cy k.+1 - cy k = al ip (lMlAMr l) (lMop l) (resid l x) k *: cp ip (lMlAMr l) (lMop l) (resid l x) k.
    by rewrite cyS addrC addKr.
  rewrite !dE (linZ lin) (ipZl hip) (ipZr hip).
  rewrite (cg_conj hip lin M1 M2 M3 hs (ci_nz h3)) ?mulr0 //.
  + by rewrite ltnW // (ltn_trans hij).
  + exact: ltnW.
  + by rewrite ltn_eqF.
Qed.

(** The i-th residual is orthogonal to K_i. *)
Theorem C21_cg_galerkin s i : lMl l (lb l) <> 0 -> of_run (cg_solve l o store x0) s -> (i < size (s_res s))%N ->
  exists z, [/\ K i z, forall y, K i y -> ip y (resid l (x + lMr l z)) = 0
    & nth 0 (s_res s) i = resid_norm l (x + lMr l z) / rhs_norm l].
Proof.
move=> h1 h2; have [h3 -> h5 h6] := runE h1 h2 => hi; exists (cy i).
have lin := lMlAMr_lin hl; have [[M1 M2] M3] := (lo_M hl, lo_Msa hl, lo_Mpd hl).
split=> [|y hy|]; [exact: (cy_span ip (resid l x) lin M1)| |exact: h5].
rewrite resid_update // -(cr_res ip (lMop l) (resid l x) lin).
exact: (cg_galerkin hip lin M1 M2 M3 hs (ci_nz h3) hi hy).
Qed.

Theorem C21_cg_last_norm s : lMl l (lb l) <> 0 -> of_run (cg_solve l o store x0) s ->
  size (s_res s) = (cg_it (s_st s)).+1 /\
  exists2 xk, s_xk s = Some xk & last 0 (s_res s) = resid_norm l xk / rhs_norm l.
Proof.
move=> h1 h2; have [h3 h4 h5 h6] := runE h1 h2; split=> //; eexists; first exact: h6.
by rewrite -h5 // (last_nth 0); case: (s_res s) h4 => //= a q [->].
Qed.

(** C28.  With maxiter >= N, CG returns after at most N iterations with the tolerance
    reached, for every tol >= 0. *)
Theorem C28_cg_converges : ~~ store -> lMl l (lb l) <> 0 -> (N <= o_maxiter o)%N -> 0 <= o_tol o ->
  exists2 s, cg_solve l o store x0 = Returns s &
    (cg_it (s_st s) <= N)%N /\
    exists2 xk, s_xk s = Some xk & resid_norm l xk <= o_tol o * rhs_norm l.
Proof.
move=> st nb hm tol0.
have N0 : (0 < N)%N.
  case: (posnP N) => // e; exfalso; apply: nb; apply/matrixP => i.
  by case: i => i hi; exfalso; rewrite e in hi.
have bn : 0 < rhs_norm l.
  rewrite lt_def rhs_norm_eq0 //; move/eqP: (nb) => ->.
  by rewrite sqrtC_ge0; apply: (ip_ge0' hmp).
have := cg_finite (lsys_kd hl x0) hs st bn _ N0 hm tol0.
case=> [en y /=|s E [h1 h2]].
  by case: (lexact l) => // e [<-]; rewrite norm_ip; [eexists|exact: lo_B hl].
have E' : cg_solve l o store x0 = Returns s by rewrite /cg_solve (bnorm_ok hl).
exists s => //; split=> //; have [||_ [xk ex el]] := @C21_cg_last_norm s; [by []|by left|].
by exists xk => //; rewrite -ler_pdivr_mulr // -el.
Qed.

(** With store_arnoldi=True: the run does not fail as long as x0 + Mr K_maxiter contains
    no exact solution ... *)
Theorem C22_cg_returns : lMl l (lb l) <> 0 -> 0 <= o_tol o ->
  (forall z, K (o_maxiter o) z -> resid l (x + lMr l z) <> 0) ->
  exists s, of_run (cg_solve l o store x0) s.
Proof.
move=> nb tol0 nz.
have bn : 0 < rhs_norm l.
  rewrite lt_def rhs_norm_eq0 //; move/eqP: (nb) => ->.
  by rewrite sqrtC_ge0; apply: (ip_ge0' hmp).
have : returns (krun (lsys_sys l (rhs_norm l)) o (cg (kdata_lsys l (rhs_norm l)) store) x0).
apply: (cg_total (lsys_kd hl x0) hs bn _ _ tol0) => [en y /=|_ j hj].
- by case: (lexact l) => // e [<-]; rewrite norm_ip; [eexists|exact: lo_B hl].
- have lin := lMlAMr_lin hl; apply/eqP => r0j.
  have kj : K (o_maxiter o) (cy j).
    by apply: (span_widen _ (cy_span ip (resid l x) lin (lo_M hl) j)).
  by apply: (nz _ kj); rewrite resid_update // -(cr_res ip (lMop l) (resid l x) lin).
by rewrite /cg_solve (bnorm_ok hl) /=; case: (krun _ _ _ _) => // s _; exists s; [left|right].
Qed.

(** ... but it must fail if the exact solution is reached, for example with tol=0 and
    maxiter >= N: the last column of V is divided by the norm of the residual, 0.  (The
    error value of the model stands for nan in the arrays of NumPy.) *)
Theorem C22_exact_convergence_refuted s : store -> lMl l (lb l) <> 0 -> resid l x <> 0 ->
  (N <= o_maxiter o)%N -> o_tol o = 0 -> ~ of_run (cg_solve l o store x0) s.
Proof.
move=> st nb nr0 hm tol0; have N0 : (0 < N)%N.
  case: (posnP N) => // e; exfalso; apply: nb; apply/matrixP => i.
  by case: i => i hi; exfalso; rewrite e in hi.
have bn : 0 < rhs_norm l.
  rewrite lt_def rhs_norm_eq0 //; move/eqP: (nb) => ->.
  by rewrite sqrtC_ge0; apply: (ip_ge0' hmp).
rewrite /cg_solve (bnorm_ok hl) /=; apply: (cg_store_exact (lsys_kd hl x0) hs) => //.
exact/eqP.
Qed.

(** C22.  With store_arnoldi=True, the arrays V, P (or V, if M is not given) and H of the
    solver satisfy the Lanczos relation: the one that the Arnoldi process computes
    (C13, C14), after [iter] steps. *)
Theorem C22_cg_lanczos s : store -> lMl l (lb l) <> 0 -> resid l x <> 0 ->
  of_run (cg_solve l o store x0) s ->
  arnoldi_rel ip (lMlAMr l) (lMop l) (resid l x) (s_iter s) (s_iter s).+1
    (cg_attrV s) (if lM l then cg_attrP s else cg_attrV s) (cg_attrH s).
Proof.
move=> st nb nr0 h; have [h3 h4 h5 h6] := runE nb h.
have lin := lMlAMr_lin hl; have [[M1 M2] M3] := (lo_M hl, lo_Msa hl, lo_Mpd hl).
have gm := cg_good (kdata_lsys l (rhs_norm l)) store.
have ni : (s_iter s <= cg_it (s_st s))%N.
  case: h; rewrite /cg_solve (bnorm_ok hl) /= => E.
    by have [_ [_ [_ ->]]] := Properties.Solver.C24_accounting gm E.
  have [_ [_ [_ ->]]] := Properties.Solver.C24_accounting_error gm E.
  have [_ <- _ _ _] := Properties.Solver.C23_convergence_error gm E.
  exact: leq_pred.
have [w1 w2 w3 w4 w5] := ci_st h3 st.
have nzi j : (j <= s_iter s)%N -> cr j != 0.
  move=> hj; have [e|e] := eqVneq j (cg_it (s_st s)).
    case: (posnP (cg_it (s_st s))) => k0; last by rewrite e; apply: w1.
    by rewrite e k0; apply/eqP.
  by apply: (ci_nz h3); rewrite ltn_neqAle e (leq_trans hj).
have R := cg_lanczos hip lin M1 M2 M3 hs (n := s_iter s) (fun j hj => nzi j (ltnW hj)) (nzi _ (leqnn _)).
have eV j : (j < (s_iter s).+1)%N -> cg_attrV s j = cV ip (lMlAMr l) (lMop l) (resid l x) j.
  move=> hj; rewrite /cg_attrV hj; apply: w3; last by apply: nzi.
  by apply: leq_trans ni; rewrite -ltnS.
have eP j : (j < (s_iter s).+1)%N -> (if lM l then cg_attrP s else cg_attrV s) j = cP ip (lMlAMr l) (lMop l) (resid l x) j.
  move=> hj; case eM: (lM l) => [M|] /=.
    rewrite /cg_attrP; apply: w4; rewrite ?nzi //=; first by rewrite eM.
    by apply: leq_trans ni; rewrite -ltnS.
  rewrite eV //; have := ar_V R hj => ->; by rewrite /lMop eM.
have eH i j : cg_attrH s i j = cH ip (lMlAMr l) (lMop l) (resid l x) (s_iter s) i j.
  rewrite /cg_attrH; case: ifP => [/andP[hi hj]|hn].
    by rewrite w5 /cH leqNgt (leq_trans hj ni) /= leqNgt hj.
  rewrite (ar_hess R) //; move/negbT: hn; rewrite negb_and -!leqNgt => /orP[hi|hj]; last by rewrite hj orbT.
  case: (leqP (s_iter s) j) => hj; first by rewrite orbT.
  by rewrite (leq_ltn_trans hj hi).
case: R => [R1 R2 R3 R4 R5]; split.
- by move=> j hj; rewrite eV // eP // R1.
- move=> i j hi hj; rewrite !eP //; exact: R2.
- by move=> h0; rewrite eP // -R3.
- move=> j hj; have [w [k1 k2 k3 k4]] := R4 j hj; exists w; split.
  + rewrite eV ?k1 //; last by rewrite ltnW.
    congr (_ + _); apply: eq_bigr => i _; rewrite eH eP // ltnS.
    by apply: leq_trans (ltnW hj); rewrite -ltnS.
  + by move=> i hi; rewrite eV ?k2 // ltnS (leq_trans hi) // ltnW.
  + by rewrite eH.
  + by move=> hj'; rewrite eH eP //; apply: k4.
- by move=> i j hij; rewrite eH R5.
Qed.

(** H is real, symmetric and tridiagonal. *)
Theorem C22_cg_tridiagonal s : store -> lMl l (lb l) <> 0 -> resid l x <> 0 ->
  of_run (cg_solve l o store x0) s ->
  [/\ forall i j, (i < s_iter s)%N -> (j < s_iter s)%N -> cg_attrH s i j \is Num.real,
      forall i j, (i < s_iter s)%N -> (j < s_iter s)%N -> cg_attrH s i j = cg_attrH s j i
    & forall i j, (i.+1 < j)%N || (j.+1 < i)%N -> cg_attrH s i j = 0].
Proof.
move=> st nb nr0 h; have R := C22_cg_lanczos st nb nr0 h.
have [h1 h2 h3] := rel_herm hip (lo_M hl) (lo_Msa hl) (lo_Mpd hl) hsa R (leqnSn _).
by split=> // i j /orP[hij|hij]; [apply: h3|rewrite (ar_hess R) // hij].
Qed.
End Run.
End Properties.

(** Non-vacuity: A = [[2,1],[1,2]], b = e_0, x0 = e_1, M = 2 (or none), Ml = 2, Mr = 3. *)
Section Example.
Variable C : numClosedFieldType.

Definition spd_op (x : 'cV[C]_2) : 'cV[C]_2 := 2%:R *: x + swap_op x.
Definition spd_lsys (h : bool) : lsys C 2 :=
  LSys spd_op (e0 C) (ex_M C h) (fun x => 2%:R *: x) (fun x => 3%:R *: x) IpNone None.

Let hip := valid_is_ip (B := @IpNone C 2) I.
Local Notation ip := (ip1 (@IpNone C 2)).

Lemma spd_lin : is_linear spd_op.
Proof.
by move=> a x y; rewrite /spd_op (@swap_lin C) !scalerDr !scalerA mulrC addrACA.
Qed.

Lemma spd_sa : self_adjoint (ip1 (@IpNone C 2)) spd_op.
Proof.
move=> x y; rewrite /spd_op (ipDl hip) (ipDr hip) (ipZl hip) (ipZr hip) conjC_nat.
by rewrite swap_sa.
Qed.

Lemma swap_swap x : swap_op (swap_op x) = x :> 'cV[C]_2.
Proof.
rewrite /swap_op mulmxA; suff -> : swap_mx C *m swap_mx C = 1%:M by rewrite mul1mx.
apply/matrixP => i j; rewrite !mxE big_ord_recl big_ord1 !mxE.
by case: i => -[|[|//]] hi; case: j => -[|[|//]] hj; rewrite !(mul0r, mulr0, mulr1, addr0, add0r).
Qed.

Lemma spd_pd : pos_def (ip1 (@IpNone C 2)) spd_op.
Proof.
move=> x nx.
have e : 2%:R * ip x (spd_op x) = 2%:R * ip x x + ip (x + swap_op x) (x + swap_op x).
  rewrite !(ipDl hip) !(ipDr hip) (ipZr hip).
  rewrite [ip (swap_op x) (swap_op x)]swap_sa swap_swap [ip (swap_op x) x]swap_sa.
  by ring.
have : 0 < 2%:R * ip x (spd_op x).
  by rewrite e ltr_paddr ?(ip_ge0' hip) // mulr_gt0 ?ltr0n // ip_pos.
by rewrite pmulr_rgt0 ?ltr0n.
Qed.

Lemma spd_ok h : lsys_ok (spd_lsys h).
Proof.
case: (ex_ok C h) => h1 h2 h3 h4 h5 h6 h7; split=> //=; exact: spd_lin.
Qed.

Lemma spd_lsa h : self_adjoint (ip1 (lB (spd_lsys h))) (lMlAMr (spd_lsys h)).
Proof.
move=> x y; rewrite /lMlAMr /= !(linZ spd_lin) !(ipZl hip) !(ipZr hip) !conjC_nat.
by rewrite spd_sa.
Qed.

Lemma spd_lpd h : pos_def (ip1 (lB (spd_lsys h))) (lMlAMr (spd_lsys h)).
Proof.
move=> x nx; rewrite /lMlAMr /= !(linZ spd_lin) !(ipZr hip).
by rewrite !mulr_gt0 ?ltr0n // spd_pd.
Qed.

Lemma spd_nz h : lMl (spd_lsys h) (lb (spd_lsys h)) <> 0.
Proof. by apply/eqP; rewrite scaler_eq0 negb_or e0_nz pnatr_eq0. Qed.

Example C21_C28_run h tol : 0 <= tol ->
  exists2 s, cg_solve (spd_lsys h) (Opts tol 2 false) false (Some (e1 C)) = Returns s &
    (cg_it (s_st s) <= 2)%N.
Proof.
move=> ht; have [||||s E [h3 _]] := @C28_cg_converges C 2 (spd_lsys h) (Opts tol 2 false) false
  (Some (e1 C)) (spd_ok h) (@spd_lsa h) (@spd_lpd h) => //; first exact: spd_nz.
by exists s.
Qed.

(** One step with store_arnoldi=True does not reach the solution. *)
Example C22_run h tol : 0 <= tol ->
  exists s, of_run (cg_solve (spd_lsys h) (Opts tol 1 false) true None) s.
Proof.
move=> ht; apply: C22_cg_returns => //=.
- exact: spd_ok.
- exact: spd_lsa.
- exact: spd_lpd.
- exact: spd_nz.
move=> z [c ->]; rewrite big_ord1 (lin0 spd_lin) subr0 add0r /=.
have [a ->] : exists a, 3%:R *: (c 0%N *: lMop (spd_lsys h) (2%:R *: e0 C)) = a *: e0 C.
  by rewrite /lMop /=; case: h => /=; rewrite !scalerA; eexists.
rewrite (linZ spd_lin) /spd_op swap_e0 => /eqP; rewrite scaler_eq0 pnatr_eq0 /= => /eqP/matrixP e.
have := e 0 0; have := e 1 0; rewrite !mxE /= !(mulr0, mulr1, addr0, add0r, sub0r).
by move=> /eqP; rewrite oppr_eq0 => /eqP ->; rewrite mul0r subr0 => /eqP; rewrite oner_eq0.
Qed.
End Example.

Print Assumptions C26_cg_no_guess.
Print Assumptions C26_cg_zero_rhs.
Print Assumptions C21_cg_optimal.
Print Assumptions C21_cg_optimal_plain.
Print Assumptions C21_cg_iterates.
Print Assumptions C21_cg_galerkin.
Print Assumptions C21_cg_last_norm.
Print Assumptions C28_cg_converges.
Print Assumptions C22_cg_returns.
Print Assumptions C22_exact_convergence_refuted.
Print Assumptions C22_cg_lanczos.
Print Assumptions C22_cg_tridiagonal.
