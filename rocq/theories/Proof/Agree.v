(** Uniqueness of what the solvers compute; the relation between the residual norms of CG
    and of the minimal residual methods. *)
From mathcomp Require Import all_ssreflect all_algebra.
From mathcomp Require Import ring.
From Verif Require Import Base Spec.LinAlg Model.Inner Spec.Inner Proof.Algebra Proof.Inner Proof.IpTheory.
From Verif Require Import Model.Arnoldi Spec.Arnoldi Proof.Arnoldi Proof.ArnoldiAll.
From Verif Require Import Model.Solver Spec.Solver Model.LinearSystem Model.Krylov Spec.Krylov Spec.Agree.
From Verif Require Import Proof.ArnoldiRel Proof.SolverInv Proof.Gmres Proof.LinearSystem Proof.CgTheory Proof.Cg Proof.Minres.
From Verif Require Properties.Solver Properties.Gmres Properties.Minres.

Set Implicit Arguments.
Unset Strict Implicit.
Unset Printing Implicit Defensive.
Import Order.TTheory GRing.Theory Num.Theory.
Local Open Scope ring_scope.

Section Peaks.
Variable C : numClosedFieldType.
Variable N : nat.
Local Notation vec := 'cV[C]_N.
Variables (ip : vec -> vec -> C) (A M : vec -> vec) (r0 : vec).
Hypothesis hip : is_ip ip.
Hypothesis hA : is_linear A.
Hypothesis hM : is_linear M.
Hypothesis hMsa : self_adjoint ip M.
Hypothesis hMpd : pos_def ip M.
Hypothesis hs : cg_spd ip A r0.
Local Notation mp := (mip ip M).
Local Notation cr := (cr ip A M r0).
Local Notation cy := (cy ip A M r0).
Local Notation cp := (cp ip A M r0).
Local Notation rho := (rho ip A M r0).
Local Notation kry := (krylov (fun x => M (A x)) (M r0)).
Let hmp : is_ip mp := ArnoldiRel.hmp hip hM hMsa hMpd.

Variable n : nat.
Hypothesis nz : forall j, (j <= n)%N -> cr j != 0.

Let S := \sum_(j < n.+1) (rho j)^-1.
Let w j := (rho j)^-1 / S.
Let zs := \sum_(j < n.+1) w j *: cy j.

Let rho_gt0 j : (j <= n)%N -> 0 < rho j.
Proof. by move=> /nz h; rewrite lt_def rho_ge0 // andbT rho_eq0. Qed.

Let S_gt0 : 0 < S.
Proof.
rewrite /S big_ord_recl ltr_paddr ?invr_gt0 ?rho_gt0 //.
by apply: sumr_ge0 => i _; rewrite invr_ge0 ltW // rho_gt0 //; exact: (ltn_ord i).
Qed.

Let w_sum : \sum_(j < n.+1) w j = 1.
Proof. by rewrite -mulr_suml divff // gt_eqF. Qed.

Let zs_res : r0 - A zs = \sum_(j < n.+1) w j *: cr j.
Proof.
rewrite /zs (lin_sum hA).
transitivity (\sum_(j < n.+1) (w j *: r0 - w j *: A (cy j))).
  rewrite sumrB -scaler_suml w_sum scale1r; congr (_ - _).
  by apply: eq_bigr => i _; rewrite (linZ hA).
by apply: eq_bigr => i _; rewrite -scalerBr (cr_res ip M r0 hA).
Qed.

Let zs_span : in_span kry n zs.
Proof.
apply: span_sum => i _; apply: spanZ.
by apply: (span_widen _ (cy_span ip r0 hA hM i)); rewrite -ltnS.
Qed.

Let nz' j : (j < n)%N -> cr j != 0.
Proof. by move=> h; apply: nz; apply: ltnW. Qed.

Let orth i j : (i <= n)%N -> (j <= n)%N -> i != j -> mp (cr i) (cr j) = 0.
Proof.
move=> hi hj; rewrite neq_ltn => /orP[] h.
  exact: (cg_orth hip hA hM hMsa hMpd hs nz' h hj).
by rewrite (ipC hmp) (cg_orth hip hA hM hMsa hMpd hs nz' h hi) conjC0.
Qed.

Let wr k : (k <= n)%N -> mp (cr k) (\sum_(j < n.+1) w j *: cr j) = S^-1.
Proof.
move=> hk; rewrite (ip_sumr hmp) (bigD1 (Ordinal (hk : (k < n.+1)%N))) //= big1 => [|i ni].
  by rewrite addr0 (ipZr hmp) -[mp _ _]/(rho k) mulrAC mulVf ?mul1r // gt_eqF // rho_gt0.
rewrite (ipZr hmp) orth ?mulr0 //; first by rewrite -ltnS.
by apply: contraNneq ni => e; apply/eqP/val_inj.
Qed.

Let S_conj : (S^-1)^* = S^-1.
Proof. by rewrite geC0_conj // invr_ge0 ltW. Qed.

(** The residual of zs has norm S^(-1/2), and no other in the Krylov space is smaller. *)
Lemma peak_norm : mp (r0 - A zs) (r0 - A zs) = S^-1.
Proof.
rewrite {1}zs_res (ip_suml hmp) zs_res.
transitivity (\sum_(j < n.+1) w j * S^-1); last by rewrite -mulr_suml w_sum mul1r.
apply: eq_bigr => i _; rewrite (ipZl hmp) wr; last by rewrite -ltnS.
by rewrite geC0_conj // divr_ge0 ?(ltW S_gt0) // invr_ge0 ltW // rho_gt0 // -ltnS.
Qed.

Lemma peak_min z : in_span kry n z -> mp (r0 - A zs) (r0 - A zs) <= mp (r0 - A z) (r0 - A z).
Proof.
move=> hz; have -> : r0 - A z = A (zs - z) + (r0 - A zs).
  by rewrite (linB hA) [RHS]addrC addrA subrK.
rewrite (@pythagoras _ _ _ hmp (A (zs - z))); last first.
  have hd : in_span kry n (zs - z) by apply: spanB.
  have := kry_sub hip hA hM hMsa hMpd hs nz' (leqnn n) hd; move=> /(span_map hA) h.
  apply: (span_orth hmp _ h) => j hj.
  rewrite (cg_A hip hA hM hMsa hMpd hs nz' hj) zs_res (ipZl hmp) (ipBl hmp) !wr //; last exact: ltnW.
  by rewrite subrr mulr0.
by rewrite ler_addr; apply: (ip_ge0' hmp).
Qed.

Lemma peaks z : in_span kry n z ->
  (forall z', in_span kry n z' -> mp (r0 - A z) (r0 - A z) <= mp (r0 - A z') (r0 - A z')) ->
  (mp (r0 - A z) (r0 - A z))^-1 = \sum_(j < n.+1) (rho j)^-1.
Proof.
move=> hz hm; have e : mp (r0 - A z) (r0 - A z) = S^-1.
  by rewrite -peak_norm; apply/eqP; rewrite eq_le hm ?peak_min.
by rewrite e invrK.
Qed.
End Peaks.

Section Uniq.
Variable C : numClosedFieldType.
Variable N : nat.
Local Notation vec := 'cV[C]_N.
Implicit Types (l : lsys C N).
Local Notation kr l x := (in_krylov (lMlAMr l) (lMop l) (resid l x)).

(** What a run of a minimal residual method satisfies. *)
Lemma mr_facts l x0 tol res xk : lsys_ok l -> lMl l (lb l) <> 0 -> mr_result l x0 tol res xk ->
  [/\ (0 < size res)%N,
      forall i, (i.+1 < size res)%N -> tol < nth 0 res i,
      forall i, (i < size res)%N -> exists2 z,
        minimizer (fun z => resid_norm l (x0_of x0 + lMr l z)) (kr l (x0_of x0) i) z &
        nth 0 res i = resid_norm l (x0_of x0 + lMr l z) / rhs_norm l
    & exists2 z, xk = Some (x0_of x0 + lMr l z) &
        minimizer (fun z => resid_norm l (x0_of x0 + lMr l z)) (kr l (x0_of x0) (size res).-1) z].
Proof.
move=> hl nb; case=> {tol res xk} snorm o ortho s ho => [|hsa] h.
  have [hz _] := Properties.Gmres.C19_gmres_last_norm hl ho nb h; rewrite hz /=; split=> //.
  - move=> i; rewrite ltnS => hi.
    have gm := gmres_good (kdata_lsys l (rhs_norm l)) (o_maxiter o) snorm ortho.
    move: h; rewrite /gmres_solve (bnorm_ok hl) /= => -[] E.
      by have [x [_ [hh _]]] := Properties.Solver.C24_accounting gm E; apply: (h_gt hh).
    have [x [_ [hh _]]] := Properties.Solver.C24_accounting_error gm E; apply: (h_gt hh).
    by have := h_size hh; rewrite hz => -[<-].
  - move=> i hi; have [|z [k1 k2 k3]] := Properties.Gmres.C19_gmres_residual_norms hl ho nb h (i := i).
      by rewrite hz.
    by exists z.
  - by have [z [k1 k2 k3]] := Properties.Gmres.C19_gmres_optimal hl ho nb h; exists z.
have [hz _] := Properties.Minres.C20_minres_last_norm hl ho hsa nb h; rewrite hz /=; split=> //.
- move=> i; rewrite ltnS => hi.
  have gm := minres_good (kdata_lsys l (rhs_norm l)) (o_maxiter o) snorm ortho.
  move: h; rewrite /minres_solve (bnorm_ok hl) /= => -[] E.
    by have [x [_ [hh _]]] := Properties.Solver.C24_accounting gm E; apply: (h_gt hh).
  have [x [_ [hh _]]] := Properties.Solver.C24_accounting_error gm E; apply: (h_gt hh).
  by have := h_size hh; rewrite hz => -[<-].
- move=> i hi; have [|z [k1 k2 k3]] := Properties.Minres.C20_minres_residual_norms hl ho hsa nb h (i := i).
    by rewrite hz.
  by exists z.
- by have [z [k1 k2 k3]] := Properties.Minres.C20_minres_optimal hl ho hsa nb h; exists z.
Qed.

(** What a run of CG satisfies. *)
Lemma cg_facts l x0 tol res xk : lsys_ok l -> lMl l (lb l) <> 0 -> cg_result l x0 tol res xk ->
  let r0 := resid l (x0_of x0) in let ip := ip1 (lB l) in
  let y := cy ip (lMlAMr l) (lMop l) r0 in
  [/\ (0 < size res)%N,
      forall i, (i.+1 < size res)%N -> tol < nth 0 res i,
      forall i, (i < size res)%N -> [/\ nth 0 res i = resid_norm l (x0_of x0 + lMr l (y i)) / rhs_norm l,
        kr l (x0_of x0) i (y i) & forall v, kr l (x0_of x0) i v -> ip v (resid l (x0_of x0 + lMr l (y i))) = 0]
    & [/\ xk = Some (x0_of x0 + lMr l (y (size res).-1)), self_adjoint ip (lMlAMr l), pos_def ip (lMlAMr l)
        & forall j, (j.+1 < size res)%N -> cr ip (lMlAMr l) (lMop l) r0 j != 0]].
Proof.
move=> hl nb; case=> {tol res xk} o store s hsa hpd h r0 ip y.
have hip : is_ip ip := valid_is_ip (lo_B hl).
have lin := lMlAMr_lin hl; have [[M1 M2] M3] := (lo_M hl, lo_Msa hl, lo_Mpd hl).
have hs : cg_spd ip (lMlAMr l) r0 by apply: (pos_def_spd _ hip lin).
have rE i : resid l (x0_of x0 + lMr l (y i)) = cr ip (lMlAMr l) (lMop l) r0 i.
  by rewrite resid_update // -(cr_res ip (lMop l) r0 lin).
have h' := h; move: h'; rewrite /cg_solve (bnorm_ok hl) /= => h'.
have nb' : y_bnorm (lsys_sys l (rhs_norm l)) != 0 by rewrite /= rhs_norm_eq0 //; apply/eqP.
have [h1 hz h3 [x' -> [ex]]] := Cg.cg_run (lsys_kd hl x0) hs nb' h'; rewrite hz /=; split=> //.
- move=> i; rewrite ltnS => hi.
  have gm := cg_good (kdata_lsys l (rhs_norm l)) store.
  case: h' => E.
    by have [x [_ [hh _]]] := Properties.Solver.C24_accounting gm E; apply: (h_gt hh).
  have [x [_ [hh _]]] := Properties.Solver.C24_accounting_error gm E; apply: (h_gt hh).
  by have := h_size hh; rewrite hz => -[<-].
- move=> i; rewrite ltnS => hi; split.
  + by rewrite h3 // /resid_norm rE.
  + exact: (cy_span ip r0 lin M1).
  + move=> v hv; rewrite rE; exact: (cg_galerkin hip lin M1 M2 M3 hs (ci_nz h1) hi hv).
- by split=> //; [rewrite ex|exact: (ci_nz h1)].
Qed.

(** The minimiser is unique if A is injective. *)
Lemma min_uniq l x n z z' : lsys_ok l -> injective_op (lMlAMr l) ->
  minimizer (fun z => resid_norm l (x + lMr l z)) (kr l x n) z ->
  minimizer (fun z => resid_norm l (x + lMr l z)) (kr l x n) z' -> z' = z.
Proof.
move=> hl inj [k1 k2] [k1' k2']; have lin := lMlAMr_lin hl; have hmp := lmip hl.
set mp := mip (ip1 (lB l)) (lMop l) in hmp.
pose h : C := 2%:R^-1; pose u := h *: (z + z'); pose d := h *: (z - z').
have h2 : h + h = 1 by rewrite -mulr2n -[h *+ 2]mulr_natl divff ?pnatr_eq0.
have ku : kr l x n u by apply: spanZ; apply: spanD.
have ez : z = u + d by rewrite -scalerDr addrACA subrr addr0 -[z + z]mulr2n -scaler_nat scalerA mulVf ?pnatr_eq0 // scale1r.
have ez' : z' = u - d by rewrite -scalerBr opprB [z + z']addrC addrACA subrr addr0 -[z' + z']mulr2n -scaler_nat scalerA mulVf ?pnatr_eq0 // scale1r.
pose F v := mp (resid l (x + lMr l v)) (resid l (x + lMr l v)).
have leF a b : resid_norm l (x + lMr l a) <= resid_norm l (x + lMr l b) -> F a <= F b.
  by rewrite ler_sqrtC // nnegrE; apply: (ip_ge0' hmp).
have Fz := leF _ _ (k2 _ ku); have Fz' := leF _ _ (k2' _ ku).
have par : F z + F z' = F u + F u + (mp (lMlAMr l d) (lMlAMr l d) + mp (lMlAMr l d) (lMlAMr l d)).
  rewrite /F !resid_update // {1 2}ez {1 2}ez' (linD lin) (linB lin) opprD opprB addrA [_ + (lMlAMr l d - _)]addrCA.
  rewrite [lMlAMr l d + _]addrC.
  by rewrite !(ipDl hmp) !(ipDr hmp) !(ipNl hmp) !(ipNr hmp); ring.
have : F z + F z' <= F u + F u by apply: ler_add.
rewrite par ger_addl -mulr2n pmulrn_lle0 // => h0.
have : mp (lMlAMr l d) (lMlAMr l d) == 0 by rewrite eq_le h0 (ip_ge0' hmp).
rewrite (ip_eq0 hmp) => /eqP/inj d0.
by rewrite ez ez' d0 subr0 addr0.
Qed.

(** Galerkin approximations are unique if A is positive definite. *)
Lemma gal_uniq l x n z z' : lsys_ok l -> pos_def (ip1 (lB l)) (lMlAMr l) ->
  kr l x n z -> kr l x n z' ->
  (forall v, kr l x n v -> ip1 (lB l) v (resid l (x + lMr l z)) = 0) ->
  (forall v, kr l x n v -> ip1 (lB l) v (resid l (x + lMr l z')) = 0) -> z' = z.
Proof.
move=> hl pd k k' g g'; have lin := lMlAMr_lin hl; have hip := valid_is_ip (lo_B hl).
have kd : kr l x n (z' - z) by apply: spanB.
have e : ip1 (lB l) (z' - z) (lMlAMr l (z' - z)) = 0.
  have -> : lMlAMr l (z' - z) = resid l (x + lMr l z) - resid l (x + lMr l z').
    by rewrite !resid_update // (linB lin) [RHS]addrC opprB addrA subrK.
  by rewrite (ipBr hip) g // g' // subr0.
by apply/eqP; rewrite -subr_eq0; apply: contraT => /pd; rewrite e ltxx.
Qed.

(** Related systems: the Krylov spaces agree, and t z in the second system has c times
    the residual norm that z has in the first. *)
Record related (l l' : lsys C N) (x x' : vec) (c t h : C) : Prop := Related {
  r_c : 0 < c; r_t : t != 0; r_h : h != 0;
  r_K : forall i z, kr l' x' i z <-> kr l x i z;
  r_r : forall z, resid_norm l' (x' + lMr l' (t *: z)) = c * resid_norm l (x + lMr l z);
  r_g : forall v z, ip1 (lB l') v (resid l' (x' + lMr l' (t *: z))) = h * ip1 (lB l) v (resid l (x + lMr l z)) }.

Section Rel.
Variables (l l' : lsys C N) (x0 x0' : option vec) (c t h : C).
Hypothesis hl : lsys_ok l.
Hypothesis hl' : lsys_ok l'.
Hypothesis hr : related l l' (x0_of x0) (x0_of x0') c t h.
Hypothesis nb : lMl l (lb l) <> 0.
Hypothesis nb' : lMl l' (lb l') <> 0.
Local Notation x := (x0_of x0).
Local Notation x' := (x0_of x0').

Let tK (z' : vec) : t *: (t^-1 *: z') = z'.
Proof. by rewrite scalerA divff ?(r_t hr) // scale1r. Qed.

Lemma rel_min n z z' :
  minimizer (fun z => resid_norm l (x + lMr l z)) (kr l x n) z ->
  minimizer (fun z => resid_norm l' (x' + lMr l' z)) (kr l' x' n) z' ->
  resid_norm l' (x' + lMr l' z') = c * resid_norm l (x + lMr l z) /\
  (injective_op (lMlAMr l) -> z' = t *: z).
Proof.
move=> hz [k1 k2]; have [j1 j2] := hz.
have K1 : kr l' x' n (t *: z) by apply/(r_K hr); apply: spanZ.
have K2 : kr l x n (t^-1 *: z') by apply: spanZ; apply/(r_K hr).
have e1 := r_r hr (t^-1 *: z'); rewrite tK in e1.
split=> [|inj].
  apply/eqP; rewrite eq_le -{1}(r_r hr) k2 //= e1 ler_pmul2l ?(r_c hr) //.
  exact: j2.
rewrite -[z']tK; congr (_ *: _); apply: (min_uniq (x := x) (n := n) hl inj hz); split=> // v hv.
have := k2 (t *: v); rewrite (r_r hr) e1 ler_pmul2l ?(r_c hr) //; apply.
by apply/(r_K hr); apply: spanZ.
Qed.

Lemma mr_rel tol res xk tol' res' xk' : mr_result l x0 tol res xk -> mr_result l' x0' tol' res' xk' ->
  (forall i, (i < size res)%N -> (i < size res')%N ->
     nth 0 res' i * rhs_norm l' = c * (nth 0 res i * rhs_norm l)) /\
  (size res = size res' -> injective_op (lMlAMr l) ->
     exists z, xk = Some (x + lMr l z) /\ xk' = Some (x' + lMr l' (t *: z))).
Proof.
move=> /(mr_facts hl nb)[_ _ h1 h2] /(mr_facts hl' nb')[_ _ h1' h2'].
have bn : rhs_norm l != 0 by rewrite rhs_norm_eq0 //; apply/eqP.
have bn' : rhs_norm l' != 0 by rewrite rhs_norm_eq0 //; apply/eqP.
split=> [i i1 i2|e inj].
  have [z m1 ->] := h1 i i1; have [z' m2 ->] := h1' i i2.
  by have [-> _] := rel_min m1 m2; rewrite !mulfVK.
have [z -> m1] := h2; have [z' -> m2] := h2'; rewrite -e in m2.
by have [_ /(_ inj) ->] := rel_min m1 m2; exists z.
Qed.

Lemma cg_rel tol res xk tol' res' xk' : cg_result l x0 tol res xk -> cg_result l' x0' tol' res' xk' ->
  (forall i, (i < size res)%N -> (i < size res')%N ->
     nth 0 res' i * rhs_norm l' = c * (nth 0 res i * rhs_norm l)) /\
  (size res = size res' ->
     exists z, xk = Some (x + lMr l z) /\ xk' = Some (x' + lMr l' (t *: z))).
Proof.
move=> /(cg_facts hl nb)[s0 _ h1 [h2 _ pd _]] /(cg_facts hl' nb')[_ _ h1' [h2' _ _ _]].
have bn : rhs_norm l != 0 by rewrite rhs_norm_eq0 //; apply/eqP.
have bn' : rhs_norm l' != 0 by rewrite rhs_norm_eq0 //; apply/eqP.
set y := cy _ _ _ _ in h1 h2; set y' := cy _ _ _ _ in h1' h2'.
have yE i : (i < size res)%N -> (i < size res')%N -> y' i = t *: y i.
  move=> i1 i2; have [_ k1 k2] := h1 i i1; have [_ k1' k2'] := h1' i i2.
  rewrite -[y' i]tK; congr (_ *: _); apply: (gal_uniq hl pd k1) => //.
    by apply: spanZ; apply/(r_K hr).
  move=> v hv; have := k2' v; rewrite -[y' i]tK (r_g hr) => hg.
  by have /eqP := hg (proj2 (r_K hr _ _) hv); rewrite mulf_eq0 (negbTE (r_h hr)) => /eqP <-; rewrite tK.
split=> [i i1 i2|e].
  have [-> _ _] := h1 i i1; have [-> _ _] := h1' i i2.
  by rewrite yE // (r_r hr) !mulfVK.
exists (y (size res).-1); split=> //; rewrite h2' -e yE //; first by rewrite prednK.
by rewrite -e prednK.
Qed.

Lemma agreeP tol res tol' res' : c * rhs_norm l = rhs_norm l' ->
  (0 < size res)%N -> (0 < size res')%N ->
  (forall i, (i.+1 < size res)%N -> tol < nth 0 res i) ->
  (forall i, (i.+1 < size res')%N -> tol' < nth 0 res' i) ->
  (forall i, (i < size res)%N -> (i < size res')%N ->
     nth 0 res' i * rhs_norm l' = c * (nth 0 res i * rhs_norm l)) -> agree tol res tol' res'.
Proof.
move=> ec s0 s0' g g' hn.
have bn' : rhs_norm l' != 0 by rewrite rhs_norm_eq0 //; apply/eqP.
have {}hn i : (i < size res)%N -> (i < size res')%N -> nth 0 res' i = nth 0 res i.
  by move=> i1 i2; apply: (mulIf bn'); rewrite hn // -ec mulrCA.
split=> // et l1 l2; have lE (s : seq C) : last 0 s = nth 0 s (size s).-1 by rewrite nth_last.
have es : size res' = size res.
  apply/eqP; rewrite eqn_leq; apply/andP; split; rewrite leqNgt; apply/negP => hlt.
    have := g' (size res).-1; rewrite prednK // => /(_ hlt).
    rewrite hn ?prednK //; last exact: ltnW.
    by rewrite -lE -et => /lt_le_trans/(_ l1); rewrite ltxx.
  have := g (size res').-1; rewrite prednK // => /(_ hlt).
  rewrite -hn ?prednK //; last exact: ltnW.
  by rewrite -lE => /lt_le_trans/(_ l2); rewrite ltxx.
by apply: (@eq_from_nth _ 0) => // i hi; apply: hn => //; rewrite -es.
Qed.

Lemma mr_agree tol res xk tol' res' xk' : c * rhs_norm l = rhs_norm l' ->
  mr_result l x0 tol res xk -> mr_result l' x0' tol' res' xk' -> agree tol res tol' res'.
Proof.
move=> ec h1 h2; have [hn _] := mr_rel h1 h2.
have [a1 a2 _ _] := mr_facts hl nb h1; have [b1 b2 _ _] := mr_facts hl' nb' h2.
exact: agreeP.
Qed.

Lemma cg_agree tol res xk tol' res' xk' : c * rhs_norm l = rhs_norm l' ->
  cg_result l x0 tol res xk -> cg_result l' x0' tol' res' xk' -> agree tol res tol' res'.
Proof.
move=> ec h1 h2; have [hn _] := cg_rel h1 h2.
have [a1 a2 _ _] := cg_facts hl nb h1; have [b1 b2 _ _] := cg_facts hl' nb' h2.
exact: agreeP.
Qed.
End Rel.

Lemma span_scaled (v w : nat -> vec) (s : nat -> C) k z : (forall j, s j != 0) ->
  (forall j, v j = s j *: w j) -> in_span v k z <-> in_span w k z.
Proof.
move=> s0 e; split=> h; apply: (span_trans h) => i hi.
  by rewrite e; apply: spanZ; apply: span_mem.
have -> : w i = (s i)^-1 *: v i by rewrite e scalerA mulVf ?scale1r.
by apply: spanZ; apply: span_mem.
Qed.

Lemma rel_refl l x : related l l x x 1 1 1.
Proof. by split=> *; rewrite ?ltr01 ?oner_eq0 // scale1r mul1r. Qed.

Lemma rel_scaled a be m p q g l l' x x' : lsys_ok l -> scaled a be m p q g l l' -> x' = (be / a) *: x ->
  related l l' x x' (`|p * be| * sqrtC (m * g)) (be / (a * q)) (g * (p * be)) /\
  `|p * be| * sqrtC (m * g) * rhs_norm l = rhs_norm l'.
Proof.
move=> hl [a0 b0 m0 p0 q0 g0 eA eb eM eMl eMr eip] ex.
have [lA' [lMl' lMr']] := (lo_A hl, (lo_Ml hl, lo_Mr hl)); have lM' := lo_M hl.
have hip := valid_is_ip (lo_B hl); have hmp := lmip hl.
have mg : 0 < m * g by rewrite mulr_gt0.
have nE u : mnorm (ip1 (lB l')) (lMop l') ((p * be) *: u) = `|p * be| * sqrtC (m * g) * mnorm (ip1 (lB l)) (lMop l) u.
  rewrite /mnorm eM eip (linZ lM') (ipZl hip) !(ipZr hip).
  have -> : g * ((p * be)^* * (m * (p * be * ip1 (lB l) u (lMop l u)))) =
            (`|p * be| ^+ 2 * (m * g)) * ip1 (lB l) u (lMop l u) by rewrite normCK; ring.
  rewrite [LHS]sqrtCM ?nnegrE; [|by rewrite mulr_ge0 ?exprn_ge0 ?(ltW mg)|exact: (ip_ge0' hmp)].
  rewrite [X in X * _ = _]sqrtCM ?nnegrE ?exprn_ge0 ?(ltW mg) //.
  by rewrite sqrCK.
have rE z : resid l' (x' + lMr l' ((be / (a * q)) *: z)) = (p * be) *: resid l (x + lMr l z).
  rewrite /resid eMl eMr (linZ lMr') !scalerA eA eb ex.
  have -> : q * (be / (a * q)) = be / a by field; apply/andP.
  rewrite -scalerDr (linZ lA') !scalerA.
  have -> : a * (be / a) = be by field.
  by rewrite -scalerBr (linZ lMl') scalerA.
split; last by rewrite -nE /rhs_norm eMl eb (linZ lMl') scalerA.
split.
- by rewrite mulr_gt0 ?normr_gt0 ?mulf_neq0 // sqrtC_gt0.
- by rewrite mulf_neq0 ?invr_eq0 ?mulf_neq0.
- by rewrite !mulf_neq0 // gt_eqF.
- move=> i z; apply: (span_scaled (s := fun j => (m * (p * (a * q))) ^+ j * (m * (p * be)))).
    by move=> j; rewrite !mulf_neq0 ?expf_neq0 ?mulf_neq0 // gt_eqF.
  have r0E : resid l' x' = (p * be) *: resid l x.
    have := rE 0; rewrite !scaler0 (lin0 lMr') eMr (lin0 lMr') scaler0 !addr0.
    exact.
  elim=> [|j IH]; first by rewrite /= r0E eM (linZ lM') expr0 mul1r scalerA.
  rewrite /krylov /= -/(krylov _ _ j) IH /lMlAMr eM eMl eA eMr.
  rewrite (linZ lMr') !(linZ lA') !scalerA !(linZ lMl') !scalerA !(linZ lM') !scalerA.
  by congr (_ *: _); rewrite exprS; ring.
- by move=> z; rewrite /resid_norm rE nE.
- by move=> v z; rewrite rE eip (ipZr hip) mulrA.
Qed.

Lemma rel_left l l' x : lsys_ok l -> left_precon l l' ->
  related l l' x x 1 1 1 /\ 1 * rhs_norm l = rhs_norm l'.
Proof.
move=> hl [eA eb eM eMl eMr eip].
have hip := valid_is_ip (lo_B hl).
have nE u : mnorm (ip1 (lB l')) (lMop l') (lMop l u) = mnorm (ip1 (lB l)) (lMop l) u.
  by rewrite /mnorm eM eip (lo_Msa hl).
have rE z : resid l' z = lMop l (resid l z) by rewrite /resid eMl eA eb.
split; last by rewrite mul1r /rhs_norm eMl eb nE.
split.
- exact: ltr01.
- exact: oner_neq0.
- exact: oner_neq0.
- move=> i z; apply: (span_scaled (s := fun=> 1)) => [j|]; first exact: oner_neq0.
  elim=> [|j IH]; first by rewrite /= scale1r eM rE.
  by rewrite /krylov /= -/(krylov _ _ j) IH !scale1r /lMlAMr eM eMl eA eMr.
- by move=> z; rewrite scale1r mul1r /resid_norm rE nE eMr.
- by move=> v z; rewrite scale1r mul1r rE eip eMr.
Qed.

Lemma rel_reduced l l' x : lsys_ok l -> reduced l x l' -> related l l' x 0 1 1 1.
Proof.
move=> hl [eA eb eM eMl eMr eip].
have rE z : resid l' (0 + lMr l' z) = resid l (x + lMr l z).
  by rewrite (resid_update hl) /resid eMl eb eA eMr add0r.
have r0E : resid l' 0 = resid l x.
  by have := rE 0; rewrite eMr (lin0 (lo_Mr hl)) !addr0.
split.
- exact: ltr01.
- exact: oner_neq0.
- exact: oner_neq0.
- move=> i z; apply: (span_scaled (s := fun=> 1)) => [j|]; first exact: oner_neq0.
  elim=> [|j IH]; first by rewrite /= scale1r eM r0E.
  by rewrite /krylov /= -/(krylov _ _ j) IH !scale1r /lMlAMr eM eMl eA eMr.
- by move=> z; rewrite scale1r mul1r /resid_norm rE /mnorm eM eip.
- by move=> v z; rewrite scale1r mul1r rE eip.
Qed.
End Uniq.
