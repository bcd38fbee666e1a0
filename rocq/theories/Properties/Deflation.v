(** C11, C29, C30, C43: ObliqueProjection and the deflated solvers. *)
From mathcomp Require Import all_ssreflect all_algebra ring.
From Verif Require Import Base Spec.LinAlg Model.Inner Spec.Inner Proof.Algebra Proof.Inner Proof.IpTheory.
From Verif Require Import Model.Arnoldi Spec.Arnoldi Proof.Arnoldi Proof.ArnoldiAll Proof.ArnoldiExample.
From Verif Require Import Model.Solver Spec.Solver Model.LinearSystem Model.Krylov Spec.Krylov.
From Verif Require Import Proof.ArnoldiRel Proof.SolverInv Proof.Gmres Proof.Minres Proof.CgTheory Proof.Cg Proof.LinearSystem.
From Verif Require Import Model.Projection Spec.Projection Proof.Qr Proof.QrExist Proof.Projection Model.Deflation Spec.Deflation Proof.Ext Proof.Logged Proof.Deflation.
From Verif Require Properties.Solver Properties.Gmres Properties.Cg Properties.Projection.

Set Implicit Arguments.
Unset Strict Implicit.
Unset Printing Implicit Defensive.
Import Order.TTheory GRing.Theory Num.Theory.
Local Open Scope ring_scope.

Local Arguments norm : simpl never.

(** C43.  get_ip_Minv_B. *)
Section Minv.
Variable C : numClosedFieldType.
Variable N : nat.
Local Notation vec := 'cV[C]_N.
Implicit Types (l : lsys C N).

Theorem C43_no_preconditioner l Minv : lM l = None -> get_ip_Minv_B l Minv = Ok (lB l).
Proof. by rewrite /get_ip_Minv_B => ->. Qed.

Theorem C43_Minv_missing l M : lM l = Some M -> get_ip_Minv_B l None = Err ArgumentError.
Proof. by rewrite /get_ip_Minv_B => ->. Qed.

Lemma eq_is_ip (f g : vec -> vec -> C) : (forall x y, g x y = f x y) -> is_ip f -> is_ip g.
Proof. by move=> e [h1 h2 h3]; split=> *; rewrite !e; [apply: h1|apply: h2|apply: h3]. Qed.

Lemma op_valid (B : 'M[C]_N) : is_ip (ip1 (IpOp B)) -> valid_ip (IpOp B).
Proof.
move=> h; have e x y : ip1 (IpOp B) x y = (x^h *m B *m y) 0 0 by rewrite -mulmxA.
have eb i j : B i j = ip1 (IpOp B) (delta_mx i 0) (delta_mx j 0).
  rewrite e -colE mxE mxE (bigD1 i) //= big1 ?addr0; first by rewrite ctrE mxE !eqxx conjC1 mul1r.
  by move=> r ne; rewrite ctrE mxE (negbTE ne) conjC0 mul0r.
split; last by move=> x nx; rewrite -e; apply: ip_pos.
by apply/matrixP => i j; rewrite ctrE !eb -ip_conj.
Qed.

(** Without ip_B, with a callable ip_B, and with an operator ip_B that commutes with
    Minv, the result is the inner product <Minv x, y> = <x, Minv y>. *)
Theorem C43_Minv_inner_product l (M Mi : vec -> vec) : lsys_ok l -> lM l = Some M ->
  cancel M Mi -> cancel Mi M ->
  (forall B, lB l = IpOp B -> forall x, Mi (B *m x) = B *m Mi x) ->
  exists2 B, get_ip_Minv_B l (Some Mi) = Ok B &
    valid_ip B /\ forall x y, ip1 B x y = ip1 (lB l) (Mi x) y /\ ip1 B x y = ip1 (lB l) x (Mi y).
Proof.
move=> hl eM h1 h2 hc; have hip := valid_is_ip (lo_B hl).
have linM : is_linear M by have := lo_M hl; rewrite /lMop eM.
have saM : self_adjoint (ip1 (lB l)) M by have := lo_Msa hl; rewrite /lMop eM.
have pdM : pos_def (ip1 (lB l)) M by have := lo_Mpd hl; rewrite /lMop eM.
have lin : is_linear Mi by move=> a x y; apply: (can_inj h1); rewrite linM !h2.
have sa : self_adjoint (ip1 (lB l)) Mi by move=> x y; rewrite -{1}[y]h2 -saM !h2.
have pd : pos_def (ip1 (lB l)) Mi.
  move=> x nx; rewrite -{1}[x]h2 saM; apply: pdM; apply: contra nx => /eqP e.
  by rewrite -[x]h2 e (lin0 linM).
have pip : is_ip (mip (ip1 (lB l)) Mi) by apply: mip_is_ip.
rewrite /get_ip_Minv_B eM; eexists; first by [].
have key B : (forall x y, ip1 B x y = ip1 (lB l) x (Mi y)) ->
    forall x y, ip1 B x y = ip1 (lB l) (Mi x) y /\ ip1 B x y = ip1 (lB l) x (Mi y).
  by move=> h x y; rewrite h sa.
case EB: (lB l) pip sa hc key => [|B|f] pip sa hc key.
- have e x y : ip1 (IpOp (opmx Mi)) x y = ip1 IpNone x (Mi y) by rewrite /ip1 /= (opmxE lin).
  by split; [apply: op_valid; apply: eq_is_ip pip => x y; rewrite e|apply: key].
- have e x y : ip1 (IpOp (opmx Mi *m B)) x y = ip1 (IpOp B) x (Mi y).
    by rewrite /ip1 /= -mulmxA (opmxE lin) hc.
  by split; [apply: op_valid; apply: eq_is_ip pip => x y; rewrite e|apply: key].
have e x y : ip1 (IpCall (fun m n X Y => f m n X (mapcols Mi Y))) x y = ip1 (IpCall f) x (Mi y).
  by rewrite /ip1 /= (mapcolsE lin) (opmxE lin).
split; last exact: key; split; first by apply: eq_is_ip pip => x y; apply: e.
have := lo_B hl; rewrite EB => -[_ hf] m n X Y; rewrite hf; apply/matrixP => i j.
by rewrite !mxE !(mapcolsE lin) (opmxE lin) !colE -mulmxA -!colE (opmxE lin).
Qed.
End Minv.

(** C43 is false when ip_B is an operator that does not commute with Minv: the operator
    Minv * ip_B is returned instead of ip_B * Minv.  With ip_B = diag(1,2) and
    Minv = [[2,-1],[-1,2]] * ip_B the result is not an inner product. *)
Section MinvRefuted.
Variable C : numClosedFieldType.
Let D : 'M[C]_2 := diag_mx (\row_(i < 2) (i.+1)%:R).
Local Notation spd := (Properties.Cg.spd_op (C := C)).
Let tsd (x : 'cV[C]_2) : 'cV[C]_2 := 2%:R *: x - swap_op x.
Let Mi (x : 'cV[C]_2) : 'cV[C]_2 := tsd (D *m x).
Let M (x : 'cV[C]_2) : 'cV[C]_2 := invmx D *m (3%:R^-1 *: spd x).
Definition nc_lsys : lsys C 2 := LSys (@swap_op C) (e0 C) (Some M) id id (IpOp D) None.

Let uD : D \in unitmx.
Proof.
by rewrite unitmxE det_diag big_ord_recl big_ord1 !mxE /= mul1r unitfE pnatr_eq0.
Qed.

Let spd_tsd x : spd (tsd x) = 3%:R *: x.
Proof.
rewrite /Properties.Cg.spd_op /tsd (linB (@swap_lin C)) (linZ (@swap_lin C)) Properties.Cg.swap_swap.
by move: (swap_op x) => y; apply/matrixP => i j; rewrite !mxE; move: (x i j) (y i j) => u v; ring.
Qed.

Let tsd_spd x : tsd (spd x) = 3%:R *: x.
Proof.
rewrite /Properties.Cg.spd_op /tsd (linD (@swap_lin C)) (linZ (@swap_lin C)) Properties.Cg.swap_swap.
by move: (swap_op x) => y; apply/matrixP => i j; rewrite !mxE; move: (x i j) (y i j) => u v; ring.
Qed.

Let n3 : 3%:R != 0 :> C. Proof. by rewrite pnatr_eq0. Qed.

Let tsd_lin : is_linear tsd.
Proof.
move=> a x y; rewrite /tsd (@swap_lin C); move: (swap_op x) (swap_op y) => u v.
by apply/matrixP => i j; rewrite !mxE; move: (x i j) (y i j) (u i j) (v i j) => a1 a2 a3 a4; ring.
Qed.

Let ipM x y : ip1 (IpOp D) x (M y) = 3%:R^-1 * ip1 IpNone x (spd y).
Proof. by rewrite /ip1 /= mulKVmx // -scalemxAr mxE. Qed.

Lemma nc_ok : lsys_ok nc_lsys.
Proof.
have hD := diag12_valid C; have hip := valid_is_ip hD.
split=> //=; first exact: swap_lin.
- move=> a x y; rewrite /lMop /= /M Properties.Cg.spd_lin scalerDr mulmxDr !scalerA mulrC.
  by rewrite -!scalemxAr scalerA.
- move=> x y; rewrite /lMop /= (ip_conj hip) !ipM rmorphM fmorphV rmorph_nat.
  by rewrite -(ip_conj (valid_is_ip (B := @IpNone C 2) I)) Properties.Cg.spd_sa.
- move=> x nx; rewrite /lMop /= ipM mulr_gt0 ?invr_gt0 ?ltr0n //.
  exact: Properties.Cg.spd_pd.
Qed.

Theorem C43_noncommuting_refuted : exists (l : lsys C 2) (M Mi : 'cV[C]_2 -> 'cV[C]_2) B,
  [/\ lsys_ok l, lM l = Some M, cancel M Mi /\ cancel Mi M, get_ip_Minv_B l (Some Mi) = Ok B
    & ~ is_ip (ip1 B)].
Proof.
exists nc_lsys, M, Mi, (IpOp (opmx Mi *m D)); split=> //; first exact: nc_ok.
  split=> x; rewrite /M /Mi; last by rewrite spd_tsd scalerA mulVf // scale1r mulKmx.
  by rewrite mulKVmx // (linZ tsd_lin) tsd_spd scalerA mulVf // scale1r.
have lin : is_linear Mi by move=> a x y; rewrite /Mi mulmxDr -scalemxAr tsd_lin.
have D0 : D *m e0 C = e0 C.
  by apply/matrixP => i j; rewrite mul_diag_mx !mxE; case: i => -[|[|//]] hi; rewrite ?mulr0 ?mul1r.
have D1 : D *m e1 C = 2%:R *: e1 C.
  by apply/matrixP => i j; rewrite mul_diag_mx !mxE; case: i => -[|[|//]] hi; rewrite ?mulr0 ?mul1r.
have M0 : Mi (D *m e0 C) = 2%:R *: e0 C - e1 C by rewrite /Mi !D0 /tsd swap_e0.
have M1 : Mi (D *m e1 C) = 8%:R *: e1 C - 4%:R *: e0 C.
  rewrite /Mi D1 -scalemxAr D1 /tsd !(linZ (@swap_lin C)) swap_e1 !scalerA -!natrM.
  by [].
case=> _ h _; have := h (e0 C) (e1 C).
have e z x y : ip1 (IpOp (opmx Mi *m D)) (\col_i (i == z)%:R) x = Mi (D *m x) z y.
  rewrite /ip1 /= -mulmxA (opmxE lin) mxE (bigD1 z) //= big1 ?addr0.
    by rewrite tconjE ctrE mxE eqxx conjC1 mul1r (ord1 y).
  by move=> r ne; rewrite tconjE ctrE mxE (negbTE ne) conjC0 mul0r.
rewrite (e _ _ 0) (e _ _ 0) M0 M1 !mxE /= !mulr0 !mulr1 sub0r add0r rmorphN rmorph_nat => /eqP.
by rewrite eqr_opp -[1]/1%:R eqr_nat.
Qed.
End MinvRefuted.

(** Reading guide.  [U] is the argument U, [P a] = a - AU <U,AU>^-1 <U,a> with
    AU = Ml A Mr U; [defl_args]: <U, AU> is nonsingular, get_ip_Minv_B yields an inner
    product, iterations >= 1 and, if orthogonalize is set, columns separated by 1e-15.
    [sqr] stands for scipy.linalg.qr. *)
Section Deflated.
Variable C : numClosedFieldType.
Variable sqr : forall n k, 'M[C]_(n, k) -> 'M[C]_(n, k) * 'M[C]_k.
Hypothesis hsqr : qr_spec sqr.
Variable N k : nat.
Local Notation vec := 'cV[C]_N.
Variable l : lsys C N.
Hypothesis hl : lsys_ok l.
Variables (Minv : option (vec -> vec)) (same : bool) (U : 'M[C]_(N, k)) (kw : pkwargs).
Hypothesis ha : defl_args sqr l Minv same U kw.
Local Notation A := (lMlAMr l).
Local Notation ip := (inner (lB l)).
Local Notation ip_ := (ip1 (lB l)).
Local Notation P := (defl_P (lB l) A U).

(** C11.  ObliqueProjection can be constructed; correct(z) adds U c with
    <U, Ml A Mr U> c = <U, Ml (b - A z)>, whatever Mr is. *)
Theorem C11_correct : exists2 ob, mk_oblique sqr l Minv same U kw = Ok ob &
  forall z, exists c, o_correct l ob z = Ok (z + U *m c) /\
    ip U (imcols A U) *m c = ip U (lMl l (lb l - lA l z)).
Proof.
have [ob hob] := oblique_total hsqr hl ha; exists ob => // z.
have [eA [F uF eU] _] := oblE ha hob.
have e := o_correctE hsqr hl ha hob z; rewrite -/(resid l z).
set c := invmx _ *m _ in e; exists (invmx F *m c); split; first by rewrite {1}eU -mulmxA mulKVmx.
have hB := lo_B hl.
have e1 : imcols A U = o_AU ob *m F by rewrite eU (imcolsM (lMlAMr_lin hl)) eA.
rewrite e1 innerMr // -mulmxA mulKVmx // eU !innerMl // -mulmxA /c mulKVmx //.
exact: (E_unit hl ha hob).
Qed.

(** If Mr leaves the columns of U unchanged, the residual of correct(z) is the projected
    residual of z, and orthogonal to U. *)
Hypothesis hMr : forall c, lMr l (U *m c) = U *m c.

Theorem C11_residual ob z x : mk_oblique sqr l Minv same U kw = Ok ob -> o_correct l ob z = Ok x ->
  lMl l (lb l - lA l x) = P (lMl l (lb l - lA l z)) /\ ip U (lMl l (lb l - lA l x)) = 0.
Proof.
move=> hob e; have r := resid_correct hsqr hl ha hob hMr e.
split; first by rewrite -/(resid l x) r (PdE hl ha hob).
by apply/(orth_U hl ha hob); rewrite -/(resid l x) r (UPd hl ha hob).
Qed.

Section Run.
Variables (snorm : nat -> nat -> (nat -> nat -> C) -> C).
Variables (o : opts C) (ortho : ortho_t) (x0 : option vec).
Local Notation x := (x0_of x0).
(** The Krylov space K_n(M P Ml A Mr, M P r0). *)
Local Notation K := (in_krylov (fun v => P (A v)) (lMop l) (P (resid l x))).

Let bn : lMl l (lb l) <> 0 -> y_bnorm (lsys_sys l (rhs_norm l)) != 0.
Proof. by move=> /eqP nb; rewrite /= rhs_norm_eq0. Qed.

Let bn' : lMl l (lb l) <> 0 -> 0 < y_bnorm (lsys_sys l (rhs_norm l)).
Proof.
move=> /bn h; rewrite lt_def h /= sqrtC_ge0.
exact: (ip_ge0' (lmip hl)).
Qed.

Let he en (y : vec) : y_errnorm (lsys_sys l (rhs_norm l)) = Some en -> exists e, en y = Ok e.
Proof.
rewrite /=; case: (lexact l) => // e [<-].
by rewrite norm_ip; [eexists|exact: lo_B hl].
Qed.

Let N0 : lMl l (lb l) <> 0 -> (0 < N)%N.
Proof.
move=> nb; case: (posnP N) => // e; exfalso; apply: nb; apply/matrixP => i.
by case: i => i hi; exfalso; rewrite e in hi.
Qed.

Let Kinj ob : mk_oblique sqr l Minv same U kw = Ok ob -> injective_op A ->
  krylov_inj (k_A (d_kdata l ob)) (k_Mop (d_kdata l ob)) (Pd l ob (resid l x)).
Proof.
move=> hob inj n z; rewrite (KPE hsqr hl ha hob x0) => hz /=; rewrite (d_opE hsqr hl ha hob).
apply: (dop_inj hl ha hob (a := resid l x) inj (n := n)); move: hz; rewrite -(PdE hl ha hob).
by apply: krylov_eq => v; rewrite /dop (PdE hl ha hob).
Qed.

(** C29.  The approximation is x0 + Mr z + U c with z in K_n; its residual is orthogonal
    to U and minimal among those of all such approximations with a residual orthogonal
    to U; the recorded norms are the norms of such minimal residuals. *)
Definition defl_optimal (n : nat) (xk : vec) : Prop :=
  ip U (resid l xk) = 0 /\ exists z c,
  [/\ xk = x + lMr l z + U *m c, K n z
    & forall z' c', K n z' -> ip U (resid l (x + lMr l z' + U *m c')) = 0 ->
        resid_norm l xk <= resid_norm l (x + lMr l z' + U *m c')].

Let optE n r xk : defl_min l U x0 n r xk -> defl_optimal n xk /\ r = resid_norm l xk.
Proof. by move=> [z [c [h1 h2 h3 h4 h5]]]; do !split=> //; exists z, c. Qed.

Let res_opt ob n r : mk_oblique sqr l Minv same U kw = Ok ob ->
  min_res (d_kdata l ob) (Pd l ob (resid l x)) n r ->
  exists2 xi, defl_optimal n xi & r = resid_norm l xi.
Proof.
move=> hob [z hz ->]; have [xk _ /optE[h1 h2]] := defl_minimizer hsqr hl ha hob hMr hz.
by exists xk.
Qed.

Lemma opt_norm n y y' : defl_optimal n y -> defl_optimal n y' -> resid_norm l y = resid_norm l y'.
Proof.
move=> [h1 [z [c [e1 k1 m1]]]] [h2 [z' [c' [e2 k2 m2]]]]; apply/eqP; rewrite eq_le.
have := m1 z' c' k2; have := m2 z c k1; rewrite -e1 -e2 => w2 w1.
by rewrite w1 // w2.
Qed.

Section OrthoOk.
Hypothesis ho : ortho_ok l ortho.

Theorem C29_gmres_optimal s : lMl l (lb l) <> 0 ->
  of_run (deflated_gmres sqr snorm l Minv same U kw o ortho x0) s ->
  let n := a_iter (gm_a (s_st s).1) in
  [/\ exists2 xk, s_xk s = Some xk & defl_optimal n xk, size (s_res s) = n.+1
    & forall i, (i <= n)%N -> exists2 xi, defl_optimal i xi & nth 0 (s_res s) i = resid_norm l xi / rhs_norm l].
Proof.
move=> nb; rewrite /deflated_gmres (bnorm_ok hl) /=.
have [ob hob] := oblique_total hsqr hl ha; rewrite hob /= => hs0; have hs := @unlog_of C N _ (gmres snorm (d_kdata l ob) (o_maxiter o) ortho) _ _ _ _ _ s hs0.
have [_ h2 h3 [z [xk [ex hz Ex]]]] := gmres_run (defl_kd hsqr hl ha hob hMr x0) (defl_cfg hsqr hl ha hob _ ho) (bn nb) hs.
split=> //.
  have [xk' e' /optE[h _]] := defl_minimizer hsqr hl ha hob hMr hz.
  by exists xk => //; move: Ex; rewrite /= e' => -[<-].
by move=> i hi; have [r /(res_opt hob)[xi k1 ->] k2] := h3 i hi; exists xi.
Qed.

Theorem C29_minres_optimal s : self_adjoint ip_ A -> lMl l (lb l) <> 0 ->
  of_run (deflated_minres sqr snorm l Minv same U kw o ortho x0) s ->
  let n := a_iter (mr_a (s_st s).1) in
  [/\ exists2 xk, s_xk s = Some xk & defl_optimal n xk, size (s_res s) = n.+1
    & forall i, (i <= n)%N -> exists2 xi, defl_optimal i xi & nth 0 (s_res s) i = resid_norm l xi / rhs_norm l].
Proof.
move=> sa nb; rewrite /deflated_minres (bnorm_ok hl) /=.
have [ob hob] := oblique_total hsqr hl ha; rewrite hob /= => hs0; have hs := @unlog_of C N _ (minres snorm (d_kdata l ob) (o_maxiter o) ortho) _ _ _ _ _ s hs0.
have sa' : self_adjoint (ip1 (k_B (d_kdata l ob))) (k_A (d_kdata l ob)).
  by move=> u v /=; rewrite !(d_opE hsqr hl ha hob); apply: (dop_sa hl ha hob).
have [_ h2 h3 [z [xk [ex hz Ex]]]] := minres_run (defl_kd hsqr hl ha hob hMr x0) (defl_cfg hsqr hl ha hob _ ho) sa' (bn nb) hs.
split=> //.
  have [xk' e' /optE[h _]] := defl_minimizer hsqr hl ha hob hMr hz.
  by exists xk => //; move: Ex; rewrite /= e' => -[<-].
by move=> i hi; have [r /(res_opt hob)[xi k1 ->] k2] := h3 i hi; exists xi.
Qed.

(** The last recorded norm is the norm of the residual Ml (b - A xk) of the original
    system: a run that ends with resnorms[-1] <= tol has solved it to this tolerance. *)
Theorem C29_gmres_true_residual s : lMl l (lb l) <> 0 ->
  of_run (deflated_gmres sqr snorm l Minv same U kw o ortho x0) s ->
  exists2 xk, s_xk s = Some xk & last 0 (s_res s) = resid_norm l xk / rhs_norm l.
Proof.
move=> nb h; have [[xk e hx] hs hr] := C29_gmres_optimal nb h; exists xk => //.
have [xi hi] := hr _ (leqnn _); rewrite (opt_norm hx hi) => <-.
by rewrite (last_nth 0); case: (s_res s) hs => //= a q [->].
Qed.

Theorem C29_minres_true_residual s : self_adjoint ip_ A -> lMl l (lb l) <> 0 ->
  of_run (deflated_minres sqr snorm l Minv same U kw o ortho x0) s ->
  exists2 xk, s_xk s = Some xk & last 0 (s_res s) = resid_norm l xk / rhs_norm l.
Proof.
move=> sa nb h; have [[xk e hx] hs hr] := C29_minres_optimal sa nb h; exists xk => //.
have [xi hi] := hr _ (leqnn _); rewrite (opt_norm hx hi) => <-.
by rewrite (last_nth 0); case: (s_res s) hs => //= a q [->].
Qed.

(** Termination within N iterations, although P Ml A Mr is singular. *)
Theorem C29_gmres_finite : injective_op A -> bounds_entries snorm -> lMl l (lb l) <> 0 ->
  (N <= o_maxiter o)%N -> 0 <= o_tol o ->
  exists2 s, deflated_gmres sqr snorm l Minv same U kw o ortho x0 = Returns s &
    (a_iter (gm_a (s_st s).1) <= N)%N /\
    (last 0 (s_res s) <= o_tol o \/
     exists j, a_iter (gm_a (s_st s).1) = j.+1 /\
       0 < a_H (gm_a (s_st s).1) j.+1 j <= (10%:R ^+ 14)^-1 * snorm j.+2 j.+1 (a_H (gm_a (s_st s).1))).
Proof.
move=> inj hb nb hm tol0; rewrite /deflated_gmres (bnorm_ok hl) /=.
have [ob hob] := oblique_total hsqr hl ha; rewrite hob /=.
have [s E h] := gmres_finite (defl_kd hsqr hl ha hob hMr x0) (defl_cfg hsqr hl ha hob _ ho) (Kinj hob inj) hb (bn' nb) he (N0 nb) hm tol0.
have [s' E' e] := @of_unlog C N _ (gmres snorm (d_kdata l ob) (o_maxiter o) ortho) [::]
  (fun t Cs => rcons Cs (d_UAv l ob (a_V (gm_a t) (a_iter (gm_a t))))) _ _ _ s E.
by exists s' => //; move: h; rewrite -e.
Qed.

Theorem C29_minres_finite : self_adjoint ip_ A -> injective_op A -> bounds_entries snorm -> lMl l (lb l) <> 0 ->
  (N <= o_maxiter o)%N -> 0 <= o_tol o ->
  exists2 s, deflated_minres sqr snorm l Minv same U kw o ortho x0 = Returns s &
    (a_iter (mr_a (s_st s).1) <= N)%N /\
    (last 0 (s_res s) <= o_tol o \/
     exists j, a_iter (mr_a (s_st s).1) = j.+1 /\
       0 < a_H (mr_a (s_st s).1) j.+1 j <= (10%:R ^+ 14)^-1 * snorm j.+2 j.+1 (a_H (mr_a (s_st s).1))).
Proof.
move=> sa inj hb nb hm tol0; rewrite /deflated_minres (bnorm_ok hl) /=.
have [ob hob] := oblique_total hsqr hl ha; rewrite hob /=.
have sa' : self_adjoint (ip1 (k_B (d_kdata l ob))) (k_A (d_kdata l ob)).
  by move=> u v /=; rewrite !(d_opE hsqr hl ha hob); apply: (dop_sa hl ha hob).
have [s E h] := minres_finite (defl_kd hsqr hl ha hob hMr x0) (defl_cfg hsqr hl ha hob _ ho) sa' (Kinj hob inj) hb (bn' nb) he (N0 nb) hm tol0.
have [s' E' e] := @of_unlog C N _ (minres snorm (d_kdata l ob) (o_maxiter o) ortho) [::]
  (fun t Cs => rcons Cs (d_UAv l ob (a_V (mr_a t) (a_iter (mr_a t))))) _ _ _ s E.
by exists s' => //; move: h; rewrite -e.
Qed.
End OrthoOk.

(** C29, CG: the energy norm of the error is minimal over x0 + Mr (K_n + span U), the
    residual is orthogonal to U, and the recorded norms are those of such residuals. *)
Section Cg.
Hypothesis sa : self_adjoint ip_ A.
Hypothesis pd : pos_def ip_ A.
Variable store : bool.
Local Notation energy v := (ip_ v (A v)).

Definition defl_energy_optimal (n : nat) (xk : vec) : Prop :=
  ip U (resid l xk) = 0 /\ exists z c,
  [/\ xk = x + lMr l z + U *m c, K n z
    & forall y z' c', resid l (x + lMr l y) = 0 -> K n z' ->
        energy (y - (z + U *m c)) <= energy (y - (z' + U *m c'))].

Theorem C29_cg_optimal s : lMl l (lb l) <> 0 ->
  of_run (deflated_cg sqr l Minv same U kw o store x0) s ->
  let n := cg_it (s_st s).1 in
  [/\ exists xk, [/\ s_xk s = Some xk, defl_energy_optimal n xk & last 0 (s_res s) = resid_norm l xk / rhs_norm l],
      size (s_res s) = n.+1
    & forall i, (i <= n)%N -> exists2 xi, defl_energy_optimal i xi & nth 0 (s_res s) i = resid_norm l xi / rhs_norm l].
Proof.
move=> nb; rewrite /deflated_cg (bnorm_ok hl) /=.
have [ob hob] := oblique_total hsqr hl ha; rewrite hob /= => hs0.
have hs := @unlog_of C N _ (cg (d_kdata l ob) store) _ _ _ _ _ s hs0.
have hd := defl_kd hsqr hl ha hob hMr x0; have sp := d_op_spd hsqr hl ha hob x0 sa pd.
have [h1 h2 h3 [xk ex Ex]] := cg_run hd sp (bn nb) hs.
pose z i := cy ip_ (d_op l ob) (lMop l) (Pd l ob (resid l x)) i.
have key i : (i <= cg_it (s_st s).1)%N -> exists xi, [/\ o_correct l ob (x + lMr l (z i)) = Ok xi,
    defl_energy_optimal i xi & nth 0 (s_res s) i = resid_norm l xi / rhs_norm l].
  move=> hi; have e := o_correctE hsqr hl ha hob (x + lMr l (z i)).
  have [c ec] := span_U ha hob (invmx (ip (o_U ob) (o_AU ob)) *m ip (o_U ob) (resid l (x + lMr l (z i)))).
  rewrite ec in e; eexists; split; first exact: e.
    split; first by have [_] := C11_residual hob e.
    exists (z i), c; split=> //.
      by apply/(KPE hsqr hl ha hob x0); apply: (cy_span _ _ (ko_A hd) (ko_M hd)).
    move=> y z' c' hy hz.
    have [z'' hz''|c1 e1 hm] := defl_energy hsqr hl ha hob (x0 := x0) (n := i) (z := z i) sa pd hy.
      have -> v : dop l ob v = k_A (d_kdata l ob) v by rewrite /= (d_opE hsqr hl ha hob).
      have -> v : dop l ob v = k_A (d_kdata l ob) v by rewrite /= (d_opE hsqr hl ha hob).
      apply: (cg_opt (ko_B hd) (ko_A hd) (ko_M hd) (ko_Msa hd) (ko_Mpd hd) sp (ci_nz h1) hi).
        by apply/(KPE hsqr hl ha hob x0).
      have /eqP := hy; rewrite (resid_update hl) subr_eq0 => /eqP ->.
      by rewrite /= (d_opE hsqr hl ha hob).
    have <- : U *m c1 = U *m c by move: e1; rewrite e => -[/addrI].
    exact: hm.
  rewrite h3 //; congr (_ / _).
  have [x' ex' er'] := ko_fix hd (z i); move: ex'; rewrite /= e => -[ex'].
  rewrite ex'; move: er' => /=; rewrite -[LHS]/(let! t := get_residual l (rhs_norm l) (Some x') in Ok t.2).
  rewrite (get_residual_some hl) /= => -[->].
  by rewrite /z -(cr_res ip_ (lMop l) _ (ko_A hd)).
split=> //; last by move=> i /key[xi [_ k1 k2]]; exists xi.
have [xi [k1 k2 k3]] := key _ (leqnn _); exists xk.
have exi : xk = xi by move: Ex; rewrite /= k1 => -[].
rewrite ex exi; split=> //; rewrite -k3.
have : size (s_res s) = (cg_it (s_st s).1).+1 by [].
by rewrite (last_nth 0); case: (s_res s) => //= a q [->].
Qed.

Theorem C29_cg_finite : ~~ store -> lMl l (lb l) <> 0 -> (N <= o_maxiter o)%N -> 0 <= o_tol o ->
  exists2 s, deflated_cg sqr l Minv same U kw o store x0 = Returns s &
    (cg_it (s_st s).1 <= N)%N /\ last 0 (s_res s) <= o_tol o.
Proof.
move=> st nb hm tol0; rewrite /deflated_cg (bnorm_ok hl) /=.
have [ob hob] := oblique_total hsqr hl ha; rewrite hob /=.
have hd := defl_kd hsqr hl ha hob hMr x0; have sp := d_op_spd hsqr hl ha hob x0 sa pd.
have [s E h] := cg_finite hd sp st (bn' nb) he (N0 nb) hm tol0.
have [s' E' e] := @of_unlog C N _ (cg (d_kdata l ob) store) ([::], [::]) (cg_log l ob) _ _ _ s E.
by exists s' => //; move: h; rewrite -e.
Qed.
End Cg.

(** C30.  E, C and B_.  The attribute projection.U, [o_U ob], is a basis of span(U). *)
Theorem C30_E ob : mk_oblique sqr l Minv same U kw = Ok ob ->
  (exists2 F, F \in unitmx & U = o_U ob *m F) /\ d_E ob = ip (o_U ob) (imcols A (o_U ob)).
Proof.
move=> hob; have [e [F uF eF] _] := oblE ha hob; split; first by exists F.
by rewrite (d_EE hsqr hl ha hob) e.
Qed.

(** C has one column <U, Ml A Mr v_j> for each Arnoldi vector the operator was applied to. *)
Definition C_ok (ob : obl C N k) (n : nat) (V : nat -> vec) (Cs : seq 'cV[C]_k) : Prop :=
  size Cs = n /\ forall j, (j < n)%N -> nth 0 Cs j = ip (o_U ob) (A (V j)).

Theorem C30_gmres_C ob s : ortho_ok l ortho -> lMl l (lb l) <> 0 -> mk_oblique sqr l Minv same U kw = Ok ob ->
  of_run (deflated_gmres sqr snorm l Minv same U kw o ortho x0) s ->
  C_ok ob (a_iter (gm_a (s_st s).1)) (a_V (gm_a (s_st s).1)) (s_st s).2.
Proof.
move=> ho nb hob; rewrite /deflated_gmres (bnorm_ok hl) /= hob /= => hs.
exact: (gmres_log hsqr hl ha hob hMr ho (bn nb) hs).
Qed.

Theorem C30_minres_C ob s : ortho_ok l ortho -> self_adjoint ip_ A -> lMl l (lb l) <> 0 ->
  mk_oblique sqr l Minv same U kw = Ok ob ->
  of_run (deflated_minres sqr snorm l Minv same U kw o ortho x0) s ->
  C_ok ob (a_iter (mr_a (s_st s).1)) (a_V (mr_a (s_st s).1)) (s_st s).2.
Proof.
move=> ho sa nb hob; rewrite /deflated_minres (bnorm_ok hl) /= hob /= => hs.
exact: (minres_log hsqr hl ha hob hMr ho sa (bn nb) hs).
Qed.

(** The model of CG lists the columns of C newest first.  With store_arnoldi they are
    <U, Ml A Mr v_j> for the stored V. *)
Theorem C30_cg_C ob s : self_adjoint ip_ A -> pos_def ip_ A -> lMl l (lb l) <> 0 ->
  mk_oblique sqr l Minv same U kw = Ok ob ->
  of_run (deflated_cg sqr l Minv same U kw o true x0) s ->
  C_ok ob (cg_it (s_st s).1) (cg_V (s_st s).1) (rev (s_st s).2.2).
Proof.
move=> sa pd nb hob; rewrite /deflated_cg (bnorm_ok hl) /= hob /= => hs0.
have hs := @unlog_of C N _ (cg (d_kdata l ob) true) _ _ _ _ _ s hs0.
have hd := defl_kd hsqr hl ha hob hMr x0; have sp := d_op_spd hsqr hl ha hob x0 sa pd.
have [h1 _ _ _] := cg_run hd sp (bn nb) hs.
have [s1 s2 hw hC hr] := cg_log_run hsqr hl ha hob hMr sa pd (bn nb) hs0.
split; first by rewrite size_rev.
move=> j hj; rewrite nth_rev s2 // hC; last by rewrite ltn_subrL (leq_ltn_trans _ hj).
have -> : ((cg_it (s_st s).1).-1 - (cg_it (s_st s).1 - j.+1) = j)%N.
  by rewrite -subn1 subnAC subKn // subn1.
by rewrite -(cw_V (ci_st h1 isT)) ?(ltnW hj) //; apply: (ci_nz h1).
Qed.

(** B_ = <V, Ml A Mr U> in both branches, from any C as above; [fl] is the attribute
    self_adjoint of the linear system. *)
Theorem C30_B ob (fl : bool) n n_ V Cs i : mk_oblique sqr l Minv same U kw = Ok ob ->
  (fl -> self_adjoint ip_ A) -> (n_ <= n.+1)%N -> C_ok ob n V Cs -> (i < n_)%N ->
  d_B_ l ob fl n n_ V Cs i = ip (V i) (imcols A (o_U ob)).
Proof.
move=> hob hf hn [_ hC] hi; have [e _ _] := oblE ha hob; rewrite /d_B_.
case: ifP => [/andP[/hf sa hc]|_]; last by rewrite e.
have hi' : (i < n)%N by case/orP: hc => // /(leq_trans hi).
rewrite hC // tconjE -innerC; last exact: lo_B hl.
rewrite -(inner_adj hl _ _ (lMlAMr_lin hl) sa); congr (inner _ _ _).
by apply/matrixP => a b; rewrite mxE !ord1 col_id.
Qed.
End Run.
End Deflated.

(** C29.  Without deflation vectors (U=None) the deflated solvers are the solvers
    themselves; forget drops C from the state. *)
Section NoDeflation.
Variable C : numClosedFieldType.
Variable sqr : forall n k, 'M[C]_(n, k) -> 'M[C]_(n, k) * 'M[C]_k.
Hypothesis hsqr : qr_spec sqr.
Variable N : nat.
Local Notation vec := 'cV[C]_N.
Variable snorm : nat -> nat -> (nat -> nat -> C) -> C.
Variable l : lsys C N.
Hypothesis hl : lsys_ok l.
Variables (Minv : option (vec -> vec)) (same : bool) (kw : pkwargs).
Hypothesis hsame : same -> forall x, lMlAMr l x = x.
Hypothesis hi : pk_its kw != 0%N.
Hypothesis hB : exists2 B, get_ip_Minv_B l Minv = Ok B & valid_ip B.
Let U : 'M[C]_(N, 0) := 0.

Lemma no_args : defl_args sqr l Minv same U kw.
Proof.
split=> //; first by rewrite unitmxE det_mx00 unitr1.
by move=> _ ob _; split; case.
Qed.

Section Kd.
Variable ob : obl C N 0.
Hypothesis hob : mk_oblique sqr l Minv same U kw = Ok ob.
Let d := d_kdata l ob.
Let d' := kdata_lsys l (rhs_norm l).
Let P0 a : Pd l ob a = a.
Proof. by rewrite /Pd (_ : o_AU ob = 0) ?mul0mx ?subr0 //; apply/matrixP => i []. Qed.

Let eA v : k_A d v = k_A d' v.
Proof. by rewrite /= (d_opE hsqr hl no_args hob) /dop P0. Qed.

Let eres x : k_res0 d x = k_res0 d' x.
Proof.
have mr (c : 'cV[C]_0) : lMr l (U *m c) = U *m c.
  by rewrite /U mul0mx (lin0 (lo_Mr hl)).
by rewrite (ko_res (defl_kd hsqr hl no_args hob mr x)) (ko_res (lsys_kd hl x)) P0.
Qed.

Let efix x : k_fix d x = k_fix d' x.
Proof.
rewrite /= (o_correctE hsqr hl no_args hob) (_ : o_U ob = 0) ?mul0mx ?addr0 //.
by apply/matrixP => i [].
Qed.

Lemma no_gmres o ortho x0 : krun (lsys_sys l (rhs_norm l)) o (gmres snorm d (o_maxiter o) ortho) x0 =
  krun (lsys_sys l (rhs_norm l)) o (gmres snorm d' (o_maxiter o) ortho) x0.
Proof. exact: gmres_ext. Qed.
Lemma no_minres o ortho x0 : krun (lsys_sys l (rhs_norm l)) o (minres snorm d (o_maxiter o) ortho) x0 =
  krun (lsys_sys l (rhs_norm l)) o (minres snorm d' (o_maxiter o) ortho) x0.
Proof. exact: minres_ext. Qed.
Lemma no_cg o st x0 : krun (lsys_sys l (rhs_norm l)) o (cg d st) x0 = krun (lsys_sys l (rhs_norm l)) o (cg d' st) x0.
Proof. exact: cg_ext. Qed.
End Kd.

Theorem C29_no_deflation o ortho store x0 :
  [/\ forget (deflated_gmres sqr snorm l Minv same U kw o ortho x0) = gmres_solve snorm l o ortho x0,
      forget (deflated_minres sqr snorm l Minv same U kw o ortho x0) = minres_solve snorm l o ortho x0
    & forget (deflated_cg sqr l Minv same U kw o store x0) = cg_solve l o store x0].
Proof.
have [ob hob] := oblique_total hsqr hl no_args.
rewrite /deflated_gmres /deflated_minres /deflated_cg /gmres_solve /minres_solve /cg_solve (bnorm_ok hl) /= hob /=.
split.
- rewrite -(no_gmres hob); exact: (@unlog_run C N _ (gmres snorm (d_kdata l ob) (o_maxiter o) ortho)).
- rewrite -(no_minres hob); exact: (@unlog_run C N _ (minres snorm (d_kdata l ob) (o_maxiter o) ortho)).
- rewrite -(no_cg hob); exact: (@unlog_run C N _ (cg (d_kdata l ob) store)).
Qed.
End NoDeflation.

(** Examples.  For a single deflation vector u the hypothesis [defl_args] follows from
    <u, Ml A Mr u> <> 0 and bounds from below for the norms of normalised vectors. *)
Lemma defl_args1 (C : numClosedFieldType) sqr N (l : lsys C N) Minv (u : 'cV[C]_N) kw B :
  qr_spec sqr -> pk_its kw != 0%N -> get_ip_Minv_B l Minv = Ok B -> valid_ip B -> valid_ip (lB l) ->
  eps15 C <= ipnorm (ip1 B) u ->
  (forall v, ip1 B v v = 1 -> eps15 C <= ipnorm (ip1 (lB l)) v /\ eps15 C <= ipnorm (ip1 (lB l)) (lMlAMr l v)) ->
  ip1 (lB l) u (lMlAMr l u) != 0 -> defl_args sqr l Minv false u kw.
Proof.
move=> hs hi eB vB vl nu nv nz.
have iE (f : 'cV[C]_N -> 'cV[C]_N) (v : 'cV[C]_N) : imcols f v = f v.
  by apply/matrixP => i j; rewrite mxE !ord1 col_id.
have sep (b : ipB C N) (v : 'cV[C]_N) : eps15 C <= ipnorm (ip1 b) v -> separated (ip1 b) (eps15 C) v.
  move=> h i c; rewrite big_pred0; first by rewrite subr0 ord1 col_id.
  by move=> j; rewrite !ord1.
split=> //.
- by exists B.
- rewrite iE unitmxE (_ : inner _ _ _ = (ip1 (lB l) u (lMlAMr l u))%:M); last first.
    by apply/matrixP => i j; rewrite !ord1 mxE eqxx.
  by rewrite det_scalar expr1 unitfE.
move=> _ ob; rewrite /mk_oblique eB /=.
have [Q [R [-> _ _ h1 h2]]] := mgs_thm u (pk_reorthos kw) vB; rewrite /=.
case: (mk_proj _ _ _ _ _ _) => [p|//] /= [<-] /=.
have [_ hQ] := h1 (h2 (sep _ _ nu)).
have [n1 n2] : eps15 C <= ipnorm (ip1 (lB l)) Q /\ eps15 C <= ipnorm (ip1 (lB l)) (lMlAMr l Q).
  by apply: nv; rewrite /ip1 hQ mxE.
by split; apply: sep => //; rewrite -[mapcols _ _]/(imcols _ _) iE.
Qed.

Section Example.
Variable C : numClosedFieldType.
Local Notation spd := (Properties.Cg.spd_op (C := C)).
Local Notation ip := (ip1 (@IpNone C 2)).
Let hip := valid_is_ip (B := @IpNone C 2) I.

(** A = [[2,1],[1,2]], M = 5, Ml = 2, b = e_0, U = [e_0]. *)
Definition dex_lsys : lsys C 2 :=
  LSys spd (e0 C) (Some (fun x => 5%:R *: x)) (fun x => 2%:R *: x) id IpNone None.
Definition dex_Minv : option ('cV[C]_2 -> 'cV[C]_2) := Some (fun x => 5%:R^-1 *: x).
Definition dex_kw : pkwargs := PKw 0 true 2.

Lemma dex_ok : lsys_ok dex_lsys.
Proof.
have [h1 h2 h3 h4 h5 h6 h7] := Properties.Cg.spd_ok C false; split=> //; exact: spd_lin.
Qed.

Lemma spd_norm v : ip v v <= ip (spd v) (spd v).
Proof.
have e : ip (swap_op v) (swap_op v) = ip v v by rewrite swap_sa Properties.Cg.swap_swap.
have -> : ip (spd v) (spd v) = ip v v + 2%:R * ip (v + swap_op v) (v + swap_op v).
  rewrite /Properties.Cg.spd_op !(ipDl hip) !(ipDr hip) !(ipZl hip) !(ipZr hip) !conjC_nat e.
  by rewrite [ip (swap_op v) v]swap_sa; ring.
have p0 := ip_ge0' hip v; have p1 := ip_ge0' hip (v + swap_op v).
by rewrite ler_addl mulr_ge0 ?ler0n.
Qed.

Lemma e0_ip : ip (e0 C) (e0 C) = 1.
Proof. by rewrite /ip1 /= tconjE mxE big_ord_recl big_ord1 !ctrE !mxE /= conjC0 conjC1 mulr0 mulr1 addr0. Qed.
Lemma e01_ip : ip (e0 C) (e1 C) = 0.
Proof. by rewrite /ip1 /= tconjE mxE big_ord_recl big_ord1 !ctrE !mxE /= mulr0 conjC0 mul0r addr0. Qed.

Lemma eps_sqrt (a : C) : 5%:R^-1 <= a -> eps15 C <= sqrtC a.
Proof.
move=> h; have p0 := ltW (eps15_gt0 C).
have pa : 0 <= a by apply: le_trans h; rewrite invr_ge0 ler0n.
rewrite -(@ler_pexpn2r _ 2) ?nnegrE ?p0 ?sqrtC_ge0 ?pa // sqrtCK; apply: le_trans h; rewrite /eps15 exprVn -exprM lef_pinv ?posrE ?exprn_gt0 ?ltr0n //.
rewrite -natrX ler_nat; exact: (@leq_trans (10 ^ 1)).
Qed.

Lemma dex_args : defl_args (@some_qr C) dex_lsys dex_Minv false (e0 C) dex_kw.
Proof.
have h5 : 5%:R != 0 :> C by rewrite pnatr_eq0.
have [|||B eB [vB hB]] := @C43_Minv_inner_product C 2 dex_lsys _ (fun x => 5%:R^-1 *: x) dex_ok erefl.
- by move=> x; rewrite scalerA mulVf // scale1r.
- by move=> x; rewrite scalerA divff // scale1r.
- by [].
have eBn v : ip1 B v v = 5%:R^-1 * ip v v by have [_ ->] := hB v v; rewrite (ipZr hip).
apply: (defl_args1 (@some_qr_spec C) _ eB vB) => //.
- by rewrite /ipnorm eBn e0_ip mulr1 eps_sqrt.
- move=> v; rewrite eBn => e; have ev : ip v v = 5%:R.
    by apply: (mulfI (invr_neq0 h5)); rewrite e mulVf.
  have h15 : 5%:R^-1 <= 5%:R :> C by rewrite (le_trans _ (_ : 1 <= _)) ?ler1n // invf_le1 ?ltr0n // ler1n.
  rewrite /ipnorm /lMlAMr /= (ipZl hip) (ipZr hip) conjC_nat ev; split; apply: eps_sqrt => //.
  apply: le_trans h15 _; rewrite -ev mulrA -natrM; apply: le_trans (spd_norm v) _.
  by rewrite ler_pemull ?(ip_ge0' hip) // ler1n.
rewrite /lMlAMr /= (ipZr hip) /Properties.Cg.spd_op swap_e0 (ipDr hip) (ipZr hip) e0_ip e01_ip.
by rewrite mulr1 addr0 -natrM pnatr_eq0.
Qed.

Lemma dex_sa : self_adjoint (ip1 (lB dex_lsys)) (lMlAMr dex_lsys).
Proof. by move=> x y; rewrite /lMlAMr /= (ipZl hip) (ipZr hip) conjC_nat Properties.Cg.spd_sa. Qed.

Lemma dex_pd : pos_def (ip1 (lB dex_lsys)) (lMlAMr dex_lsys).
Proof.
by move=> x nx; rewrite /lMlAMr /= (ipZr hip) mulr_gt0 ?ltr0n // Properties.Cg.spd_pd.
Qed.

Lemma dex_nz : lMl dex_lsys (lb dex_lsys) <> 0.
Proof. by apply/eqP; rewrite scaler_eq0 negb_or e0_nz pnatr_eq0. Qed.

Lemma dex_inj : injective_op (lMlAMr dex_lsys).
Proof.
move=> x h; apply/eqP; apply/negPn/negP => /dex_pd; rewrite h.
by rewrite (ipr0 (valid_is_ip (lo_B dex_ok))) ltxx.
Qed.

Example C29_run ortho tol x0 : ortho = Mgs \/ ortho = Dmgs \/ ortho = Lanczos -> 0 <= tol ->
  [/\ exists s, deflated_gmres (@some_qr C) (@frob C) dex_lsys dex_Minv false (e0 C) dex_kw (Opts tol 2 false) ortho x0 = Returns s,
      exists s, deflated_minres (@some_qr C) (@frob C) dex_lsys dex_Minv false (e0 C) dex_kw (Opts tol 2 false) ortho x0 = Returns s
    & exists s, deflated_cg (@some_qr C) dex_lsys dex_Minv false (e0 C) dex_kw (Opts tol 2 false) false x0 = Returns s].
Proof.
move=> ho tol0; have ho' : ortho_ok dex_lsys ortho by case: ho => [|[]] -> //; apply: dex_sa.
have hq := @some_qr_spec C; pose op := Opts tol 2 false; have mr (c : 'cV[C]_1) : lMr dex_lsys (e0 C *m c) = e0 C *m c by [].
split.
- have [//|//|s E _] := C29_gmres_finite (o := op) hq dex_ok dex_args mr x0 ho' dex_inj (@frob_bounds C) dex_nz.
  by exists s.
- have [//|//|s E _] := C29_minres_finite (o := op) hq dex_ok dex_args mr x0 ho' dex_sa dex_inj (@frob_bounds C) dex_nz.
  by exists s.
have [//|//|s E _] := C29_cg_finite (o := op) (store := false) hq dex_ok dex_args mr x0 dex_sa dex_pd isT dex_nz.
by exists s.
Qed.

(** C11 is false if Mr changes U: correct does not apply Mr.  A = 1, b = 1, Mr = 2,
    U = [1]: the residual of correct(0) is 1/2. *)
Definition c11_lsys : lsys C 1 := LSys id 1%:M None id (fun x => 2%:R *: x) IpNone None.

Theorem C11_right_preconditioner_refuted : exists (l : lsys C 1) (U : 'cV[C]_1) ob z x,
  [/\ lsys_ok l, defl_args (@some_qr C) l None false U dex_kw,
      mk_oblique (@some_qr C) l None false U dex_kw = Ok ob, o_correct l ob z = Ok x
    & inner (lB l) U (resid l x) <> 0].
Proof.
have hip1 := valid_is_ip (B := @IpNone C 1) I.
have ok : lsys_ok c11_lsys.
  split=> //=; first by move=> a x y; rewrite scalerDr !scalerA mulrC.
  by move=> x nx; apply: ip_pos.
have i1 : ip1 (@IpNone C 1) 1%:M 1%:M = 1 by rewrite /ip1 /= tconjE ctr1 mul1mx mxE.
have args : defl_args (@some_qr C) c11_lsys None false 1%:M dex_kw.
  have h1 : 5%:R^-1 <= 1 :> C by rewrite invf_le1 ?ltr0n // ler1n.
  apply: (defl_args1 (B := IpNone) (@some_qr_spec C)) => //=.
  - by rewrite /ipnorm i1 eps_sqrt.
  - move=> v e; rewrite /ipnorm /lMlAMr /= (ipZl hip1) (ipZr hip1) conjC_nat e; split; apply: eps_sqrt => //.
    by rewrite mulr1 -natrM (le_trans h1) // ler1n.
  by rewrite /lMlAMr /= (ipZr hip1) i1 mulr1 pnatr_eq0.
have [ob hob hc] := C11_correct (@some_qr_spec C) ok args.
have [c [e1 e2]] := hc 0; exists c11_lsys, 1%:M, ob, 0, (0 + 1%:M *m c); split=> //.
move: e2; rewrite /resid /lMlAMr /= tconjE ctr1 !mul1mx add0r subr0.
have -> : imcols (fun x : 'cV[C]_1 => 2%:R *: x) 1%:M = 2%:R *: 1%:M.
  by apply/matrixP => i j; rewrite !mxE !ord1.
rewrite -scalemxAl mul1mx => h /eqP; rewrite subr_eq0 => /eqP h'.
move: h; rewrite -h' => /matrixP/(_ 0 0)/eqP; rewrite !mxE /= mulr1 -[X in _ == X]/1%:R eqr_nat //.
Qed.
End Example.
