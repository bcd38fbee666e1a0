(** C74: dtypes of qr, projections and deflated solvers. *)
From mathcomp Require Import all_ssreflect all_algebra ring zify.
From Verif Require Import Base Spec.LinAlg Proof.Algebra Spec.Dtype Model.Dtype Proof.Dtype.
From Verif Require Import Model.Inner Spec.Inner Proof.Inner Proof.IpTheory Model.Arnoldi Proof.ArnoldiExample Model.Solver Model.LinearSystem Model.Krylov Proof.RealRun.
From Verif Require Import Model.Projection Spec.Projection Properties.Projection Model.Deflation Proof.QrExist Spec.Deflation Properties.Deflation Proof.RealProj Proof.QrReal Properties.DtypeRun.

Set Implicit Arguments.
Unset Strict Implicit.
Unset Printing Implicit Defensive.
Import Order.TTheory GRing.Theory Num.Theory.
Local Open Scope ring_scope.

Local Arguments bind {A B} m f : simpl never.
Local Arguments norm {C N} x y B : simpl never.

Section Types.
Variable C : numClosedFieldType.
Variable N : nat.
Local Notation vec := 'cV[C]_N.
(** scipy.linalg.qr; for real arrays the factors are real. *)
Variable sqr : forall n k, 'M[C]_(n, k) -> 'M[C]_(n, k) * 'M[C]_k.
Hypothesis hsqr : forall n k (X : 'M[C]_(n, k)), mx_dtype DFloat X -> mx_dtype DFloat (sqr X).1 /\ mx_dtype DFloat (sqr X).2.
Variable snorm : nat -> nat -> (nat -> nat -> C) -> C.

(** The inner product of two blocks of type d is of type d. *)
Definition block_types (d : dtype) (B : ipB C N) : Prop :=
  forall m n (X : 'M[C]_(N, m)) (Y : 'M[C]_(N, n)), mx_dtype d X -> mx_dtype d Y -> mx_dtype d (inner B X Y).

(** The arrays Q and R of qr have the type of X, utils.py 696-697; for float64 and complex128 the factors are of this type. *)
Theorem C74_qr (d : dtype) B k (X : 'M[C]_(N, k)) reorthos Q R : d <> DInt -> mx_dtype d X ->
  (if B is Some B then block_types d B else True) -> qr sqr B X reorthos = Ok (Q, R) -> mx_dtype d Q /\ mx_dtype d R.
Proof. by case: d => // _ hX hB E; have := qr_rl hsqr (B := B) _ hX E; apply; case: B hB E. Qed.

(** The operators of a Projection have the common type of V and W, utils.py 640-643.  If X and Y are
    of type d, so are V and W and the results for arguments of type d. *)
Theorem C74_projection (d : dtype) B k (X : 'M[C]_(N, k)) Y orthogonalize its p : d <> DInt -> mx_dtype d X ->
  (if Y is Some Y then mx_dtype d Y else True) -> (if B is Some B then block_types d B else True) ->
  mk_proj sqr X Y B orthogonalize its = Ok p ->
  (mx_dtype d (pV p) /\ mx_dtype d (pW p)) /\
  forall m (a x : 'M[C]_(N, m)), mx_dtype d a ->
    p_apply p a = Ok x \/ p_apply_adj p a = Ok x \/ p_compl p a = Ok x \/ p_compl_adj p a = Ok x -> mx_dtype d x.
Proof.
case: d => // _ hX hY hB E; have hp : pr p by apply: mk_proj_rl E => //; case: B hB.
by split=> [|m a x ha]; [case: hp|exact: p_all_rl].
Qed.

Variables (l : lsys C N) (dA db dM dMl dMr dMi dU : dtype) (dB : dobj) (x0 : option vec) (dx : dtype) (o : opts C).
Variables (Minv : option (vec -> vec)) (same : bool) (k : nat) (U : 'M[C]_(N, k)) (kw : pkwargs).
Hypothesis hl : ls_types l dA db dM dMl dMr dB.
Hypothesis hip : if lB l is IpCall f then block_types DFloat (IpCall f) else True.
Hypothesis hx : x0_types x0 dx.
(** Minv and U *)
Hypothesis hMi : if Minv is Some Mi then honest dMi Mi /\ dle dMi DFloat else True.
Hypothesis hU : mx_dtype dU U.
(** dtype=U.dtype, deflation.py 123-125 *)
Local Notation dt := (solver_dtype (ls_dtype dA db dM dMl dMr dB) (Some dx) (Some dU)).

Lemma realsU : dt = DFloat -> [/\ fl (lA l), mx_dtype DFloat (lb l), ofl (lM l), fl (lMl l) & [/\ fl (lMr l), ibl (lB l), (if x0 is Some x then mx_dtype DFloat x else True), mx_dtype DFloat U & ofl Minv]].
Proof.
move=> e; have [h1 h2 h3 h4 [h5 h6 h7]] := reals hl hx e; split=> //; split=> //.
- move: hl => []; case Eb: (lB l) => [|B|f] /= _ _ _ _ _.
  + by move=> _ m n X Y hX hY; apply: mdM => //; apply: rv_tconj.
  + case=> d ed hB m n X Y hX hY.
    have hBr : mx_dtype DFloat B.
      have := dle_refl dt; rewrite {2}e /solver_dtype /ls_dtype /find_common_dtype ed /find_common_type /= !djoinE -!andbA => /and5P[_ _ _ _ /and4P[_ hd _ _]].
      exact: mx_le hB.
    by rewrite /=; case: ifP => _; apply: mdM => //; [apply: rv_tconj; apply: mdM|apply: rv_tconj|apply: mdM].
  by move=> _; move: hip; rewrite Eb.
- apply: mx_le hU; have := dle_refl dt; rewrite {2}e /solver_dtype; set ls := ls_dtype _ _ _ _ _ _.
  by rewrite /find_common_type /= !djoinE => /andP[].
by move: hMi; case: Minv => // Mi [h hd] x; apply: h.
Qed.

Definition cols_types (d : dtype) (Cs : seq 'cV[C]_k) : Prop := forall i, mx_dtype d (nth 0 Cs i).

Lemma some_xkd (m : method C vec) bn s : is_run (krun (lsys_sys l bn) o m x0) s -> exists x, s_xk s = Some x.
Proof. exact: some_xk. Qed.

(** The arrays of DeflatedGmres, the approximate solution, and the columns of C are of type solver.dtype. *)
Theorem C74_gmres ortho s : dt <> DInt -> is_run (deflated_gmres sqr snorm l Minv same U kw o ortho x0) s ->
  let t := (s_st s).1 in
  [/\ forall i j, has_dtype dt (gm_R t i j), forall i, has_dtype dt (gm_y t i), exists2 x, s_xk s = Some x & mx_dtype dt x,
    (forall j, mx_dtype dt (a_V (gm_a t) j) /\ mx_dtype dt (a_P (gm_a t) j)) /\ (forall i j, has_dtype dt (a_H (gm_a t) i j)) & cols_types dt (s_st s).2].
Proof.
move=> dI; case Ed: dt dI => // _ hs.
  have [h1 h2 h3 h4 [h5 h6 h7 h8 h9]] := realsU Ed; have h := defl_gmres_rl hsqr h1 h2 h3 h4 h5 h6 h9 same kw h8 o h7 snorm ortho.
  by case: hs h => -> [[[_ [g1 g2 g3 _ _] _ g4 g5] g7] g6]; split=> //; split.
have [x Ex] : exists x, s_xk s = Some x; last by split=> *; try exact: hdC; try (by exists x); try (by move=> i a b; exact: hdC); repeat split; move=> *; exact: hdC.
move: hs; rewrite /deflated_gmres; case: (lMMlb_norm l) => [bn|e []//]; rewrite [bindO (Ok _) _]/=.
case: (mk_oblique _ _ _ _ _ _) => [ob|e []//]; exact: (@some_xkd (d_gmres snorm l ob (o_maxiter o) ortho) bn s).
Qed.

Theorem C74_minres ortho s : dt <> DInt -> is_run (deflated_minres sqr snorm l Minv same U kw o ortho x0) s ->
  let t := (s_st s).1 in
  [/\ mx_dtype dt (mr_W0 t) /\ mx_dtype dt (mr_W1 t), has_dtype dt (mr_y t) /\ mx_dtype dt (mr_yk t), exists2 x, s_xk s = Some x & mx_dtype dt x,
    (forall j, mx_dtype dt (a_V (mr_a t) j) /\ mx_dtype dt (a_P (mr_a t) j)) /\ (forall i j, has_dtype dt (a_H (mr_a t) i j)) & cols_types dt (s_st s).2].
Proof.
move=> dI; case Ed: dt dI => // _ hs.
  have [h1 h2 h3 h4 [h5 h6 h7 h8 h9]] := realsU Ed; have h := defl_minres_rl hsqr h1 h2 h3 h4 h5 h6 h9 same kw h8 o h7 snorm ortho.
  by case: hs h => -> [[[_ [g1 g2 g3 _ _] g4 g5 g6 _ _ g7] g9] g8]; split=> //; split.
have [x Ex] : exists x, s_xk s = Some x; last by split=> *; try exact: hdC; try (by exists x); try (by move=> i a b; exact: hdC); repeat split; move=> *; exact: hdC.
move: hs; rewrite /deflated_minres; case: (lMMlb_norm l) => [bn|e []//]; rewrite [bindO (Ok _) _]/=.
case: (mk_oblique _ _ _ _ _ _) => [ob|e []//]; exact: (@some_xkd (d_minres snorm l ob (o_maxiter o) ortho) bn s).
Qed.

Theorem C74_cg store s : dt <> DInt -> is_run (deflated_cg sqr l Minv same U kw o store x0) s ->
  let t := (s_st s).1 in
  [/\ [/\ mx_dtype dt (cg_yk t), mx_dtype dt (cg_Mlr t), mx_dtype dt (cg_MMlr t) & mx_dtype dt (cg_p t)],
    forall i, has_dtype dt (nth 0 (cg_rhos t) i), exists2 x, s_xk s = Some x & mx_dtype dt x,
    (forall j, mx_dtype dt (cg_V t j) /\ mx_dtype dt (cg_P t j)) /\ (forall i j, has_dtype dt (cg_H t i j)) & cols_types dt (s_st s).2.2].
Proof.
move=> dI; case Ed: dt dI => // _ hs.
  have [h1 h2 h3 h4 [h5 h6 h7 h8 h9]] := realsU Ed; have h := defl_cg_rl hsqr h1 h2 h3 h4 h5 h6 h9 same kw h8 o h7 store.
  by case: hs h => -> [[[_ g1 g2 g3 g4 g5 g6 g7 g8 _] _ g10] g9]; split=> // i; exact: (rl_ge0 (g5 i)).
have [x Ex] : exists x, s_xk s = Some x; last by split=> *; try exact: hdC; try (by exists x); try (by move=> i a b; exact: hdC); repeat split; move=> *; exact: hdC.
move: hs; rewrite /deflated_cg; case: (lMMlb_norm l) => [bn|e []//]; rewrite [bindO (Ok _) _]/=.
case: (mk_oblique _ _ _ _ _ _) => [ob|e []//]; exact: (@some_xkd (d_cg l ob store) bn s).
Qed.
End Types.

Section Refuted.
Variable C : numClosedFieldType.
Variable sqr : forall n k, 'M[C]_(n, k) -> 'M[C]_(n, k) * 'M[C]_k.

(** For an integer block the arrays Q and R are integer, but the factor is not. *)
Theorem C74_qr_int_refuted reorthos : let X := const_mx 1 : 'cV[C]_2 in
  mx_dtype DInt X /\ exists Q R, qr sqr (Some IpNone) X reorthos = Ok (Q, R) /\ ~ mx_dtype DInt Q.
Proof.
move=> X; split; first by move=> i j; rewrite mxE; exact: hd1.
have hs : separated (ip1 (@IpNone C 2)) (eps15 C) X.
  move=> i c; rewrite big_pred0 => [|j]; last by rewrite !ord1.
  rewrite subr0 ord1 col_id; apply: eps_sqrt; rewrite /ip1 /= tconjE mxE !big_ord_recl big_ord0 addr0 !ctrE !mxE conjC1 mulr1.
  by apply: (@le_trans _ _ 1); [rewrite invf_le1 ?ltr0n // ler1n|rewrite ler_addl ler01].
have [Q [R [e h1 h2 _ _]]] := C08_qr sqr reorthos (B := IpNone) I hs.
exists Q, R; split=> // hQ.
have q i : Q i 0 * R 0 0 = 1 by move/matrixP/(_ i 0): h1; rewrite !mxE big_ord1.
have q01 : Q 1 0 = Q 0 0.
  have r0 : R 0 0 != 0 by apply/eqP => r; move/eqP: (q 0); rewrite r mulr0 eq_sym oner_eq0.
  by apply: (mulIf r0); rewrite !q.
have [z ez] := hQ 0 0; move/matrixP/(_ 0 0): h2; rewrite /= !mxE !big_ord_recl big_ord0 addr0 !mxE.
have -> : lift ord0 ord0 = 1 :> 'I_2 by apply: val_inj.
rewrite q01 (_ : ord0 = 0) // ez rmorph_int -mulr2n -mulr_natl -[2%:R]/(2%:Z%:~R) -!intrM -[1%:R]/(1%:~R) => /intr_inj.
by case: z {ez} => n; lia.
Qed.

(** For a real block and a complex inner product the arrays Q and R are real, but the factor R is not. *)
Theorem C74_qr_ip_refuted reorthos : 
  [/\ mx_dtype DFloat (1%:M : 'M[C]_2), valid_ip (IpOp (iB C)) & exists Q R, qr sqr (Some (IpOp (iB C))) 1%:M reorthos = Ok (Q, R) /\ ~ mx_dtype DFloat R].
Proof.
have v := iB_valid C; split=> //; first by move=> i j; rewrite mxE; case: (i == j); [exact: hd1|exact: hd0].
have hs : separated (ip1 (IpOp (iB C))) (eps15 C) 1%:M.
  move=> i c; set x := _ - _; apply: eps_sqrt; rewrite ip1E // iBxx.
  have [q0 q1] : 0 <= `|x 0 0 + 'i / 2%:R * x 1 0| ^+ 2 /\ 0 <= 3%:R / 4%:R * `|x 1 0| ^+ 2 :> C.
    by split; [apply: exprn_ge0|apply: mulr_ge0; [apply: divr_ge0; rewrite ler0n|apply: exprn_ge0]].
  case: i @x q0 q1 => [[|[|//]] hi] x q0 q1.
    have [x0 x1] : x 0 0 = 1 /\ x 1 0 = 0 by rewrite /x big_pred0 // subr0 !mxE.
    by rewrite x0 x1 mulr0 addr0 normr1 expr1n normr0 expr0n mulr0 addr0 invf_le1 ?ltr0n // ler1n.
  have x1 : x 1 0 = 1.
    rewrite /x !mxE summxE big1 ?subr0 // => j; rewrite !mxE; case: j => [[|//] hj] _ /=.
    by rewrite mulr0.
  apply: (@le_trans _ _ (3%:R / 4%:R * `|x 1 0| ^+ 2)); last by rewrite ler_addr.
  rewrite x1 normr1 expr1n mulr1 ler_pdivl_mulr ?ltr0n // mulrC ler_pdivr_mulr ?ltr0n //.
  by rewrite -natrM ler_nat.
have [Q [R [e h1 h2 _ _]]] := C08_qr sqr reorthos v hs.
exists Q, R; split=> // hR.
have hB : iB C = R^h *m R.
  rewrite innerOp in h2; last by case: v.
  transitivity (R^h *m 1%:M *m R); last by rewrite mulmx1.
  rewrite -h2 !mulmxA -ctrM -h1 -!mulmxA -h1 mulmx1.
  by rewrite ctr1 mul1mx.
have : mx_dtype DFloat (iB C) by rewrite hB; apply: mdM => //; apply: rv_tconj.
move=> /(_ 0 1); rewrite mxE /= => /CrealP; rewrite ci2 => /eqP.
by rewrite -subr_eq0 -opprD oppr_eq0 -mulr2n mulrn_eq0 /= mulf_eq0 (negbTE (neq0Ci _)) invr_eq0 pnatr_eq0.
Qed.

(** The assumption on scipy.linalg.qr can be met, together with its specification. *)
Example C74_scipy_qr : qr_spec (@real_qr C) /\
  forall n k (X : 'M[C]_(n, k)), mx_dtype DFloat X -> mx_dtype DFloat (real_qr X).1 /\ mx_dtype DFloat (real_qr X).2.
Proof. by split; [exact: real_qr_spec|exact: real_qr_rl]. Qed.

Lemma scale_honest d (a : C) : has_dtype d a -> honest d (fun x : 'cV[C]_2 => a *: x).
Proof. by move=> ha e x he hx; apply: mdZ => //; apply: hd_le ha. Qed.

Lemma e0_type d : mx_dtype d (e0 C).
Proof. by move=> i j; rewrite mxE; case: (i == 0); [exact: hd1|exact: hd0]. Qed.

Lemma hdn d n : has_dtype d (n%:R : C).
Proof. by elim: n => [|n IH]; [exact: hd0|rewrite mulrS; apply: hdD => //; exact: hd1]. Qed.

(** A system with integer A = [[2,1],[1,2]], M = 5, Ml = 2, b = e0, U = [e0] and a real Minv meets the assumptions of C74_gmres, C74_minres and
    C74_cg, and the arguments are valid for the deflated solvers. *)
Example C74_system : let l := dex_lsys C in
  [/\ ls_types l DInt DInt DInt DInt DFloat DOther, (if lB l is IpCall f then block_types DFloat (IpCall f) else True),
    (if dex_Minv C is Some Mi then honest DFloat Mi /\ dle DFloat DFloat else True), mx_dtype DInt (e0 C) &
    solver_dtype (ls_dtype DInt DInt DInt DInt DFloat DOther) (Some DFloat) (Some DInt) = DFloat] /\
  defl_args (@some_qr C) l (dex_Minv C) false (e0 C) dex_kw.
Proof.
split; last exact: dex_args.
split=> //; last exact: e0_type.
- split=> //=; try exact: (scale_honest (hdn _ _)); last exact: e0_type.
  move=> e x he hx; apply: mdD; first by apply: mdZ => //; exact: hdn.
  exact: (swap_honest he hx).
by split=> //; apply: scale_honest; apply: rl_ge0; rewrite invr_ge0 ler0n.
Qed.
End Refuted.

Print Assumptions C74_qr.
Print Assumptions C74_projection.
Print Assumptions C74_gmres.
Print Assumptions C74_minres.
Print Assumptions C74_cg.
Print Assumptions C74_qr_int_refuted.
Print Assumptions C74_qr_ip_refuted.
Print Assumptions C74_scipy_qr.
Print Assumptions C74_system.
