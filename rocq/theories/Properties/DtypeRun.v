(** C73: the numbers that Arnoldi and the solvers store have the dtype of the arrays. *)
From mathcomp Require Import all_ssreflect all_algebra ring zify.
From Verif Require Import Base Spec.LinAlg Proof.Algebra Spec.Dtype Model.LinearOperator Model.Dtype Proof.Dtype.
From Verif Require Import Model.Inner Spec.Inner Proof.Inner Proof.IpTheory Model.Arnoldi Proof.ArnoldiExample Model.Solver Model.LinearSystem Model.Krylov Proof.RealRun.

Set Implicit Arguments.
Unset Strict Implicit.
Unset Printing Implicit Defensive.
Import Order.TTheory GRing.Theory Num.Theory.
Local Open Scope ring_scope.

Local Arguments bind {A B} m f : simpl never.
Local Arguments norm {C N} x y B : simpl never.
Local Arguments forn {S} n body s : simpl nomatch.

Section Types.
Variable C : numClosedFieldType.
Variable N : nat.
Local Notation vec := 'cV[C]_N.
Variable snorm : nat -> nat -> (nat -> nat -> C) -> C.

(** The inner product of two columns of type d is of type d. *)
Definition ip_types (d : dtype) (B : ipB C N) : Prop :=
  forall x y, mx_dtype d x -> mx_dtype d y -> has_dtype d (ip1 B x y).

(** An optional operator with its type; without operator the argument is None. *)
Definition op_types (M : option (vec -> vec)) (dM : dobj) : Prop :=
  if M is Some M then exists2 d, dM = DObj d & honest d M else dM = DOther.

Lemma honest_fl d (f : vec -> vec) : honest d f -> dle d DFloat -> fl f.
Proof. by move=> h hd x; apply: h. Qed.

Lemma mx_le d e m n (X : 'M[C]_(m, n)) : dle d e -> mx_dtype d X -> mx_dtype e X.
Proof. by move=> h hX i j; apply: hd_le h (hX i j). Qed.

Lemma hdC (x : C) : has_dtype DCplx x. Proof. by []. Qed.
Lemma mdC m n (X : 'M[C]_(m, n)) : mx_dtype DCplx X. Proof. by []. Qed.

(** The entries of V, P and H that Arnoldi computes are numbers of the type Arnoldi.dtype, unless that is int64.  The inner product is
    assumed to be one of this type, too, since Arnoldi.dtype does not depend on ip_B. *)
Theorem C73_arnoldi (c : acfg C N) (v : vec) Mv nr n a a' dA dv dM : let dt := arn_dtype (DObj dA) (DObj dv) dM in
  dt <> DInt -> honest dA (cA c) -> op_types (cM c) dM -> mx_dtype dv v -> ip_types dt (cB c) ->
  (if Mv is Some w then mx_dtype dt w else True) -> (if nr is Some r then has_dtype DFloat r else True) ->
  arn_init c v Mv nr = Ok a -> arn_advance_n snorm c n a = Ok a' ->
  [/\ forall j, mx_dtype dt (a_V a' j), forall j, mx_dtype dt (a_P a' j) & forall i j, has_dtype dt (a_H a' i j)].
Proof.
move=> dt dI hA hM hv hB hMv hnr Ea En.
have hc : forall e, dle dt e = dle dA e && (dle dv e && (if dM is DObj d then dle d e else true)).
  by move=> e; rewrite /dt /arn_dtype /find_common_dtype; case: (dM) => [d|] /=; rewrite !djoinE ?andbT ?andbA.
case: dt dI hB hMv hc => // _ hB hMv hc.
have := hc DFloat; rewrite /= => /esym/and3P[lA lv lM].
have hMf : ofl (cM c) by move: hM; case: (cM c) => // M [d e /honest_fl h]; apply: h; move: lM; rewrite e.
have hAf := honest_fl hA lA.
have ha : ar a by apply: arn_init_rl Ea => //; apply: mx_le hv.
suff [h1 h2 h3 _ _] : ar a' by split.
elim: n a' En => [|n IH] a' /=; first by move=> [<-].
by move=> E; have [b Eb Ea'] := bind_ok E; apply: advance_rl Ea' => //; apply: IH.
Qed.

(** The types of the data of a linear system: A, b, M, Ml, Mr as in linsys.py 69-84 (None has become an identity operator of type
    float64), and ip_B.  If ip_B is a function, then its values for real columns are real. *)
Record ls_types (l : lsys C N) (dA db dM dMl dMr : dtype) (dB : dobj) : Prop := LsTypes {
  lt_A : honest dA (lA l); lt_b : mx_dtype db (lb l); lt_Ml : honest dMl (lMl l); lt_Mr : honest dMr (lMr l);
  lt_M : if lM l is Some M then honest dM M else dM = DFloat;
  lt_B : match lB l with
         | IpNone => dB = DOther
         | IpOp B => exists2 d, dB = DObj d & mx_dtype d B
         | IpCall f => dB = DOther /\ ip_types DFloat (IpCall f)
         end }.

(** The initial guess x0 *)
Definition x0_types (x0 : option vec) (dx : dtype) : Prop := if x0 is Some x then mx_dtype dx x else dx = DFloat.

Variables (l : lsys C N) (dA db dM dMl dMr : dtype) (dB : dobj) (x0 : option vec) (dx : dtype) (dtype_arg : option dtype) (o : opts C).
Hypothesis hl : ls_types l dA db dM dMl dMr dB.
Hypothesis hx : x0_types x0 dx.
Local Notation dt := (solver_dtype (ls_dtype dA db dM dMl dMr dB) (Some dx) dtype_arg).

(** s is the solver object of a run that returned or raised ConvergenceError. *)
Definition is_run T (oo : outcome C vec T) (s : sol C vec T) : Prop := oo = Returns s \/ oo = NoConvergence s.

Lemma lenE : dt <> DInt -> dt <> DCplx -> dt = DFloat.
Proof. by case: dt. Qed.

Lemma reals : dt = DFloat -> [/\ fl (lA l), mx_dtype DFloat (lb l), ofl (lM l), fl (lMl l) & [/\ fl (lMr l), bl (lB l) & (if x0 is Some x then mx_dtype DFloat x else True)]].
Proof.
move=> e; have := dle_refl dt; rewrite {2}e /solver_dtype /ls_dtype /find_common_dtype.
set ls := find_common_type (pmap _ _); have hls : dle ls DFloat -> [/\ dle dA DFloat, dle db DFloat, dle dM DFloat, dle dMl DFloat & dle dMr DFloat /\ (if dB is DObj d then dle d DFloat else true)].
  by rewrite /ls /find_common_type; case: (dB) => [d|] /=; rewrite !djoinE -!andbA => /and5P[-> -> -> ->]; [case/andP=> ->|].
have -> : dle (find_common_type [:: Some ls; Some dx; dtype_arg]) DFloat = [&& dle ls DFloat, dle dx DFloat & dle (if dtype_arg is Some d then d else DFloat) DFloat].
  by rewrite /find_common_type /= !djoinE andbA.
case/and3P => /hls[qA qb qM qMl [qMr qB]] qx _; case: hl => h1 h2 h3 h4 h5 h6.
split; [exact: honest_fl h1 qA|exact: mx_le h2| |exact: honest_fl h3 qMl|split; first exact: honest_fl h4 qMr].
- by move: h5; case: (lM l) => // M h; apply: honest_fl h qM.
- move: h6 => {h1 h2 h3 h4 h5}; case: (lB l) => [_|B [d eB hB]|f [_ h]] x y hx' hy; last exact: h.
    exact: (mdM (rv_tconj hx') hy 0 0).
  have hBr : mx_dtype DFloat B by apply: mx_le hB; move: qB; rewrite eB.
  exact: (mdM (rv_tconj hx') (mdM hBr hy) 0 0).
by move: hx; rewrite /x0_types; case: x0 => // x; apply: mx_le.
Qed.

Lemma some_xk (m : method C vec) bn s : is_run (krun (lsys_sys l bn) o m x0) s -> exists x, s_xk s = Some x.
Proof.
have := @krun_inv _ _ (lsys_sys l bn) o m (fun _ => True) (fun _ => True) (fun _ => True) I.
by move=> h []e; move: (h ltac:(by []) ltac:(by []) ltac:(by []) ltac:(by []) ltac:(by []) x0); rewrite e => h'; (case: h'; first by case: (x0)) => _ [x ? _]; exists x.
Qed.

(** The arrays R, y of Gmres, its approximate solution and the Arnoldi relation are of type solver.dtype. *)
Theorem C73_gmres ortho s : dt <> DInt -> is_run (gmres_solve snorm l o ortho x0) s ->
  let t := s_st s in
  [/\ forall i j, has_dtype dt (gm_R t i j), forall i, has_dtype dt (gm_y t i), exists2 x, s_xk s = Some x & mx_dtype dt x,
    forall j, mx_dtype dt (a_V (gm_a t) j) /\ mx_dtype dt (a_P (gm_a t) j) & forall i j, has_dtype dt (a_H (gm_a t) i j)].
Proof.
move=> dI; case Ed: dt dI => // _ hs.
  have [h1 h2 h3 h4 [h5 h6 h7]] := reals Ed; have h := gmres_rl h1 h2 h3 h4 h5 h6 o h7 snorm ortho.
  by case: hs h => -> [[_ [g1 g2 g3 _ _] _ g4 g5] g6]; split=> //; split.
have [x Ex] : exists x, s_xk s = Some x; last by split=> *; try exact: hdC; [exists x|split].
by move: hs; rewrite /gmres_solve; case: (lMMlb_norm l) => [bn|e []//]; exact: (@some_xk (gmres snorm (kdata_lsys l bn) (o_maxiter o) ortho) bn s).
Qed.

(** Minres: the columns of W, y, yk *)
Theorem C73_minres ortho s : dt <> DInt -> is_run (minres_solve snorm l o ortho x0) s ->
  let t := s_st s in
  [/\ mx_dtype dt (mr_W0 t) /\ mx_dtype dt (mr_W1 t), has_dtype dt (mr_y t) /\ mx_dtype dt (mr_yk t), exists2 x, s_xk s = Some x & mx_dtype dt x,
    forall j, mx_dtype dt (a_V (mr_a t) j) /\ mx_dtype dt (a_P (mr_a t) j) & forall i j, has_dtype dt (a_H (mr_a t) i j)].
Proof.
move=> dI; case Ed: dt dI => // _ hs.
  have [h1 h2 h3 h4 [h5 h6 h7]] := reals Ed; have h := minres_rl h1 h2 h3 h4 h5 h6 o h7 snorm ortho.
  by case: hs h => -> [[_ [g1 g2 g3 _ _] g4 g5 g6 _ _ g7] g8]; split=> //; split.
have [x Ex] : exists x, s_xk s = Some x; last by split=> *; try exact: hdC; [split|split|exists x|split].
by move: hs; rewrite /minres_solve; case: (lMMlb_norm l) => [bn|e []//]; exact: (@some_xk (minres snorm (kdata_lsys l bn) (o_maxiter o) ortho) bn s).
Qed.

(** Cg: yk, the residuals, the search direction, and with store_arnoldi the Lanczos relation *)
Theorem C73_cg store s : dt <> DInt -> is_run (cg_solve l o store x0) s ->
  let t := s_st s in
  [/\ [/\ mx_dtype dt (cg_yk t), mx_dtype dt (cg_Mlr t), mx_dtype dt (cg_MMlr t) & mx_dtype dt (cg_p t)],
    forall i, has_dtype dt (nth 0 (cg_rhos t) i), exists2 x, s_xk s = Some x & mx_dtype dt x,
    forall j, mx_dtype dt (cg_V t j) /\ mx_dtype dt (cg_P t j) & forall i j, has_dtype dt (cg_H t i j)].
Proof.
move=> dI; case Ed: dt dI => // _ hs.
  have [h1 h2 h3 h4 [h5 h6 h7]] := reals Ed; have h := cg_rl h1 h2 h3 h4 h5 h6 o h7 store.
  by case: hs h => -> [[_ g1 g2 g3 g4 g5 g6 g7 g8 _] g9]; split=> //; move=> i; exact: (rl_ge0 (g5 i)).
have [x Ex] : exists x, s_xk s = Some x; last by split=> *; try exact: hdC; [split|exists x|split].
by move: hs; rewrite /cg_solve; case: (lMMlb_norm l) => [bn|e []//]; exact: (@some_xk (cg (kdata_lsys l bn) store) bn s).
Qed.
End Types.

Section Refuted.
Variable C : numClosedFieldType.

Lemma swap_honest d : honest d (@swap_op C).
Proof.
move=> e x _ hx; apply: mdM => // i j; rewrite mxE.
by case: (i != j); [exact: hd1|exact: hd0].
Qed.

Lemma vec2 (x y : 'cV[C]_2) : x 0 0 = y 0 0 -> x 1 0 = y 1 0 -> x = y.
Proof. by move=> h0 h1; apply/matrixP => i j; rewrite ord1; case: i => [[|[|]]] // ?; [move: h0|move: h1]; congr (_ = _); congr (_ _ _); apply: val_inj. Qed.

(** The positive definite matrix [[1, i/2], [-i/2, 1]] *)
Definition iB : 'M[C]_2 := \matrix_(i, j) (if i == j then 1 else if i == 0 then 'i / 2%:R else - ('i / 2%:R)).

Lemma ii4 : 'i / 2%:R * ('i / 2%:R) = - 4%:R^-1 :> C.
Proof. by rewrite mulrACA -expr2 sqrCi -invfM -natrM mulN1r. Qed.
Lemma ci2 : ('i / 2%:R)^* = - ('i / 2%:R) :> C.
Proof. by rewrite rmorphM /= conjCi fmorphV rmorph_nat mulNr. Qed.

Lemma iBx (x y : 'cV[C]_2) : (x^h *m iB *m y) 0 0 = (x 0 0)^* * (y 0 0 + 'i / 2%:R * y 1 0) + (x 1 0)^* * (y 1 0 - 'i / 2%:R * y 0 0).
Proof.
have e : lift ord0 ord0 = 1 :> 'I_2 by apply: val_inj.
have e0 : ord0 = 0 :> 'I_2 by apply: val_inj.
rewrite -mulmxA mxE !big_ord_recl big_ord0 addr0 e e0 !ctrE; congr (_ * _ + _ * _).
  by rewrite !mxE !big_ord_recl big_ord0 addr0 e e0 !mxE /= mul1r.
by rewrite !mxE !big_ord_recl big_ord0 addr0 e e0 !mxE /= mul1r mulNr addrC.
Qed.

Lemma iBxx (x : 'cV[C]_2) : (x^h *m iB *m x) 0 0 = `|x 0 0 + 'i / 2%:R * x 1 0| ^+ 2 + 3%:R / 4%:R * `|x 1 0| ^+ 2.
Proof.
rewrite iBx !normCK rmorphD rmorphM /= ci2; set h := 'i / 2%:R.
have hh : h * h = - 4%:R^-1 := ii4.
have n4 : 4%:R != 0 :> C by rewrite pnatr_eq0.
have -> : 3%:R / 4%:R = 1 + h * h :> C by rewrite hh; field.
ring.
Qed.

Lemma iB_valid : valid_ip (IpOp iB).
Proof.
split.
  apply/matrixP => i j; rewrite ctrE !mxE.
  by case: i => [[|[|]]] // ?; case: j => [[|[|]]] // ?; rewrite /= ?conjC1 // ?rmorphN /= ci2 ?opprK.
move=> x x0; rewrite iBxx.
set u := `|_| ^+ 2; set w := _ * _; have u0 : 0 <= u by rewrite exprn_ge0.
have w0 : 0 <= w by apply: mulr_ge0; [apply: divr_ge0; rewrite ler0n|apply: exprn_ge0].
rewrite lt_def (addr_ge0 u0 w0) andbT; apply: contra x0; rewrite (paddr_eq0 u0 w0) /u /w => /andP[].
have n34 : 3%:R / 4%:R != 0 :> C by rewrite mulf_neq0 ?invr_eq0 ?pnatr_eq0.
rewrite (mulf_eq0 (3%:R / 4%:R)) (negbTE n34) !expf_eq0 /= !normr_eq0 => h0 /eqP h1.
by move: h0; rewrite h1 mulr0 addr0 => /eqP h0; apply/eqP; apply: vec2; rewrite mxE.
Qed.

(** Arnoldi.dtype ignores ip_B: for a real matrix, a real vector and a complex Hermitian positive definite ip_B it is float64, but H[0, 0] is not
    real. *)
Theorem C73_ip_refuted (snorm : nat -> nat -> (nat -> nat -> C) -> C) : (forall H : nat -> nat -> C, H 0%N 0%N != 0 -> snorm 2%N 1%N H != 0) ->
  let c := ACfg (@swap_op C) None (IpOp iB) Mgs 2 in
  [/\ arn_dtype (DObj DFloat) (DObj DFloat) DOther = DFloat, honest DFloat (cA c), mx_dtype DFloat (e0 C), valid_ip (cB c) &
    exists a a', [/\ arn_init c (e0 C) None None = Ok a, advance snorm c a = Ok a' & ~ has_dtype DFloat (a_H a' 0%N 0%N)]].
Proof.
move=> hs c; split=> //.
- exact: swap_honest.
- by move=> i j; rewrite mxE; case: (i == 0); [exact: hd1|exact: hd0].
- exact: iB_valid.
have n0 : norm (e0 C) None (IpOp iB) = Ok 1.
  rewrite norm_ip; last exact: iB_valid.
  by rewrite /ipnorm ip1E ?iBx ?mxE /=; [rewrite conjC1 conjC0 mulr0 addr0 mul0r addr0 mulr1 sqrtC1|exact: iB_valid].
have i0 : exists a, [/\ arn_init c (e0 C) None None = Ok a, a_iter a = 0%N, a_inv a = false, a_V a 0%N = e0 C & a_H a = fun _ _ => 0].
  rewrite /arn_init /= /init_gs /= n0 /bind /= ltr01; eexists; split; [reflexivity| | | |] => //=.
  by rewrite /upd eqxx invr1 scale1r.
have [a [Ea a1 a2 a3 a4]] := i0.
have al : ip1 (IpOp iB) (e0 C) (swap_op (e0 C)) = 'i / 2%:R.
  by rewrite swap_e0 ip1E ?iBx ?mxE /=; [rewrite conjC1 conjC0 mul0r addr0 mul1r add0r mulr1|exact: iB_valid].
set z : 'cV[C]_2 := e1 C - ('i / 2%:R) *: e0 C.
have [nz [En nz0]] : exists nz, norm z None (IpOp iB) = Ok nz /\ nz != 0.
  exists (ipnorm (ip1 (IpOp iB)) z); split; first by apply: norm_ip; exact: iB_valid.
  rewrite (ipnorm_eq0 (valid_is_ip iB_valid)); apply/eqP => /matrixP/(_ 1 0)/eqP.
  by rewrite !mxE /= mulr0 subr0 oner_eq0.
have [a' Ea' ha'] : exists2 a', advance snorm c a = Ok a' & a_H a' 0%N 0%N = 'i / 2%:R; last first.
  exists a, a'; split=> //; rewrite ha' => /CrealP; rewrite ci2 => /eqP.
  by rewrite -subr_eq0 -opprD oppr_eq0 -mulr2n mulrn_eq0 /= mulf_eq0 (negbTE (neq0Ci _)) invr_eq0 pnatr_eq0.
rewrite /advance a2 a1 /= /advance_gs a1 a3 a4 /= !addn0 !a3 al /sub_basis /= a3 swap_e0 add0r.
rewrite -/z En [bind (Ok _) _]/bind /invariant_test; set H := upd2 (upd2 _ _ _ _) _ _ _.
have H0 : H 0%N 0%N = 'i / 2%:R by rewrite /H /upd2.
have H1 : H 1%N 0%N = nz by rewrite /H /upd2.
have -> : (snorm 2%N 1%N H == 0) = false.
  by apply/negbTE; apply: hs; rewrite H0 mulf_neq0 ?neq0Ci ?invr_eq0 ?pnatr_eq0.
rewrite [bind (Ok _) _]/bind H1 (negbTE nz0).
by case: ifP => _; eexists; try reflexivity.
Qed.

(** For integer data without preconditioner (or with an integer preconditioner) Arnoldi.dtype is int64, but the first basis vector is not integer. *)
Theorem C73_int_refuted (M : option ('cV[C]_2 -> 'cV[C]_2)) dM : M = None /\ dM = DOther \/ M = Some id /\ dM = DObj DInt ->
  let c := ACfg (@swap_op C) M IpNone Mgs 2 in let v := const_mx 1 : 'cV[C]_2 in
  [/\ arn_dtype (DObj DInt) (DObj DInt) dM = DInt, honest DInt (cA c), op_types M dM, mx_dtype DInt v &
    exists a, arn_init c v None None = Ok a /\ ~ mx_dtype DInt (a_V a 0%N)].
Proof.
move=> hM c v; split.
- by case: hM => -[_ ->].
- exact: swap_honest.
- by case: hM => -[-> ->] //; exists DInt.
- by move=> i j; rewrite mxE; exact: hd1.
have s2 : ip1 IpNone v v = 2%:R.
  by rewrite /ip1 /= !mxE !big_ord_recl big_ord0 !mxE conjC1 !mulr1 addr0.
have n0 y : (if y is Some y then y = v else True) -> norm v y IpNone = Ok (sqrtC 2%:R).
  move=> hy; have e : ip1 IpNone v (if y is Some y then y else v) = 2%:R by case: y hy => [y ->|_].
  by rewrite norm_real_nonneg e ?ler0n.
have p2 : 0 < sqrtC 2%:R :> C by rewrite sqrtC_gt0 ltr0n.
exists (Arn 0 (upd (fun _ => 0) 0 ((sqrtC 2%:R)^-1 *: v)) (if M is Some _ then upd (fun _ => 0) 0 ((sqrtC 2%:R)^-1 *: v) else fun _ => 0) (fun _ _ => 0) false (sqrtC 2%:R) [::]).
split; first by rewrite /c; case: hM => -[-> _]; rewrite /arn_init /= /init_gs /= n0 // /bind /= !p2.
move=> /(_ 0 0); rewrite /= /upd eqxx !mxE mulr1 => -[z e].
have : (2%:R * z%:~R * z%:~R = 1 :> C) by rewrite -e -mulrA -expr2 exprVn sqrtCK divff // pnatr_eq0.
rewrite -[2%:R]/(2%:Z%:~R) -!intrM -[1]/(1%:~R) => /intr_inj.
by case: z {e} => n; lia.
Qed.

(** An invertible real example for C73_arnoldi: Arnoldi for the swap matrix *)
Example C73_example : let c := ACfg (@swap_op C) None IpNone Mgs 2 in
  [/\ arn_dtype (DObj DInt) (DObj DFloat) DOther = DFloat, honest DInt (cA c), op_types (cM c) DOther, mx_dtype DFloat (e0 C) & ip_types DFloat (cB c)].
Proof.
split=> //; first exact: swap_honest.
- by move=> i j; rewrite mxE; case: (i == 0); [exact: hd1|exact: hd0].
by move=> x y hx hy; exact: (mdM (rv_tconj hx) hy 0 0).
Qed.

(** And for the solvers: A = [[0, 1], [1, 0]] given as integers, b = e0 *)
Example C73_system : let l := LSys (@swap_op C) (e0 C) None id id IpNone None in
  ls_types l DInt DInt DFloat DFloat DFloat DOther /\ solver_dtype (ls_dtype DInt DInt DFloat DFloat DFloat DOther) (Some DFloat) None = DFloat.
Proof.
split=> //; split=> //=; first exact: swap_honest.
by move=> i j; rewrite mxE; case: (i == 0); [exact: hd1|exact: hd0].
Qed.
End Refuted.

Print Assumptions C73_arnoldi.
Print Assumptions C73_gmres.
Print Assumptions C73_minres.
Print Assumptions C73_cg.
Print Assumptions C73_ip_refuted.
Print Assumptions C73_int_refuted.
Print Assumptions C73_example.
Print Assumptions C73_system.
