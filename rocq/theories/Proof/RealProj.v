(** qr, projections and deflated solvers with real data. *)
From mathcomp Require Import all_ssreflect all_algebra perm.
From Verif Require Import Base Spec.LinAlg Spec.Dtype Model.Dtype Proof.Dtype.
From Verif Require Import Model.Inner Model.Arnoldi Model.Solver Model.LinearSystem Model.Krylov Model.Projection Model.Deflation Proof.RealRun.

Set Implicit Arguments.
Unset Strict Implicit.
Unset Printing Implicit Defensive.
Import Order.TTheory GRing.Theory Num.Theory.
Local Open Scope ring_scope.
Local Arguments bind {A B} m f : simpl never.
Local Arguments has_dtype {C} d x : simpl never.
Local Arguments norm {C N} x y B : simpl never.
Local Arguments forn {S} n body s : simpl never.

Section Real.
Variable C : numClosedFieldType.
Local Notation rl := (has_dtype DFloat).
Local Notation rv := (mx_dtype DFloat).

Lemma hd_prod (I : Type) (r : seq I) (P : pred I) (F : I -> C) : (forall i, P i -> rl (F i)) -> rl (\prod_(i <- r | P i) F i).
Proof. by move=> h; elim/big_rec: _ => [|i x hi hx]; [exact: hd1|apply: hdM => //; apply: h]. Qed.

Lemma det_rl n (X : 'M[C]_n) : rv X -> rl (\det X).
Proof.
move=> hX; rewrite /determinant; apply: hd_sum => s _; apply: hdM; last by apply: hd_prod => i _; apply: hX.
by apply: rlX; apply: hdN; exact: hd1.
Qed.

Lemma invmx_rl n (X : 'M[C]_n) : rv X -> rv (invmx X).
Proof.
move=> hX; rewrite /invmx; case: ifP => // _; apply: mdZ; first by apply: rlV; apply: det_rl.
move=> i j; rewrite mxE /cofactor; apply: hdM; first by apply: rlX; apply: hdN; exact: hd1.
by apply: det_rl => a b; rewrite !mxE; apply: hX.
Qed.

Lemma solve_upper_rl k m (R : 'M[C]_k) (b x : 'M[C]_(k, m)) : rv R -> rv b -> solve_upper R b = Ok x -> rv x.
Proof.
move=> hR hb; rewrite /solve_upper; case: ifP => // _ [<-]; apply: mdM => //; apply: invmx_rl => i j; rewrite mxE.
by case: ifP => _; [exact: hR|exact: hd0].
Qed.

Lemma solve_lower_rl k m (R : 'M[C]_k) (b x : 'M[C]_(k, m)) : rv R -> rv b -> solve_lower R b = Ok x -> rv x.
Proof.
move=> hR hb; rewrite /solve_lower; case: ifP => // _ [<-]; apply: mdM => //; apply: invmx_rl => i j; rewrite mxE.
by case: ifP => _; [exact: hR|exact: hd0].
Qed.

Lemma fornE_inv S (P : S -> Prop) n (f : nat -> S -> res S) s s' :
  P s -> (forall i s s', P s -> f i s = Ok s' -> P s') -> fornE n f s = Ok s' -> P s'.
Proof.
move=> h0 h; elim: n s' => [|n IH] s' /=; first by move=> [<-].
by move=> E; have [t Et Es] := bind_ok E; apply: h (IH _ Et) Es.
Qed.

Variable N : nat.
Local Notation vec := 'cV[C]_N.

(** Inner products of blocks *)
Definition ibl (B : ipB C N) : Prop := forall m n (X : 'M[C]_(N, m)) (Y : 'M[C]_(N, n)), rv X -> rv Y -> rv (inner B X Y).

Lemma ibl_bl B : ibl B -> bl B.
Proof. by move=> h x y hx hy; exact: (h 1%N 1%N x y hx hy 0 0). Qed.

Variable sqr : forall n k, 'M[C]_(n, k) -> 'M[C]_(n, k) * 'M[C]_k.
Hypothesis hsqr : forall n k (X : 'M[C]_(n, k)), rv X -> rv (sqr X).1 /\ rv (sqr X).2.

Lemma mgs_rl B k (X : 'M[C]_(N, k)) ro p : bl B -> rv X -> mgs B X ro = Ok p -> rv p.1 /\ rv p.2.
Proof.
move=> hB hX E; have {E} [[Q R] EQ [<-]] := bind_ok E.
pose P (s : (nat -> vec) * (nat -> nat -> C)) := (forall j, rv (s.1 j)) /\ (forall i j, rl (s.2 i j)).
suff [h1 h2] : P (Q, R) by split=> i j; rewrite mxE; [exact: h1|exact: h2].
apply: (fornE_inv _ _ EQ) => [|i s s' hs].
  split=> [j|i j] /=; last exact: hd0.
  rewrite /ncol; case: insub => [j'|]; last exact: md0.
  by move=> a b; rewrite mxE; apply: hX.
rewrite /mgs_col; set q := forn _ _ _; have hq : P q.
  apply: forn_inv => // _ t ht; apply: forn_inv => // j [Q' R'] [/= h1 h2]; split=> /=.
    by apply: upd_rv => //; apply: rvB => //; apply: mdZ => //; apply: hB.
  by apply: upd2_rl => //; apply: hdD => //; apply: hB.
case: q hq => Q' R' [/= h1 h2] E; have {E} [n En [<-]] := bind_ok E; have hn := norm_rl En.
by case: ifP => _; split=> /=; rewrite //; try (by apply: upd2_rl); apply: upd_rv => //; apply: mdZ => //; apply: rlV.
Qed.

Definition obl' (B : option (ipB C N)) : Prop := if B is Some B then ibl B else True.

Lemma qr_rl B k (X : 'M[C]_(N, k)) ro p : obl' B -> rv X -> qr sqr B X ro = Ok p -> rv p.1 /\ rv p.2.
Proof.
rewrite /qr; case: B => [B|] hB hX; first by apply: mgs_rl => //; apply: ibl_bl.
case: ifP => _; first by move=> [<-]; apply: hsqr.
apply: mgs_rl => // x y hx hy; exact: (mdM (rv_tconj hx) hy 0 0).
Qed.

Lemma ibl_arg B : obl' B -> ibl (ip_arg B).
Proof. by case: B => // _ m n X Y hX hY /=; apply: mdM => //; apply: rv_tconj. Qed.

Record pr k (p : proj C N k) : Prop := Pr {
  pr_V : rv (pV p); pr_W : rv (pW p);
  pr_VR : if pVR p is Some R then rv R else True; pr_WR : if pWR p is Some R then rv R else True;
  pr_QR : if pQR p is Some qr then rv qr.1 /\ rv qr.2 else True; pr_B : obl' (pB p) }.

Lemma mk_proj_rl k X Y B orth its (p : proj C N k) : rv X -> (if Y is Some Y then rv Y else True) -> obl' B ->
  mk_proj sqr X Y B orth its = Ok p -> pr p.
Proof.
move=> hX hY hB; rewrite /mk_proj; case: ifP => // _; case: ifP => _; first by move=> [<-]; split=> //=; exact: md0.
move=> E; have {E} [[V VR] EV] := bind_ok E.
have [hV hVR] : rv V /\ (if VR is Some R then rv R else True).
  move: EV; case: (orth); last by move=> [<- <-].
  by move=> E; have {E} [[Q R] EQ [<- <-]] := bind_ok E; have [] := qr_rl hB hX EQ.
case: ifP => _; first by move=> [<-].
have hY' : rv (if Y is Some Y then Y else X) by case: (Y) hY.
move=> E; have {E} [[W WR] EW [<-]] := bind_ok E.
have [hW hWR] : rv W /\ (if WR is Some R then rv R else True).
  move: EW; case: (orth); last by move=> [<- <-].
  by move=> E; have {E} [[Q R] EQ [<- <-]] := bind_ok E; have [] := qr_rl hB hY' EQ.
by split=> //=; apply: hsqr; apply: ibl_arg.
Qed.

Section Apply.
Variables (k : nat) (p : proj C N k).
Hypothesis hp : pr p.

Lemma p_solve_rl m (c x : 'M[C]_(k, m)) : rv c -> p_solve p c = Ok x -> rv x.
Proof.
rewrite /p_solve; case: (hp) => _ _ _ _ + _; case: (pQR p) => [[Q R] [/= h1 h2]|_] hc; last by move=> [<-].
by apply: solve_upper_rl => //; apply: mdM => //; apply: rv_tconj.
Qed.

Lemma p_ip_rl m (a : 'M[C]_(N, m)) : rv a -> rv (inner (ip_arg (pB p)) (pW p) a).
Proof. by case: hp => _ h _ _ _ hB ha; apply: ibl_arg. Qed.

Lemma p_apply1_rl m (a x : 'M[C]_(N, m)) : rv a -> p_apply1 p a = Ok x -> rv x.
Proof.
move=> ha; rewrite /p_apply1; case: ifP => _; first by move=> [<-]; exact: md0.
move=> E; have {E} [c Ec [<-]] := bind_ok E; apply: mdM; first by case: hp.
by apply: p_solve_rl Ec; apply: p_ip_rl.
Qed.

Lemma p_apply_adj1_rl m (a x : 'M[C]_(N, m)) : rv a -> p_apply_adj1 p a = Ok x -> rv x.
Proof.
move=> ha; rewrite /p_apply_adj1; case: ifP => _; first by move=> [<-]; exact: md0.
case: hp => hV hW _ _ hQ hB; have hc := ibl_arg hB hV ha.
move=> E; have {E} [c Ec [<-]] := bind_ok E; apply: mdM => //.
move: Ec hQ; case: (pQR p) => [[Q R]|]; last by move=> [<-].
move=> E; have {E} [t Et [<-]] := bind_ok E => -[/= h1 h2]; apply: mdM => //.
by apply: solve_lower_rl Et => //; apply: rv_tconj.
Qed.

Lemma p_Ya_rl m (a : 'M[C]_(N, m)) : rv a -> rv (p_Ya p a).
Proof.
move=> ha; have h := p_ip_rl ha; rewrite /p_Ya; case: (hp) => _ _ _ + _ _; case: (pWR p) => // WR hW.
by apply: mdM => //; apply: rv_tconj.
Qed.

Lemma p_iter_rl m (f : 'M[C]_(N, m) -> res 'M[C]_(N, m)) a x : (forall a x, rv a -> f a = Ok x -> rv x) -> rv a -> p_iter p f a = Ok x -> rv x.
Proof.
move=> hf ha E; have {E} [y Ey E] := bind_ok E; apply: (fornE_inv _ _ E) => [|i s s' hs]; first exact: hf Ey.
by move=> {}E; have {E} [w Ew [<-]] := bind_ok E; apply: mdD => //; apply: hf Ew; apply: rvB.
Qed.

Lemma p_iterc_rl m (f : 'M[C]_(N, m) -> res 'M[C]_(N, m)) a x : (forall a x, rv a -> f a = Ok x -> rv x) -> rv a -> p_iterc p f a = Ok x -> rv x.
Proof.
move=> hf ha E; have {E} [y Ey E] := bind_ok E; apply: (fornE_inv _ _ E) => [|i s s' hs]; first by apply: rvB => //; exact: hf Ey.
by move=> {}E; have {E} [w Ew [<-]] := bind_ok E; apply: rvB => //; apply: hf Ew.
Qed.

Lemma p_all_rl m (a x : 'M[C]_(N, m)) : rv a -> p_apply p a = Ok x \/ p_apply_adj p a = Ok x \/ p_compl p a = Ok x \/ p_compl_adj p a = Ok x -> rv x.
Proof.
rewrite /p_apply /p_apply_adj /p_compl /p_compl_adj; case: ifP => _ ha.
  by do 3 (case; first by move=> [<-] //; exact: md0); move=> [<-].
have h1 := @p_apply1_rl m; have h2 := @p_apply_adj1_rl m.
by case=> [|[|[]]]; [apply: p_iter_rl|apply: p_iter_rl|apply: p_iterc_rl|apply: p_iterc_rl].
Qed.
End Apply.

Lemma mapcols_rl f k (X : 'M[C]_(N, k)) : fl f -> rv X -> rv (mapcols f X).
Proof. by move=> hf hX i j; rewrite mxE; apply: hf => a b; rewrite mxE. Qed.

Section Deflation.
Variable l : lsys C N.
Hypothesis hA : fl (lA l).
Hypothesis hb : rv (lb l).
Hypothesis hM : ofl (lM l).
Hypothesis hMl : fl (lMl l).
Hypothesis hMr : fl (lMr l).
Hypothesis hB : ibl (lB l).
Variable Minv : option (vec -> vec).
Hypothesis hMi : ofl Minv.

Lemma get_ip_rl B : get_ip_Minv_B l Minv = Ok B -> ibl B.
Proof.
have one : rv (1%:M : 'M[C]_N) by move=> i j; rewrite mxE; case: (i == j); [exact: hd1|exact: hd0].
rewrite /get_ip_Minv_B; case: (lM l) => [M|]; last by move=> [<-].
move: hMi; case: Minv => // Mi hi [<-] m n X Y hX hY; have hop : rv (opmx Mi) by apply: mapcols_rl.
move: hB; case: (lB l) => [_|B'|f] hB'.
- by rewrite /=; case: ifP => _; apply: mdM => //; [apply: rv_tconj; apply: mdM|apply: rv_tconj|apply: mdM].
- have hB2 : rv B'.
    have := hB' N N 1%:M 1%:M one one; rewrite /= ltnn mulmx1 => h.
    by have -> : B' = tconj (1%:M : 'M[C]_N) *m B' by rewrite /tconj trmx1 map_mx1 mul1mx.
  have hop2 : rv (opmx Mi *m B') by apply: mdM.
  by rewrite /=; case: ifP => _; apply: mdM => //; [apply: rv_tconj; apply: mdM|apply: rv_tconj|apply: mdM].
by apply: (hB' m n X (mapcols Mi Y)) => //; apply: mapcols_rl.
Qed.

Lemma mk_oblique_rl same k (U : 'M[C]_(N, k)) kw ob : rv U -> mk_oblique sqr l Minv same U kw = Ok ob ->
  [/\ rv (o_U ob), rv (o_AU ob), pr (o_p ob) & pB (o_p ob) = Some (lB l)].
Proof.
move=> hU E; have {E} [B EB E] := bind_ok E; have {E} [[Q R] EQ E] := bind_ok E.
have {E} [p Ep [<-]] := bind_ok E; have [/= hQ _] := qr_rl (B := Some B) (get_ip_rl EB) hU EQ.
have hAU : rv (mapcols (lMlAMr l) Q) by apply: mapcols_rl => //; apply: lMlAMr_rl.
split=> //=; first by apply: mk_proj_rl Ep => //; case: (same).
move: Ep; rewrite /mk_proj; case: ifP => // _; case: ifP => _; first by move=> [<-].
move=> E; have {E} [[V VR] EV] := bind_ok E; case: ifP => _; first by move=> [<-].
by move=> E; have {E} [[W WR] EW [<-]] := bind_ok E.
Qed.

Variables (k : nat) (ob : obl C N k).
Hypothesis hob : pr (o_p ob).

Lemma d_op_rl : fl (d_op l ob).
Proof.
move=> x hx; rewrite /d_op; case E: p_compl => [w|]; last exact: md0.
by apply: (p_all_rl hob (lMlAMr_rl hA hMl hMr hx)); right; right; left; exact: E.
Qed.

Lemma o_correct_rl x y : rv x -> o_correct l ob x = Ok y -> rv y.
Proof.
move=> hx E; have {E} [c Ec E] := bind_ok E; have {E} [c' Ec' [<-]] := bind_ok E.
case: (hob) => hV hW hVR hWR hQ _.
have hr : rv (lMl l (lb l - lA l x)) by apply: hMl; apply: rvB => //; apply: hA.
have hc : rv c by apply: (p_solve_rl hob _ Ec); apply: hB.
apply: mdD => //; apply: mdM => //.
move: Ec'; case: (p_same _); first by move=> [<-].
case: (pVR _) hVR => // VR hVR; case: (pWR _) hWR => // WR hWR E; have {E} [t Et [<-]] := bind_ok E.
by apply: mdM => //; apply: solve_upper_rl Et.
Qed.

Lemma d_Mlr_rl x0 : (if x0 is Some x then rv x else True) -> rv (d_Mlr l x0).
Proof. by case: x0 => [x|] hx; apply: hMl => //; apply: rvB => //; apply: hA. Qed.

Lemma d_res0_rl x0 t : (if x0 is Some x then rv x else True) -> d_res0 l ob x0 = Ok t -> [/\ rv t.1.1, rv t.1.2 & rl t.2].
Proof.
move=> hx E; have {E} [P EP E] := bind_ok E; have {E} [n En [<-]] := bind_ok E.
have hP : rv P by apply: (p_all_rl hob (d_Mlr_rl hx)); right; right; left; exact: EP.
by split=> //=; [apply: lMop_rl|exact: norm_rl En].
Qed.

Lemma d_UAv_rl v : rv v -> rv (d_UAv l ob v).
Proof. by move=> hv; apply: p_Ya_rl => //; apply: lMlAMr_rl. Qed.

Lemma d_E_rl : rv (d_E ob).
Proof.
case: (hob) => hV hW hVR hWR hQ _; rewrite /d_E.
set E := if pQR _ is Some _ then _ else _; have hE : rv E.
  rewrite /E; move: hQ; case: (pQR _) => [[Q R] [/= h1 h2]|_]; first exact: mdM.
  by move=> i j; rewrite mxE; case: (i == j); [exact: hd1|exact: hd0].
case: (pVR _) hVR => // VR hVR; case: (pWR _) hWR => // WR hWR.
by apply: mdM; [apply: rv_tconj|apply: mdM].
Qed.
End Deflation.

(** The deflated solvers *)
Section Solvers.
Variable l : lsys C N.
Hypothesis hA : fl (lA l).
Hypothesis hb : rv (lb l).
Hypothesis hM : ofl (lM l).
Hypothesis hMl : fl (lMl l).
Hypothesis hMr : fl (lMr l).
Hypothesis hB : ibl (lB l).
Variable Minv : option (vec -> vec).
Hypothesis hMi : ofl Minv.
Variables (same : bool) (k : nat) (U : 'M[C]_(N, k)) (kw : pkwargs).
Hypothesis hU : rv U.
Variables (o : opts C) (x0 : option vec).
Hypothesis h0 : if x0 is Some x then rv x else True.
Variable snorm : nat -> nat -> (nat -> nat -> C) -> C.

Definition cols_rl (Cs : seq 'cV[C]_k) : Prop := forall i, rv (nth 0 Cs i).

Lemma cols_nil : cols_rl [::]. Proof. by move=> i; rewrite nth_nil; exact: md0. Qed.
Lemma cols_rcons Cs c : cols_rl Cs -> rv c -> cols_rl (rcons Cs c).
Proof. by move=> h hc i; rewrite nth_rcons; case: ifP => _ //; case: ifP => _ //; exact: md0. Qed.
Lemma cols_cons Cs c : cols_rl Cs -> rv c -> cols_rl (c :: Cs).
Proof. by move=> h hc [|i] /=. Qed.

Lemma defl_gmres_rl ortho : match deflated_gmres sqr snorm l Minv same U kw o ortho x0 with
  | Returns s | NoConvergence s => (gmr (s_st s).1 /\ cols_rl (s_st s).2) /\ exists2 x, s_xk s = Some x & rv x
  | Raises _ => True end.
Proof.
rewrite /deflated_gmres; case Eb: (lMMlb_norm l) => [bn|//]; rewrite [bindO (Ok _) _]/=.
case Eo: (mk_oblique _ _ _ _ _ _) => [ob|//]; rewrite [bindO (Ok _) _]/=; have hbn := norm_rl Eb.
have [_ _ hob _] := mk_oblique_rl hA hMl hMr hB hMi hU Eo.
have ha := d_op_rl hA hMl hMr hob; have hr z t := @d_res0_rl l hA hb hM hMl k ob hob z t.
have hc := o_correct_rl hA hb hMl hB hob; have hbl := ibl_bl hB.
apply: (@krun_inv _ _ (lsys_sys l bn) o (d_gmres snorm l ob (o_maxiter o) ortho) (fun t => gmr t.1 /\ cols_rl t.2) (fun x => rv x) (fun r => rl r)) => //=.
- exact: md0.
- move=> x x' t hx hx' E; have [t' Et [<-]] := bind_ok E; split=> /=; last exact: cols_nil.
  exact: gmres_start_rl Et.
- move=> [t Cs] p [/= ht hCs] E; have [[t' r] Et [<-]] := bind_ok E; split=> /=; first exact: (gmres_step_rl _ _ _ ht Et).
  by apply: cols_rcons => //; apply: d_UAv_rl => //; case: ht => _ [].
- by move=> t x [ht _]; apply: gmres_getx_rl.
exact: resnorm_rl.
Qed.

Lemma defl_minres_rl ortho : match deflated_minres sqr snorm l Minv same U kw o ortho x0 with
  | Returns s | NoConvergence s => (mrr (s_st s).1 /\ cols_rl (s_st s).2) /\ exists2 x, s_xk s = Some x & rv x
  | Raises _ => True end.
Proof.
rewrite /deflated_minres; case Eb: (lMMlb_norm l) => [bn|//]; rewrite [bindO (Ok _) _]/=.
case Eo: (mk_oblique _ _ _ _ _ _) => [ob|//]; rewrite [bindO (Ok _) _]/=; have hbn := norm_rl Eb.
have [_ _ hob _] := mk_oblique_rl hA hMl hMr hB hMi hU Eo.
have ha := d_op_rl hA hMl hMr hob; have hr z t := @d_res0_rl l hA hb hM hMl k ob hob z t.
have hc := o_correct_rl hA hb hMl hB hob; have hbl := ibl_bl hB.
apply: (@krun_inv _ _ (lsys_sys l bn) o (d_minres snorm l ob (o_maxiter o) ortho) (fun t => mrr t.1 /\ cols_rl t.2) (fun x => rv x) (fun r => rl r)) => //=.
- exact: md0.
- move=> x x' t hx hx' E; have [t' Et [<-]] := bind_ok E; split=> /=; last exact: cols_nil.
  exact: minres_start_rl Et.
- move=> [t Cs] p [/= ht hCs] E; have [[t' r] Et [<-]] := bind_ok E; split=> /=; first exact: (minres_step_rl _ _ _ ht Et).
  by apply: cols_rcons => //; apply: d_UAv_rl => //; case: ht => _ [].
- by move=> t x [ht _] E; exact: (@minres_getx_rl _ _ (d_kdata l ob) hMr hc t.1 x ht E).
exact: resnorm_rl.
Qed.

Lemma cg_log_rl ob t lg : pr (o_p ob) -> cgr t -> cols_rl lg.1 -> cols_rl lg.2 ->
  cols_rl (cg_log l (k := k) ob t lg).1 /\ cols_rl (cg_log l ob t lg).2.
Proof.
move=> hob ht; case: lg => UAps Cs /= h1 h2; have rho i : 0 <= nth 0 (cg_rhos t) i by case: ht.
have q i j : rl (nth 0 (cg_rhos t) i / nth 0 (cg_rhos t) j) by apply: rl_ge0; rewrite divr_ge0.
have hp : rv (cg_nextp t) by rewrite /cg_nextp; case: ifP => _; case: ht => // *; apply: mdD => //; apply: mdZ => //; apply: q.
have g1 : cols_rl (d_UAv l ob (cg_nextp t) :: UAps) by apply: cols_cons => //; apply: d_UAv_rl.
split=> //; apply: cols_cons => //.
have i1 (b : bool) (x y : 'cV[C]_k) : rv x -> rv y -> rv (if b then x else y) by case: b.
have ua i : rv (nth 0 UAps i) by exact: (g1 i.+1).
have u0 : rv (d_UAv l ob (cg_nextp t)) by exact: (g1 0%N).
have ho : rl (1 + nth 0 (cg_rhos t) 0 / nth 0 (cg_rhos t) 1) by apply: hdD; [exact: hd1|exact: q].
have sg : rl ((-1) ^+ cg_it t / sqrtC (nth 0 (cg_rhos t) 0)).
  by apply: hdM; [apply: rlX; apply: hdN; exact: hd1|apply: rlV; apply: rl_sqrt].
have sq : rl (sqrtC (nth 0 (cg_rhos t) 1 / nth 0 (cg_rhos t) 0)) by apply: rl_sqrt; rewrite divr_ge0.
have k0 : rv (if (0 < cg_it t)%N then d_UAv l ob (cg_nextp t) - (1 + nth 0 (cg_rhos t) 0 / nth 0 (cg_rhos t) 1) *: nth 0 UAps 0 else d_UAv l ob (cg_nextp t)).
  by apply: i1 => //; apply: rvB => //; apply: mdZ.
set c1 := (if (1 < _)%N then _ else _); have k1 : rv c1 by apply: i1 => //; apply: mdD => //; apply: mdZ.
by apply: i1; [apply: rvB; [apply: mdZ|apply: mdZ => //; exact: h2]|apply: mdZ].
Qed.

Lemma defl_cg_rl store : match deflated_cg sqr l Minv same U kw o store x0 with
  | Returns s | NoConvergence s => [/\ cgr (s_st s).1, cols_rl (s_st s).2.1 & cols_rl (s_st s).2.2] /\ exists2 x, s_xk s = Some x & rv x
  | Raises _ => True end.
Proof.
rewrite /deflated_cg; case Eb: (lMMlb_norm l) => [bn|//]; rewrite [bindO (Ok _) _]/=.
case Eo: (mk_oblique _ _ _ _ _ _) => [ob|//]; rewrite [bindO (Ok _) _]/=; have hbn := norm_rl Eb.
have [_ _ hob _] := mk_oblique_rl hA hMl hMr hB hMi hU Eo.
have ha := d_op_rl hA hMl hMr hob; have hr z t := @d_res0_rl l hA hb hM hMl k ob hob z t.
have hc := o_correct_rl hA hb hMl hB hob; have hbl := ibl_bl hB.
apply: (@krun_inv _ _ (lsys_sys l bn) o (d_cg l ob store) (fun t => [/\ cgr t.1, cols_rl t.2.1 & cols_rl t.2.2]) (fun x => rv x) (fun r => rl r)) => //=.
- exact: md0.
- move=> x x' t hx hx' E; have [t' Et [<-]] := bind_ok E; split=> /=; [|exact: cols_nil|exact: cols_nil].
  exact: cg_start_rl Et.
- move=> [t lg] p [/= ht h1 h2] E; have [[t' r] Et [<-]] := bind_ok E.
  have [g1 g2] := cg_log_rl hob ht h1 h2; split=> //=; exact: (cg_step_rl (d := d_kdata l ob) ha hM hbl ht Et).
- by move=> t r hrr [h1 h2 h3]; split=> //; apply: cg_feed_rl.
- by move=> t x [ht _ _] E; exact: (@cg_getx_rl _ _ (d_kdata l ob) hMr hc t.1 x ht E).
exact: resnorm_rl.
Qed.
End Solvers.
End Real.
