(** C31: deflation.Ritz computes Ritz pairs of M Ml A Mr with respect to the sum of the
    Krylov space and the deflation space. *)
From mathcomp Require Import all_ssreflect all_algebra ring.
From Verif Require Import Base Spec.LinAlg Proof.Algebra Model.Ritz Spec.Ritz Proof.Ritz Model.Inner Spec.Inner Proof.Inner Proof.IpTheory.
From Verif Require Import Model.Arnoldi Spec.Arnoldi Proof.Arnoldi Proof.ArnoldiRel Proof.ArnoldiAll Proof.ArnoldiExample Model.Solver Model.LinearSystem Model.Krylov Spec.Krylov.
From Verif Require Import Spec.Solver Proof.Solver Proof.SolverInv Proof.Gmres Proof.Minres Proof.LinearSystem Proof.CgTheory Proof.Cg Proof.Logged.
From Verif Require Import Model.Projection Spec.Projection Model.Deflation Spec.Deflation.
From Verif Require Import Proof.Qr Proof.QrExist Proof.Projection Proof.Deflation Model.DeflRitz Spec.DeflRitz Proof.DeflRitz Proof.DeflRel.
From Verif Require Properties.Solver Properties.Deflation.

Set Implicit Arguments.
Unset Strict Implicit.
Unset Printing Implicit Defensive.
Import Order.TTheory GRing.Theory Num.Theory.
Local Open Scope ring_scope.

Local Arguments norm : simpl never.

(** Reading guide.  [b] are the attributes H, V, C and B_ of the deflated solver, [ob] is its
    projection with U and E; [defl_rel] (Spec/DeflRitz.v) are the relations between them, which the
    runs of the deflated solvers satisfy (C31_gmres, C31_minres, C31_cg below).  Bm is the
    inner product <x, M^-1 y>. *)
Section Ritz.
Variable C : numClosedFieldType.
Variable N : nat.
Local Notation vec := 'cV[C]_N.
Variables eig eigh : forall n, 'M[C]_n -> ('I_n -> C) * 'M[C]_n.
Variables geig geigh : forall n, 'M[C]_n -> 'M[C]_n -> ('I_n -> C) * 'M[C]_n.
Variables (l : lsys C N) (m : nat) (ob : obl C N m) (n_ n : nat) (b : byprod C N n_ n m) (hn : (n <= n_)%N).
Variables (Bm : ipB C N) (W : 'M[C]_(N, n)) (sa : bool).
Local Notation A := (lMlAMr l).
Local Notation M := (lMop l).
Local Notation U := (o_U ob).
Local Notation V := (bp_V b).
Local Notation MA := (fun x => M (A x)).
Hypothesis hr : defl_rel (lB l) Bm A M hn V U (bp_H b) (d_E ob) (bp_C b) (bp_B b) W.
Hypothesis hAU : o_AU ob = imcols A U.
Hypothesis nm : (0 < n + m)%N.
Local Notation X := (row_mx (firstn hn V) U).
Local Notation S := (in_cols (firstn hn V) U).
Local Notation ip := (ip1 Bm).
Local Notation run := (mk_dritz eig eigh geig geigh l sa ob b).
(** The matrix of the compression of M Ml A Mr to the space, and the Gram matrix of the
    image of the space. *)
Local Notation T := (inner Bm X (imcols MA X)).
Local Notation G := (inner Bm (imcols MA X) (imcols MA X)).
Local Notation ev := ((if sa then @eigh (n + m) else @eig (n + m)) T).
Local Notation gev := ((if sa then @geigh (n + m) else @geig (n + m)) T^h G).

Let hBm := dr_Bm hr.
Let hip := valid_is_ip hBm.
Let nm0 : (n + m == 0)%N = false. Proof. by case: (n + m)%N nm. Qed.

Theorem C31_bad_mode : run DmOther = Err ArgumentError.
Proof. by rewrite /mk_dritz nm0 (EinvCE hr). Qed.

Let unitv y : ipnorm (@ipE C (n + m)) y = 1 -> ipnorm ip (X *m y) = 1.
Proof. by move=> h; rewrite (nrmX hr). Qed.

Let in_S y : S (X *m y).
Proof. by exists (usubmx y), (dsubmx y); rewrite -mul_row_col vsubmxK. Qed.

Let nz (x : vec) : ipnorm ip x = 1 -> x != 0.
Proof. by move=> h; rewrite -(ipnorm_eq0 hip) h oner_eq0. Qed.

Theorem C31_ritz : geig_ok T 1%:M ev ->
  exists2 z, run DmRitz = Ok z & forall i, exists t,
    [/\ dz_values z i = Some t, ritz_pair MA ip S S t (dvec ob b z i) & ipnorm ip (dvec ob b z i) = 1].
Proof.
move=> he; rewrite /mk_dritz nm0 (EinvCE hr) /= (dME hr).
case eev: ev he => [th Y] /= he; eexists; first by [].
move=> i; exists (th i); have [h1 h2] := he i.
have z1 : ipnorm ip (X *m col i (normalise Y)) = 1 by apply: unitv; exact: normalise_unit.
rewrite /dvec /= (dbasisE ob b hn); split=> //; split=> //; first exact: nz.
apply: (orthX hr); apply: (ritzX hr); rewrite -(gramMA hr) normaliseE -scalemxAr h1 mul1mx.
by rewrite scalerA mulrC -scalerA.
Qed.

Theorem C31_harmonic : W = 0 -> geig_ok T^h G gev ->
  exists2 z, run DmHarmonic = Ok z & forall i,
    [/\ ipnorm ip (dvec ob b z i) = 1,
        dz_values z i = None -> `|gev.1 i| < 2%:R ^- 52
      & forall t, dz_values z i = Some t ->
         t != 0 /\ ritz_pair MA ip S (fun y => exists2 x, S x & y = MA x) t (dvec ob b z i)].
Proof.
move=> W0 he; rewrite /mk_dritz nm0 (EinvCE hr) /= (dME hr) (dLE hr hAU W0) tconjE.
case eev: gev he => [th Y] /= he; eexists; first by [].
move=> i; have [h1 h2] := he i.
have z1 : ipnorm ip (X *m col i (normalise Y)) = 1 by apply: unitv; exact: normalise_unit.
rewrite /dvec /= (dbasisE ob b hn); split=> //; first by case: ifP.
move=> t; case: ifP => // /negbT; rewrite -real_leNgt ?normr_real ?ger0_real ?invr_ge0 ?exprn_ge0 ?ler0n // => hs [<-].
have s0 : th i != 0.
  by apply: contraTneq hs => ->; rewrite normr0 lt_geF // /feps invr_gt0 exprn_gt0 ?ltr0n.
split; first by rewrite invr_eq0.
split=> //; first exact: nz.
move=> y [x [a [c ->]] ->]; rewrite -mul_row_col -(imcols_vec (MA_lin hr)) ip1X innerMl //.
rewrite -(imcols_vec (MA_lin hr)) innerBr // innerZr // !innerMr // (innerC hBm X).
rewrite normaliseE -!scalemxAr h1 [_^-1 *: (_ *: (_ *: _))]scalerA mulrC -scalerA [(th i)^-1 *: _]scalerA.
by rewrite mulVf // scale1r subrr mulmx0 mxE.
Qed.

(** The residual norms.  Partial: they are the norms of the residuals if E is Hermitian, for
    instance if Ml A Mr is self-adjoint (C31_selfadjoint), and if the Arnoldi relation
    holds without remainder.  See C31_resnorm_refuted for other E. *)
Theorem C31_resnorm_partial mode z i t : (d_E ob)^h = d_E ob -> W = 0 ->
  run mode = Ok z -> dz_values z i = Some t ->
  dz_resnorms z i = Some (ipnorm ip (MA (dvec ob b z i) - t *: dvec ob b z i)).
Proof.
move=> sE W0; rewrite /mk_dritz nm0 (EinvCE hr) /= => E.
have [[vals Y] _ [<-]] := bind_ok E => /= ->; congr Some.
by rewrite /dvec /= (dbasisE ob b hn) (dresnormE hr).
Qed.

Theorem C31_selfadjoint : self_adjoint (ip1 (lB l)) A -> (d_E ob)^h = d_E ob.
Proof.
move=> hsa; rewrite (dr_E hr) -(innerC (dr_B hr)); apply/matrixP => i j; rewrite !(inner_entry (dr_B hr)).
have e p (Y : 'M[C]_(N, p)) k : col k (imcols A Y) = A (col k Y) by apply/matrixP => s t; rewrite !mxE ord1.
by rewrite !e hsa.
Qed.

(** get_explicit_residual() without indices, and get_explicit_resnorms() without a
    preconditioner M. *)
Theorem C31_explicit_residual z : (forall i, dz_values z i != None) ->
  dexplicit l ob b z None =
    Ok [seq Some (A (dvec ob b z i) - odflt 0 (dz_values z i) *: dvec ob b z i) | i <- enum 'I_(n + m)].
Proof.
move=> hv; rewrite /dexplicit /= !size_map eqxx zip_map -map_comp; congr Ok; apply: eq_map => i /=.
by case: (dz_values z i) (hv i).
Qed.

Theorem C31_explicit_resnorms z mode : lM l = None -> Bm = lB l -> (d_E ob)^h = d_E ob -> W = 0 ->
  run mode = Ok z -> (forall i, dz_values z i != None) ->
  dexplicit_norms l ob b z None = Ok [seq Ok (dz_resnorms z i) | i <- enum 'I_(n + m)].
Proof.
move=> hM eB sE W0 E hv; rewrite /dexplicit_norms C31_explicit_residual //=; congr Ok.
rewrite -map_comp; apply: eq_map => i /=; case ez: (dz_values z i) (hv i) => [t|] //= _.
rewrite (C31_resnorm_partial sE W0 E ez) -eB /lMop hM /=.
by rewrite (@norm_real_nonneg _ _ _ (Some _)) //; apply: (ip_ge0' hip).
Qed.
End Ritz.

(** The attributes of the deflated solvers satisfy the relations, and the space is
    K_n(M P Ml A Mr, M P r0) + span U. *)
Section Runs.
Variable C : numClosedFieldType.
Variable sqr : forall n k, 'M[C]_(n, k) -> 'M[C]_(n, k) * 'M[C]_k.
Hypothesis hsqr : qr_spec sqr.
Variable N k : nat.
Local Notation vec := 'cV[C]_N.
Variable l : lsys C N.
Hypothesis hl : lsys_ok l.
Variables (Minv : option (vec -> vec)) (same : bool) (U : 'M[C]_(N, k)) (kw : pkwargs).
Hypothesis ha : defl_args sqr l Minv same U kw.
Local Notation A := (lMlAMr l).
Local Notation M := (lMop l).
Local Notation P := (defl_P (lB l) A U).
Variables (snorm : nat -> nat -> (nat -> nat -> C) -> C).
Variables (o : opts C) (ortho : ortho_t) (x0 : option vec) (fl : bool).
(** get_ip_Minv_B yields the inner product <x, M^-1 y> (C43), with respect to which U is
    separated. *)
Variable Bm : ipB C N.
Hypothesis eBm : get_ip_Minv_B l Minv = Ok Bm.
Hypothesis vBm : valid_ip Bm.
Hypothesis hadj : forall x y, ip1 Bm x (M y) = ip1 (lB l) x y.
Hypothesis hsep : separated (ip1 Bm) (eps15 C) U.
Hypothesis hfl : fl -> self_adjoint (ip1 (lB l)) A.
Hypothesis hMr : forall c, lMr l (U *m c) = U *m c.
Hypothesis nb : lMl l (lb l) <> 0.
Variable ob : obl C N k.
Hypothesis hob : mk_oblique sqr l Minv same U kw = Ok ob.
Local Notation r0 := (resid l (x0_of x0)).
Local Notation K := (in_krylov (fun v => P (A v)) M (P r0)).

Definition rel_ok n_ n (b : byprod C N n_ n k) (exact : Prop) : Prop :=
  exists (hn : (n <= n_)%N) W,
  [/\ defl_rel (lB l) Bm A M hn (bp_V b) (o_U ob) (bp_H b) (d_E ob) (bp_C b) (bp_B b) W,
      o_AU ob = imcols A (o_U ob), exact -> W = 0,
      forall i : 'I_n_, i = 0%N :> nat -> M (P r0) = ipnorm (mip (ip1 (lB l)) M) (P r0) *: col i (bp_V b)
    & forall w, in_cols (firstn hn (bp_V b)) (o_U ob) w <-> exists z c, K n z /\ w = z + U *m c].

Let bn : y_bnorm (lsys_sys l (rhs_norm l)) != 0.
Proof. by move/eqP: nb => nb'; rewrite /= rhs_norm_eq0. Qed.

Let dlin : is_linear (d_op l ob).
Proof. by move=> a x y; rewrite !(d_opE hsqr hl ha hob) (dop_lin hl ob). Qed.

Let rowsE (a : arn C N) : arn_rows a = ncols a.
Proof. by rewrite /arn_rows /arn_get /ncols; case: (a_inv a); rewrite /= ?addn0 ?addn1. Qed.

Let gen_rel n n_ V P' H Cs : (n <= n_)%N -> (n_ <= n.+1)%N ->
  arnoldi_rel (ip1 (lB l)) (d_op l ob) M (Pd l ob r0) n n_ V P' H -> ((0 < n_)%N -> Pd l ob r0 != 0) ->
  (n_ = n.+1 \/ n_ = n /\ ((0 < n)%N \/ Pd l ob r0 = 0)) ->
  (forall j, (j < n)%N -> nth 0 Cs j = inner (lB l) (o_U ob) (A (V j))) ->
  rel_ok (mk_byprod l fl ob n_ n V H Cs) (n_ = n.+1 \/ (0 < n)%N && (H n n.-1 == 0) \/ n = 0%N).
Proof.
move=> hn hn1 R nr hm hC; have [eA _ _] := oblE ha hob.
have kV := krylov_V (valid_is_ip (lo_B hl)) dlin (lo_M hl) (lo_Msa hl) (lo_Mpd hl) R.
exists hn, (remW l ob V H Cs fl hn); split=> //.
- exact: (byprod_rel hsqr hl ha hob eBm vBm hadj hsep hn hn1 R nr hC hfl).
- exact: (remW0 hsqr hl ha hob fl hn R hC).
- move=> i i0; have n0 : (0 < n_)%N by rewrite -i0.
  rewrite -(PdE hl ha hob) {1}(ar_first R n0) (linZ (lo_M hl)) -(ar_V R n0); congr (_ *: _).
  by apply/matrixP => s t; rewrite !mxE i0 ord1.
move=> w; rewrite (cols_span (l := l) ha hob V H Cs fl hn w).
have kE z : in_span V n z <-> K n z.
  by rewrite -(KPE hsqr hl ha hob x0 n z) kV // => n0; apply: nr; apply: leq_trans n0 hn.
by split=> -[z [c [/kE h e]]]; exists z, c.
Qed.

Let arn_rel a P' Cs : arnoldi_rel (ip1 (lB l)) (d_op l ob) M (Pd l ob r0) (a_iter a) (ncols a) (a_V a) P' (a_H a) ->
  ((0 < a_iter a)%N -> Pd l ob r0 != 0) -> (a_iter a = 0%N -> a_inv a = (Pd l ob r0 == 0)) ->
  (forall j, (j < a_iter a)%N -> nth 0 Cs j = inner (lB l) (o_U ob) (A (a_V a j))) ->
  rel_ok (arn_byprod l fl ob a Cs) (a_inv a = false \/ a_H a (a_iter a) (a_iter a).-1 = 0).
Proof.
move=> R h1 h2 hC; rewrite -rowsE in R.
have rE : arn_rows a = if a_inv a then a_iter a else (a_iter a).+1 by rewrite /arn_rows /arn_get; case: (a_inv a).
have [||||hn [W [g1 g2 g3 g4 g5]]] := gen_rel _ _ R _ _ hC.
- by rewrite rE; case: ifP.
- by rewrite rE; case: ifP.
- case: (posnP (a_iter a)) => [i0|/h1 //]; rewrite rE i0 h2 //.
  by case: eqP.
- rewrite rE; case: (boolP (a_inv a)) => hi; [right; split=> //|by left].
  case: (posnP (a_iter a)) => i0; [right|by left].
  by apply/eqP; rewrite -h2.
exists hn, W; split=> // he; apply: g3; case: (posnP (a_iter a)) => i0; first by right; right.
case: he => [he|/eqP->]; last by right; left.
by left; rewrite rE he.
Qed.

(** What this gives for the Ritz and the harmonic Ritz pairs. *)
Variables eig eigh : forall n, 'M[C]_n -> ('I_n -> C) * 'M[C]_n.
Variables geig geigh : forall n, 'M[C]_n -> 'M[C]_n -> ('I_n -> C) * 'M[C]_n.
Hypothesis he : forall n (X : 'M[C]_n), geig_ok X 1%:M (eig X).
Hypothesis heh : forall n (X : 'M[C]_n), X^h = X -> geig_ok X 1%:M (eigh X).
Local Notation S n := (fun w => exists z c, K n z /\ w = z + U *m c).
Local Notation MA := (fun x => M (A x)).

Definition ritz_ok n_ n (b : byprod C N n_ n k) : Prop :=
  (0 < n + k)%N -> exists2 z, mk_dritz eig eigh geig geigh l fl ob b DmRitz = Ok z & forall i, exists t,
    [/\ dz_values z i = Some t, ritz_pair MA (ip1 Bm) (S n) (S n) t (dvec ob b z i)
      & ipnorm (ip1 Bm) (dvec ob b z i) = 1].

Theorem C31_attributes n_ n (b : byprod C N n_ n k) ex : rel_ok b ex -> ritz_ok b.
Proof.
move=> [hn [W [hr _ _ _ hS]]] nk.
have hT : geig_ok (inner Bm (row_mx (firstn hn (bp_V b)) (o_U ob)) (imcols MA (row_mx (firstn hn (bp_V b)) (o_U ob)))) 1%:M
    ((if fl then @eigh (n + k)%N else @eig (n + k)%N)
       (inner Bm (row_mx (firstn hn (bp_V b)) (o_U ob)) (imcols MA (row_mx (firstn hn (bp_V b)) (o_U ob))))).
  case: fl hfl => [/(_ isT) sa|_]; last exact: he.
  apply: heh; apply/matrixP => i j; rewrite ctrE !(inner_entry vBm).
  have e t : col t (imcols MA (row_mx (firstn hn (bp_V b)) (o_U ob))) = MA (col t (row_mx (firstn hn (bp_V b)) (o_U ob))).
    by apply/matrixP => s q; rewrite !mxE ord1.
  by rewrite !e !hadj -(ip_conj (valid_is_ip (lo_B hl))) sa.
have [z Ez hz] := C31_ritz geig geigh hr nk hT; exists z => // i; have [t [h1 [h2 h3 h4] h5]] := hz i.
exists t; split=> //; split=> //; first exact/hS.
by move=> y /hS; apply: h4.
Qed.

Theorem C31_gmres s : ortho_ok l ortho ->
  of_run (deflated_gmres sqr snorm l Minv same U kw o ortho x0) s ->
  let a := gm_a (s_st s).1 in
  rel_ok (arn_byprod l fl ob a (s_st s).2) (a_inv a = false \/ a_H a (a_iter a) (a_iter a).-1 = 0).
Proof.
move=> ho hs a; have [c1 c2] := Properties.Deflation.C30_gmres_C hsqr hl ha hMr ho nb hob hs.
move: hs; rewrite /deflated_gmres (bnorm_ok hl) /= hob /= => hs0.
have hs := @unlog_of C N _ (gmres snorm (d_kdata l ob) (o_maxiter o) ortho) _ _ _ _ _ s hs0.
have [hi _ _ _] := gmres_run (defl_kd hsqr hl ha hob hMr x0) (defl_cfg hsqr hl ha hob _ ho) bn hs.
apply: (arn_rel (gm_hm hi)) => //; first exact: gi_nz hi.
exact: gi_z hi.
Qed.
Theorem C31_minres s : ortho_ok l ortho -> self_adjoint (ip1 (lB l)) A ->
  of_run (deflated_minres sqr snorm l Minv same U kw o ortho x0) s ->
  let a := mr_a (s_st s).1 in
  rel_ok (arn_byprod l fl ob a (s_st s).2) (a_inv a = false \/ a_H a (a_iter a) (a_iter a).-1 = 0).
Proof.
move=> ho sa hs a; have [c1 c2] := Properties.Deflation.C30_minres_C hsqr hl ha hMr ho sa nb hob hs.
move: hs; rewrite /deflated_minres (bnorm_ok hl) /= hob /= => hs0.
have hs := @unlog_of C N _ (minres snorm (d_kdata l ob) (o_maxiter o) ortho) _ _ _ _ _ s hs0.
have sa' : self_adjoint (ip1 (k_B (d_kdata l ob))) (k_A (d_kdata l ob)).
  by move=> u v /=; rewrite !(d_opE hsqr hl ha hob); apply: (dop_sa hl ha hob).
have [[G [R [Y [z hi]]]] _ _ _] := minres_run (defl_kd hsqr hl ha hob hMr x0) (defl_cfg hsqr hl ha hob _ ho) sa' bn hs.
apply: (arn_rel (ma_hm (mi_a hi))) => //; first exact: (ma_nz (mi_a hi)).
exact: (ma_z (mi_a hi)).
Qed.

(** CG with store_arnoldi=True.  If the projected initial residual is zero, then V is a zero
    column and not orthonormal. *)
Theorem C31_cg s : self_adjoint (ip1 (lB l)) A -> pos_def (ip1 (lB l)) A -> P r0 <> 0 ->
  deflated_cg sqr l Minv same U kw o true x0 = Returns s ->
  let t := (s_st s).1 in
  rel_ok (mk_byprod l fl ob (cg_it t).+1 (cg_it t) (cg_V t) (cg_H t) (rev (s_st s).2.2)) True.
Proof.
move=> sa pd nr0 hs t; have hs' : of_run (deflated_cg sqr l Minv same U kw o true x0) s by left.
have [_ hC] := Properties.Deflation.C30_cg_C hsqr hl ha hMr sa pd nb hob hs'.
move: hs'; rewrite /deflated_cg (bnorm_ok hl) /= hob /= => hs0.
have hs2 := @unlog_of C N _ (cg (d_kdata l ob) true) _ _ _ _ _ s hs0.
have hd := defl_kd hsqr hl ha hob hMr x0; have sp := d_op_spd hsqr hl ha hob x0 sa pd.
have [h1 _ _ _] := cg_run hd sp bn hs2.
have [w1 w2 w3 w4 w5] := ci_st h1 isT.
have nz : Pd l ob r0 != 0 by rewrite (PdE hl ha hob); apply/eqP.
have nzt j : (j <= cg_it t)%N -> cr (ip1 (lB l)) (d_op l ob) M (Pd l ob r0) j != 0.
  rewrite leq_eqVlt => /orP[/eqP->|]; last exact: (ci_nz h1).
  by case: (posnP (cg_it t)) => [->//|]; apply: w1.
have R := cg_lanczos (valid_is_ip (lo_B hl)) dlin (lo_M hl) (lo_Msa hl) (lo_Mpd hl) sp
  (n := cg_it t) (fun j hj => nzt j (ltnW hj)) (nzt _ (leqnn _)).
have R' := arnoldi_rel_ext (leqnSn _) R (fun j hj => w3 j hj (nzt j hj)) (fun j _ => erefl) w5.
have [||hn [W [g1 g2 g3 g4 g5]]] := gen_rel (leqnSn _) (leqnn _) R' _ _ hC; [by []|by left|].
by exists hn, W; split=> // _; apply: g3; left.
Qed.
End Runs.

(** The get_vectors selection is not applied to the values: get_explicit_residual(indices)
    raises ValueError unless one or all pairs are selected. *)
Theorem C31_explicit_indices_refuted (C : numClosedFieldType) N (l : lsys C N) m (ob : obl C N m) n_ n
    (b : byprod C N n_ n m) z q : all (fun i => i < n + m)%N q ->
  size q <> 1%N -> size q <> (n + m)%N -> (n + m)%N <> 1%N ->
  dexplicit l ob b z (Some q) = Err ValueError.
Proof.
move=> hq /eqP q1 /eqP q2 /eqP q3; rewrite /dexplicit /= hq /bind /= !size_map -!enumT !size_enum_ord.
by rewrite (negbTE q1) (negbTE q2) (negbTE q3).
Qed.

(** Refutations with a single vector, before the first step. *)
Section Refuted.
Variable C : numClosedFieldType.
Local Notation hq := (@some_qr_spec C).
Let hip1 := valid_is_ip (B := @IpNone C 1) I.

Definition one_lsys (a : C) (M : option ('cV[C]_1 -> 'cV[C]_1)) : lsys C 1 :=
  LSys (fun x => a *: x) 1%:M M id id IpNone None.

Let i1 : ip1 (@IpNone C 1) 1%:M 1%:M = 1.
Proof. by rewrite /ip1 /= tconjE ctr1 mul1mx mxE. Qed.

Lemma eig1 (e : C) (r : ('I_(0 + 1) -> C) * 'M[C]_(0 + 1)) : geig_ok e%:M 1%:M r -> forall i, r.1 i = e.
Proof.
move=> h i; have [h1 h2] := h i; move: h1; rewrite mul1mx mul_scalar_mx => /eqP.
by rewrite -subr_eq0 -scalerBl scaler_eq0 (negbTE h2) orbF subr_eq0 => /eqP.
Qed.

Definition byprod0 (l : lsys C 1) (ob : obl C 1 1) := mk_byprod l false ob 0 0 (fun _ => 0) (fun _ _ => 0) [::].

Lemma byprod0_rel l Minv U ob Bm : lsys_ok l -> defl_args (@some_qr C) l Minv false U Properties.Deflation.dex_kw ->
  mk_oblique (@some_qr C) l Minv false U Properties.Deflation.dex_kw = Ok ob -> get_ip_Minv_B l Minv = Ok Bm -> valid_ip Bm ->
  (forall x y, ip1 Bm x (lMop l y) = ip1 (lB l) x y) -> separated (ip1 Bm) (eps15 C) U ->
  defl_rel (lB l) Bm (lMlAMr l) (lMop l) (leqnn 0) (bp_V (byprod0 l ob)) (o_U ob) (bp_H (byprod0 l ob))
    (d_E ob) (bp_C (byprod0 l ob)) (bp_B (byprod0 l ob)) 0.
Proof.
move=> hl ha hob eB vB hadj hsep.
have := byprod_rel hq hl ha hob eB vB hadj hsep (leqnn 0) (isT : 0 <= 1)%N (V := fun _ => 0) (P := fun _ => 0)
  (H := fun _ _ => 0) (r := 0) (Cs := [::]) (fl := false).
by rewrite [remW _ _ _ _ _ _ _]thinmx0; apply=> //; split.
Qed.

Lemma dres0 l ob X mu (y : 'cV[C]_(0 + 1)) e f t : d_E ob = e%:M -> dF l ob = f%:M -> dsubmx y = t%:M ->
  dresnorm l ob (byprod0 l ob) X mu y =
    sqrtC `|t^* * (f * t - e * (mu * t)) - (mu * t)^* * (e^* * t - mu * t)|.
Proof.
move=> eE eF ey; rewrite /dresnorm; congr (sqrtC `|_|).
have eG : dG (byprod0 l ob) X mu *m y = col_mx (col_mx 0 t%:M) (- (mu * t)%:M).
  rewrite /dG -{1}[y]vsubmxK ey [usubmx y]flatmx0 mul_col_mx mul_block_col mul_row_col !mulmx0 !add0r eye1.
  by rewrite mul1mx mulNmx -scalemxAl mul1mx scale_scalar_mx [X in col_mx X t%:M]flatmx0.
have cs (a : C) : (a%:M : 'M[C]_1)^h = (a^*)%:M by apply/matrixP => i j; rewrite !ord1 ctrE !mxE.
rewrite eG /dS eE eF !mul_block_col !mul_col_mx !mul_row_col !mulmx0 !add0r ?addr0 !tconjE eye1 mul1mx.
rewrite add_col_mx !ctr_col_mx !mul_row_col ctrN !cs ctr0 mul0mx add0r !mulmxN -!scalar_mxM -!raddfN /=.
by rewrite -!raddfD /= -!scalar_mxM -raddfD /= mxE eqxx mulr1n rmorphN mulNr.
Qed.

(** The residual norm is wrong if E is not Hermitian: A = i, b = 1, U = [1].  The Ritz pair
    is an eigenpair, and the attribute resnorms is 2. *)
Theorem C31_resnorm_refuted eig eigh geig geigh :
  (forall n (A : 'M[C]_n), geig_ok A 1%:M (eig n A)) ->
  exists (l : lsys C 1) (ob : obl C 1 1) z t i,
  [/\ lsys_ok l /\ defl_args (@some_qr C) l None false 1%:M Properties.Deflation.dex_kw,
      mk_oblique (@some_qr C) l None false 1%:M Properties.Deflation.dex_kw = Ok ob,
      mk_dritz eig eigh geig geigh l false ob (byprod0 l ob) DmRitz = Ok z,
      dz_values z i = Some t /\ lMop l (lMlAMr l (dvec ob (byprod0 l ob) z i)) = t *: dvec ob (byprod0 l ob) z i
    & dz_resnorms z i = Some 2%:R].
Proof.
move=> he; pose l := one_lsys 'i None.
have ok : lsys_ok l.
  split=> //=; first by move=> a x y; rewrite scalerDr !scalerA mulrC.
  by move=> x nx; apply: ip_pos.
have n15 : eps15 C <= 1 by rewrite -(sqrtC1 C); apply: Properties.Deflation.eps_sqrt; rewrite invf_le1 ?ltr0n // ler1n.
have args : defl_args (@some_qr C) l None false 1%:M Properties.Deflation.dex_kw.
  apply: (Properties.Deflation.defl_args1 (B := IpNone) hq) => //=.
  - by rewrite /ipnorm i1 sqrtC1.
  - move=> v e; rewrite /ipnorm /lMlAMr /= (ipZl hip1) (ipZr hip1) e sqrtC1 mulr1 conjCi mulNr -expr2 sqrCi opprK.
    by rewrite sqrtC1.
  by rewrite /lMlAMr /= (ipZr hip1) i1 mulr1 neq0Ci.
have [ob hob] := oblique_total hq ok args.
have sep : separated (ip1 (@IpNone C 1)) (eps15 C) (1%:M : 'cV[C]_1).
  move=> i c; rewrite big_pred0; last by move=> j; rewrite !ord1.
  by rewrite subr0 ord1 col_id /ipnorm i1 sqrtC1.
have hr := byprod0_rel ok args hob erefl I (fun x y => erefl) sep.
have sc (X : 'M[C]_1) : X = (X 0 0)%:M by apply/matrixP => i j; rewrite !ord1 mxE eqxx.
have iE (Y : 'cV[C]_1) : imcols (lMlAMr l) Y = 'i *: Y by apply/matrixP => i j; rewrite !mxE !ord1.
have [eA _ _] := oblE args hob.
have UU := dr_UU hr; have hB : valid_ip (@IpNone C 1) by [].
have eE : d_E ob = 'i%:M by rewrite (dr_E hr) iE (innerZr hB) UU scale_scalar_mx mulr1.
have ii : 'i^* * 'i = 1 :> C by rewrite conjCi mulNr -expr2 sqrCi opprK.
have eF : dF l ob = 1%:M.
  rewrite /dF (_ : o_MAU l ob = o_AU ob); last by apply/matrixP => i j; rewrite /o_MAU /lMop mxE /= mxE.
  by rewrite eA iE /= tconjE ctrZ -scalemxAl -scalemxAr scalerA ii scale1r -tconjE -[RHS]UU.
have TE : inner IpNone (row_mx (firstn (leqnn 0) (bp_V (byprod0 l ob))) (o_U ob))
    (imcols (fun x => lMop l (lMlAMr l x)) (row_mx (firstn (leqnn 0) (bp_V (byprod0 l ob))) (o_U ob))) = 'i%:M.
  rewrite (_ : imcols _ _ = 'i *: row_mx (firstn (leqnn 0) (bp_V (byprod0 l ob))) (o_U ob)).
    by rewrite (innerZr hB) (gramX hr) scalemx1.
  by apply/matrixP => i j; rewrite !mxE !ord1.
case ee: (eig (0 + 1)%N ('i%:M)) => [th Y].
have := he (0 + 1)%N 'i%:M; rewrite ee => hY; have /= th_i := eig1 hY.
have E : mk_dritz eig eigh geig geigh l false ob (byprod0 l ob) DmRitz =
    Ok (DRitz (fun i => Some (th i)) (normalise Y)
         (fun i => Some (dresnorm l ob (byprod0 l ob) (invmx (d_E ob) *m bp_C (byprod0 l ob)) (th i) (col i (normalise Y))))).
  by rewrite /mk_dritz (EinvCE hr) /= (dME hr) TE ee.
exists l, ob; eexists; exists 'i, ord0; split=> //; first exact: E.
- by rewrite /= th_i; split=> //; rewrite /dvec /=; move: (dbasis _ _ *m _) => w.
rewrite /= th_i; congr Some.
set y := col _ _; have y1 : ipnorm (@ipE C (0 + 1)) y = 1 by apply: normalise_unit; have [] := hY ord0.
rewrite (dres0 _ _ (t := y ord0 0) eE eF); last first.
  by apply/matrixP => i j; rewrite !ord1 !mxE eqxx; congr (Y _ _ / _); apply: val_inj.
have tt : (y ord0 0)^* * y ord0 0 = 1.
  move: y1; rewrite /ipnorm /ipE mxE big_ord1 ctrE => h.
  by rewrite -[LHS]sqrtCK h expr1n.
move: (y ord0 0) tt => t tt; rewrite (_ : _ - _ = 4%:R).
  by rewrite normr_nat (_ : 4%:R = 2%:R ^+ 2 :> C) ?sqrCK ?ler0n // -natrX.
have i2 : 'i * 'i = -1 :> C by rewrite -expr2 sqrCi.
rewrite rmorphM /= conjCi.
transitivity ((t^* * t) * (1 - 'i * 'i - 2%:R * ('i * 'i))); first by ring.
by rewrite tt i2; ring.
Qed.

(** get_explicit_resnorms is wrong with a preconditioner: A = 1, M = 2, b = 1, U = [1].  The
    Ritz pair is an eigenpair of M A with eigenvalue 2 and the attribute resnorms is 0; the
    explicit residual does not apply M and its norm is not 0. *)
Theorem C31_explicit_resnorm_refuted eig eigh geig geigh :
  (forall n (A : 'M[C]_n), geig_ok A 1%:M (eig n A)) ->
  exists (l : lsys C 1) Mi (ob : obl C 1 1) z c,
  [/\ lsys_ok l /\ defl_args (@some_qr C) l (Some Mi) false 1%:M Properties.Deflation.dex_kw,
      mk_oblique (@some_qr C) l (Some Mi) false 1%:M Properties.Deflation.dex_kw = Ok ob,
      mk_dritz eig eigh geig geigh l false ob (byprod0 l ob) DmRitz = Ok z,
      dz_resnorms z ord0 = Some 0
    & dexplicit_norms l ob (byprod0 l ob) z None = Ok [:: Ok (Some c)] /\ c <> 0].
Proof.
have h2 : 2%:R != 0 :> C by rewrite pnatr_eq0.
move=> he; pose l := one_lsys 1 (Some (fun x => 2%:R *: x)); pose Mi := fun x : 'cV[C]_1 => 2%:R^-1 *: x.
have lin2 (a : C) : is_linear (fun x : 'cV[C]_1 => a *: x) by move=> c x y; rewrite scalerDr !scalerA mulrC.
have ok : lsys_ok l.
  split=> //=; try exact: lin2.
  - by move=> x y; rewrite /lMop /= (ipZl hip1) (ipZr hip1) conjC_nat.
  - by move=> x nx; rewrite /lMop /= (ipZr hip1) mulr_gt0 ?ltr0n //; apply: ip_pos.
have [|||B eB [vB hB]] := @Properties.Deflation.C43_Minv_inner_product C 1 l _ Mi ok erefl.
- by move=> x; rewrite /Mi scalerA mulVf // scale1r.
- by move=> x; rewrite /Mi scalerA divff // scale1r.
- by [].
have eBn v : ip1 B v v = 2%:R^-1 * ip1 (@IpNone C 1) v v by have [_ ->] := hB v v; rewrite (ipZr hip1).
have n15 : eps15 C <= ipnorm (ip1 B) 1%:M.
  apply: Properties.Deflation.eps_sqrt.
  by rewrite eBn i1 mulr1 lef_pinv ?posrE ?ltr0n // ler_nat.
have args : defl_args (@some_qr C) l (Some Mi) false 1%:M Properties.Deflation.dex_kw.
  apply: (Properties.Deflation.defl_args1 hq _ eB vB) => //=.
  - move=> v; rewrite eBn => e; have ev : ip1 (@IpNone C 1) v v = 2%:R.
      by apply: (mulfI (invr_neq0 h2)); rewrite e mulVf.
    rewrite /ipnorm /lMlAMr /= scale1r ev; suff h : eps15 C <= sqrtC 2%:R by [].
    by apply: Properties.Deflation.eps_sqrt; rewrite (le_trans _ (_ : 1 <= _)) ?ler1n // invf_le1 ?ltr0n // ler1n.
  by rewrite /lMlAMr /= scale1r i1 oner_eq0.
have [ob hob] := oblique_total hq ok args.
have sep : separated (ip1 B) (eps15 C) (1%:M : 'cV[C]_1).
  move=> i c; rewrite big_pred0; last by move=> j; rewrite !ord1.
  by rewrite subr0 ord1 col_id.
have hadj x y : ip1 B x (lMop l y) = ip1 (lB l) x y.
  by have [_ ->] := hB x (lMop l y); rewrite /Mi /lMop /= scalerA mulVf // scale1r.
have hr := byprod0_rel ok args hob eB vB hadj sep.
have sa : self_adjoint (ip1 (lB l)) (lMlAMr l) by move=> x y; rewrite /lMlAMr /= !scale1r.
have sE := C31_selfadjoint hr sa.
have TE : inner B (row_mx (firstn (leqnn 0) (bp_V (byprod0 l ob))) (o_U ob))
    (imcols (fun x => lMop l (lMlAMr l x)) (row_mx (firstn (leqnn 0) (bp_V (byprod0 l ob))) (o_U ob))) = 2%:R%:M.
  rewrite (_ : imcols _ _ = 2%:R *: row_mx (firstn (leqnn 0) (bp_V (byprod0 l ob))) (o_U ob)).
    by rewrite (innerZr vB) (gramX hr) scalemx1.
  by apply/matrixP => i j; rewrite mxE /lMlAMr /lMop /= scale1r !mxE !ord1.
case ee: (eig (0 + 1)%N (2%:R%:M)) => [th Y].
have := he (0 + 1)%N 2%:R%:M; rewrite ee => hY; have /= th2 := eig1 hY.
pose z := DRitz (fun i => Some (th i)) (normalise Y)
         (fun i => Some (dresnorm l ob (byprod0 l ob) (invmx (d_E ob) *m bp_C (byprod0 l ob)) (th i) (col i (normalise Y)))).
have E : mk_dritz eig eigh geig geigh l false ob (byprod0 l ob) DmRitz = Ok z.
  by rewrite /mk_dritz (EinvCE hr) /= (dME hr) TE ee.
pose v := dvec ob (byprod0 l ob) z ord0.
have v1 : ipnorm (ip1 B) v = 1.
  rewrite /v /dvec (dbasisE ob _ (leqnn 0)) (nrmX hr); apply: normalise_unit; by case: (hY ord0).
have nv : v != 0 by rewrite -(ipnorm_eq0 (valid_is_ip vB)) v1 oner_eq0.
exists l, Mi, ob, z, (mnorm (ip1 (@IpNone C 1)) (lMop l) (- v)); split=> //.
- have [eA _ _] := oblE args hob; have := C31_resnorm_partial hr eA isT sE erefl E (i := ord0) (t := 2%:R); rewrite /= th2 => -> //.
  by rewrite -/v /lMlAMr /= scale1r subrr (ipnorm0 (valid_is_ip vB)).
split.
  have en : enum 'I_(0 + 1) = [:: ord0] by apply: (inj_map val_inj); rewrite val_enum_ord.
  rewrite /dexplicit_norms C31_explicit_residual // en /bind [map _ _]/= th2 -/v.
  rewrite (_ : lMlAMr l v - 2%:R *: v = - v); last first.
    by rewrite /lMlAMr /= scale1r scaler_nat mulr2n opprD addNKr.
  rewrite (@norm_real_nonneg _ _ _ (Some _)) // /lMop /= (ipZr hip1) mulr_ge0 ?ler0n //; exact: (ip_ge0' hip1).
move=> /eqP; rewrite sqrtC_eq0 /mip /lMop /= (ipZr hip1) mulf_eq0 (negbTE h2) /= (ip_eq0 hip1) oppr_eq0.
exact/negP.
Qed.
End Refuted.

(** An example with a preconditioner: A = [[2,1],[1,2]], M = 5, Ml = 2, b = e_0, U = [e_0]. *)
Section Example.
Variable C : numClosedFieldType.
Local Notation l := (Properties.Deflation.dex_lsys C).
Local Notation Mi := (Properties.Deflation.dex_Minv C).
Local Notation kw := Properties.Deflation.dex_kw.
Let hip := valid_is_ip (B := @IpNone C 2) I.

Example C31_run tol x0 eig eigh geig geigh : 0 <= tol ->
  (forall n (X : 'M[C]_n), geig_ok X 1%:M (eig n X)) -> (forall n (X : 'M[C]_n), X^h = X -> geig_ok X 1%:M (eigh n X)) ->
  exists ob s Bm, [/\ mk_oblique (@some_qr C) l Mi false (e0 C) kw = Ok ob, get_ip_Minv_B l Mi = Ok Bm,
    deflated_gmres (@some_qr C) (@frob C) l Mi false (e0 C) kw (Opts tol 2 false) Mgs x0 = Returns s
  & ritz_ok l (e0 C) x0 true Bm ob eig eigh geig geigh (arn_byprod l true ob (gm_a (s_st s).1) (s_st s).2)].
Proof.
move=> tol0 he heh; have ok := Properties.Deflation.dex_ok C; have args := Properties.Deflation.dex_args C.
have h5 : 5%:R != 0 :> C by rewrite pnatr_eq0.
have [|||B eB [vB hB]] := @Properties.Deflation.C43_Minv_inner_product C 2 l _ (fun x => 5%:R^-1 *: x) ok erefl.
- by move=> x; rewrite scalerA mulVf // scale1r.
- by move=> x; rewrite scalerA divff // scale1r.
- by [].
have hadj x y : ip1 B x (lMop l y) = ip1 (lB l) x y.
  by have [_ ->] := hB x (lMop l y); rewrite /lMop /= scalerA mulVf // scale1r.
have sep : separated (ip1 B) (eps15 C) (e0 C).
  move=> i c; rewrite big_pred0; last by move=> j; rewrite !ord1.
  rewrite subr0 ord1 col_id; apply: Properties.Deflation.eps_sqrt.
  by have [_ ->] := hB (e0 C) (e0 C); rewrite (ipZr hip) Properties.Deflation.e0_ip mulr1.
have [ob hob] := oblique_total (@some_qr_spec C) ok args.
have mr (c : 'cV[C]_1) : lMr l (e0 C *m c) = e0 C *m c by [].
have sa : true -> self_adjoint (ip1 (lB l)) (lMlAMr l) by move=> _; apply: Properties.Deflation.dex_sa.
have [//|//|s E _] := Properties.Deflation.C29_gmres_finite (o := Opts tol 2 false) (ortho := Mgs) (@some_qr_spec C) ok args mr x0 I
  (@Properties.Deflation.dex_inj C) (@frob_bounds C) (@Properties.Deflation.dex_nz C).
have R := C31_gmres (@some_qr_spec C) ok args eB vB hadj sep sa mr (@Properties.Deflation.dex_nz C) hob (I : ortho_ok l Mgs) (or_introl E).
exists ob, s, B; split=> //; exact: (C31_attributes ok vB hadj sa geig geigh he heh R).
Qed.
End Example.
