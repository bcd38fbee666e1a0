(** Proofs about sequences of deflated solves with recycled Ritz vectors. *)
From mathcomp Require Import all_ssreflect all_algebra.
From Verif Require Import Base Spec.LinAlg Proof.Algebra Model.Ritz Spec.Ritz Proof.Ritz Model.Inner Spec.Inner Proof.Inner Proof.IpTheory.
From Verif Require Import Model.Arnoldi Model.Solver Model.LinearSystem Model.Krylov Spec.Krylov Model.Projection Spec.Projection Model.Deflation Spec.Deflation.
From Verif Require Import Proof.LinearSystem Proof.Measures Proof.Qr Proof.Deflation Model.DeflRitz Spec.DeflRitz Proof.DeflRitz Model.Recycling Model.RecyclingRun Spec.RecyclingRun.
From Verif Require Import Spec.Arnoldi Proof.SolverInv Proof.Gmres Proof.Minres Proof.Logged Properties.Solver Properties.Deflation Properties.DeflRitz Spec.DeflAgree Properties.DeflCount Proof.Spectral.

Set Implicit Arguments.
Unset Strict Implicit.
Unset Printing Implicit Defensive.
Import Order.TTheory GRing.Theory Num.Theory.
Local Open Scope ring_scope.

Section Orth.
Variable C : numClosedFieldType.
Variable N : nat.
Local Notation vec := 'cV[C]_N.
Variables (B : ipB C N).
Hypothesis hB : valid_ip B.
Let hip := valid_is_ip hB.

(** Orthonormal columns have distance 1 to the span of the preceding ones. *)
Lemma orth_dist k (Q : 'M[C]_(N, k)) (i : 'I_k) (c : 'I_k -> C) : inner B Q Q = 1%:M ->
  1 <= ipnorm (ip1 B) (col i Q - \sum_(j < k | (j < i)%N) c j *: col j Q).
Proof.
move=> h; have e s t : ip1 B (col s Q) (col t Q) = (s == t)%:R by rewrite -(inner_entry hB) h mxE.
set w := _ - _; have w1 : ip1 B (col i Q) w = 1.
  rewrite /w (ipBr hip) (ip_sumr hip) e eqxx big1 ?subr0 // => j hj.
  by rewrite (ipZr hip) e -val_eqE /= gtn_eqF ?mulr0.
have := cauchy_schwarz hip (col i Q) w; rewrite w1 normr1.
by rewrite {1}/ipnorm e eqxx sqrtC1 mul1r.
Qed.

Lemma orth_sep k (Q : 'M[C]_(N, k)) : inner B Q Q = 1%:M -> separated (ip1 B) (eps15 C) Q.
Proof.
move=> h i c; apply: le_trans (orth_dist i c h).
by rewrite /eps15 invf_le1 ?exprn_gt0 ?ltr0n // exprn_ege1 // ler1n.
Qed.

(** The image under a linear map that does not shrink vectors too much *)
Lemma orth_sep_image (B' : ipB C N) (f : vec -> vec) k (Q : 'M[C]_(N, k)) : is_linear f ->
  (forall v, eps15 C * ipnorm (ip1 B) v <= ipnorm (ip1 B') (f v)) ->
  inner B Q Q = 1%:M -> separated (ip1 B') (eps15 C) (imcols f Q).
Proof.
move=> hf hb h i c; have ce j : col j (imcols f Q) = f (col j Q) by apply/matrixP => s t; rewrite !mxE ord1.
rewrite ce (eq_bigr (fun j => c j *: f (col j Q))); last by move=> j _; rewrite ce.
have -> : f (col i Q) - \sum_(j < k | (j < i)%N) c j *: f (col j Q) =
          f (col i Q - \sum_(j < k | (j < i)%N) c j *: col j Q).
  rewrite (linB hf) (lin_sum hf); congr (_ - _); apply: eq_bigr => j _; by rewrite (linZ hf).
apply: le_trans (hb _); rewrite -{1}[eps15 C]mulr1 ler_pmul2l ?eps15_gt0 //; exact: orth_dist.
Qed.
End Orth.

Section Args.
Variable C : numClosedFieldType.
Variable sqr : forall n k, 'M[C]_(n, k) -> 'M[C]_(n, k) * 'M[C]_k.
Variable N : nat.
Local Notation vec := 'cV[C]_N.
Variables (l : lsys C N) (Minv : option (vec -> vec)) (same : bool) (kw : pkwargs) (Bm : ipB C N).
Hypothesis hl : lsys_ok l.
Hypothesis eBm : get_ip_Minv_B l Minv = Ok Bm.
Hypothesis vBm : valid_ip Bm.
Local Notation A := (lMlAMr l).

Lemma orth_args k (U : 'M[C]_(N, k)) : pk_its kw != 0%N -> (same -> forall x, A x = x) ->
  (pk_orth kw -> forall v, eps15 C * ipnorm (ip1 Bm) v <= ipnorm (ip1 (lB l)) v /\
                           eps15 C * ipnorm (ip1 Bm) v <= ipnorm (ip1 (lB l)) (A v)) ->
  inner Bm U U = 1%:M -> inner (lB l) U (imcols A U) \in unitmx -> defl_args sqr l Minv same U kw.
Proof.
move=> h1 h2 h3 h4 h5; split=> //; first by exists Bm.
move=> /h3 hb ob; rewrite /mk_oblique eBm /=.
have [Q [R [-> _ _ q1 q2]]] := mgs_thm U (pk_reorthos kw) vBm; rewrite /=.
have [_ hQ] := q1 (q2 (orth_sep vBm h4)).
case: (mk_proj _ _ _ _ _ _) => [p|//] /= [<-] /=; split.
  have := @orth_sep_image _ _ _ vBm (lB l) id _ Q (fun a x y => erefl) (fun v => (hb v).1) hQ.
  by congr separated; apply/matrixP => i j; rewrite !mxE.
by apply: (orth_sep_image vBm (lMlAMr_lin hl) _ hQ) => v; exact: (hb v).2.
Qed.
End Args.

(** The residual norms are real. *)
Lemma resnorms_real (C : numClosedFieldType) N eig eigh geig geigh (l : lsys C N) f m (ob : obl C N m) n_ n (b : byprod C N n_ n m) mode z i :
  mk_dritz eig eigh geig geigh l f ob b mode = Ok z -> odflt 0 (dz_resnorms z i) \is Num.real.
Proof.
rewrite /mk_dritz; case: ifP => _; first by case=> <- /=; rewrite rpred0.
move=> E; have [X _ {}E] := bind_ok E; have [[vals Y] _ [<-]] /= := bind_ok E.
by case: (vals i) => [t|] /=; [apply: ger0_real; rewrite sqrtC_ge0|rewrite rpred0].
Qed.

(** The Ritz vectors of a self-adjoint problem *)
Section RitzVectors.
Variable C : numClosedFieldType.
Variable N : nat.
Local Notation vec := 'cV[C]_N.
Variables eig eigh : forall n, 'M[C]_n -> ('I_n -> C) * 'M[C]_n.
Variables geig geigh : forall n, 'M[C]_n -> 'M[C]_n -> ('I_n -> C) * 'M[C]_n.
Hypothesis heh : forall n (X : 'M[C]_n), X^h = X -> eigh_ok X (eigh X).
Variables (l : lsys C N) (m : nat) (ob : obl C N m) (n_ n : nat) (b : byprod C N n_ n m) (hn : (n <= n_)%N).
Variables (Bm : ipB C N) (W : 'M[C]_(N, n)).
Local Notation A := (lMlAMr l).
Local Notation M := (lMop l).
Local Notation U := (o_U ob).
Local Notation V := (bp_V b).
Local Notation MA := (fun x => M (A x)).
Hypothesis hr : defl_rel (lB l) Bm A M hn V U (bp_H b) (d_E ob) (bp_C b) (bp_B b) W.
Hypothesis hAU : o_AU ob = imcols A U.
Hypothesis sa : self_adjoint (ip1 (lB l)) A.
Hypothesis nm : (0 < n + m)%N.
Local Notation X := (row_mx (firstn hn V) U).
Local Notation S := (in_cols (firstn hn V) U).
Local Notation T := (inner Bm X (imcols MA X)).

Lemma gramT_sa : T^h = T.
Proof.
have vBm := dr_Bm hr; apply/matrixP => i j; rewrite ctrE !(inner_entry vBm).
have e t : col t (imcols MA X) = MA (col t X) by apply/matrixP => s q; rewrite !mxE ord1.
by rewrite !e !(dr_adj hr) -(ip_conj (valid_is_ip (dr_B hr))) sa.
Qed.

Lemma ritz_vectors_ok : exists2 z, mk_dritz eig eigh geig geigh l true ob b DmRitz = Ok z &
  (forall i, exists2 t, dz_values z i = Some t & ritz_pair MA (ip1 Bm) S S t (dvec ob b z i)) /\
  (forall i j, ip1 Bm (dvec ob b z i) (dvec ob b z j) = (i == j)%:R) /\
  forall i, odflt 0 (dz_resnorms z i) \is Num.real.
Proof.
have [h1 h2] := heh gramT_sa; have [z Ez hz] := @C31_ritz C N eig eigh geig geigh l m ob n_ n b hn Bm W true hr nm h1.
exists z => //; split; first by move=> i; have [t [k1 k2 _]] := hz i; exists t.
split; last first.
  by move=> i; exact: resnorms_real Ez.
have cE : dz_coeffs z = (eigh T).2.
  move: Ez; rewrite /mk_dritz; have -> : (n + m == 0)%N = false by case: (n + m)%N nm.
  rewrite (EinvCE hr) /= (dME hr); case: (eigh _) h2 => th Y /= hY [<-] /=.
  apply/matrixP => i j; have := congr1 (fun v : 'cV_ _ => v i 0) (normaliseE Y j).
  rewrite !mxE => ->; suff -> : ipnorm (@ipE C (n + m)) (col j Y) = 1 by rewrite invr1 mul1r.
  have := congr1 (fun Z : 'M_ _ => Z j j) hY; rewrite /ipnorm /ipE !mxE eqxx => e.
  rewrite (_ : \sum_k _ = 1) ?sqrtC1 // -[RHS]e; apply: eq_bigr => k _; by rewrite !mxE.
move=> i j; rewrite /dvec cE (dbasisE ob b hn) ip1X (innerMl (dr_Bm hr)) (innerMr (dr_Bm hr)) (gramX hr) mul1mx.
have := congr1 (fun Z : 'M_ _ => Z i j) h2; rewrite !mxE => <-.
by apply: eq_bigr => k _; rewrite !mxE.
Qed.

(** The vectors for a list of indices *)
Variable z : dritz C (n + m).
Hypothesis hz : forall i, exists2 t, dz_values z i = Some t & ritz_pair MA (ip1 Bm) S S t (dvec ob b z i).
Hypothesis ho : forall i j, ip1 Bm (dvec ob b z i) (dvec ob b z j) = (i == j)%:R.
Variable q : seq nat.
Hypothesis uq : uniq q.
Hypothesis rq : all (fun i => i < n + m)%N q.
(** No selected Ritz value is 0. *)
Hypothesis nq : pos_def (ip1 (lB l)) A \/ forall i : 'I_(n + m), val i \in q -> dz_values z i <> Some 0.

Lemma ritz_block : exists2 vs, dvectors ob b z (Some q) = Ok vs &
  inner Bm (colmx vs) (colmx vs) = 1%:M /\ inner (lB l) (colmx vs) (imcols A (colmx vs)) \in unitmx.
Proof.
have [q' eq] : exists q' : seq 'I_(n + m), q = map val q'.
  exists (pmap insub q); rewrite pmap_filter; last exact: insubK.
  by apply/esym/all_filterP; apply: sub_all rq => i hi /=; rewrite insubT.
have uq' : uniq q' by move: uq; rewrite eq map_inj_uniq //; exact: val_inj.
exists (map (dvec ob b z) q').
  rewrite /dvectors rq; congr Ok; rewrite eq -map_comp; apply: eq_map => i /=.
  by rewrite valK.
set vs := map _ _; have sz : size vs = size q' by rewrite size_map.
have i0 : 'I_(n + m) := Ordinal nm.
have ce (j : 'I_(size vs)) : col j (colmx vs) = dvec ob b z (nth i0 q' j).
  by apply/colP => s; rewrite [in LHS]mxE [in LHS]mxE (nth_map i0) // -?sz.
have ne (i j : 'I_(size vs)) : (nth i0 q' i == nth i0 q' j) = (i == j).
  by rewrite nth_uniq ?val_eqE // -sz.
have vBm := dr_Bm hr; split.
  by apply/matrixP => i j; rewrite (inner_entry vBm) !ce ho ne mxE.
pose th i := odflt 0 (dz_values z i).
have -> : inner (lB l) (colmx vs) (imcols A (colmx vs)) = diag_mx (\row_j th (nth i0 q' j)).
  apply/matrixP => i j; rewrite (inner_entry (dr_B hr)).
  have -> : col j (imcols A (colmx vs)) = A (col j (colmx vs)) by apply/matrixP => s t; rewrite !mxE ord1.
  rewrite !ce -(dr_adj hr) !mxE /th; have [t et [k1 k2 k3]] := hz (nth i0 q' j).
  have [_ _ [k4 _ _]] := hz (nth i0 q' i); have := k3 _ k4.
  rewrite (ipBr (valid_is_ip vBm)) (ipZr (valid_is_ip vBm)) ho ne => /eqP; rewrite subr_eq0 => /eqP->.
  by case: eqP => [->|_]; rewrite ?et ?mulr1 ?mulr0.
rewrite unitmxE det_diag unitfE; apply/prodf_neq0 => j _; rewrite mxE /th.
have [t et [k1 k2 k3]] := hz (nth i0 q' j); rewrite et /=; case: nq => [pd|h]; last first.
  apply/eqP => t0; case: (h (nth i0 q' j)); last by rewrite et t0.
  by rewrite eq mem_map ?mem_nth -?sz //; exact: val_inj.
have := k3 _ k1; rewrite (ipBr (valid_is_ip vBm)) (ipZr (valid_is_ip vBm)) ho eqxx mulr1 (dr_adj hr) => /eqP.
by rewrite subr_eq0 => /eqP<-; rewrite gt_eqF // pd.
Qed.

(** All Ritz vectors span the space. *)
Lemma ritz_all vs w : size q = (n + m)%N -> dvectors ob b z (Some q) = Ok vs -> S w -> exists c, w = colmx vs *m c.
Proof.
move=> sq; have [q' eq] : exists q' : seq 'I_(n + m), q = map val q'.
  exists (pmap insub q); rewrite pmap_filter; last exact: insubK.
  by apply/esym/all_filterP; apply: sub_all rq => i hi /=; rewrite insubT.
have uq' : uniq q' by move: uq; rewrite eq map_inj_uniq //; exact: val_inj.
have pq : perm_eq (enum 'I_(n + m)) q'.
  have sb : {subset q' <= enum 'I_(n + m)} by move=> i _; rewrite mem_enum.
  have hs : (size (enum 'I_(n + m)) <= size q')%N by rewrite size_enum_ord; move: sq; rewrite eq size_map => ->.
  have [_ e] := uniq_min_size uq' sb hs.
  by apply: uniq_perm; rewrite ?enum_uniq // => i; rewrite e.
rewrite /dvectors rq => -[<-]; rewrite eq -map_comp.
rewrite (eq_map (_ : _ =1 dvec ob b z)); last by move=> i /=; rewrite valK.
set vs' := map _ _; have sz : size vs' = size q' by rewrite size_map.
have i0 : 'I_(n + m) := Ordinal nm.
case=> al [ga ->]; set Y := dz_coeffs z.
have YY : Y *m Y^h = 1%:M.
  apply: mulmx1C; apply/matrixP => i j; have := ho i j.
  rewrite /dvec (dbasisE ob b hn) ip1X (innerMl (dr_Bm hr)) (innerMr (dr_Bm hr)) (gramX hr) mul1mx => e.
  rewrite [RHS]mxE -e !mxE; by apply: eq_bigr => k _; rewrite !mxE.
pose f := Y^h *m col_mx al ga.
exists (\col_j f (nth i0 q' j) 0).
have -> : firstn hn V *m al + U *m ga = X *m Y *m f.
  by rewrite -mul_row_col /f -mulmxA (mulmxA Y) YY mul1mx.
have -> : X *m Y *m f = \sum_i f i 0 *: dvec ob b z i.
  apply/colP => s; rewrite summxE mxE; apply: eq_bigr => i _; rewrite !mxE mulrC; congr (_ * _).
  by rewrite (dbasisE ob b hn); apply: eq_bigr => k _; rewrite !mxE.
rewrite (perm_big q') /=; last by rewrite /index_enum -enumT.
rewrite (big_nth i0) -sz big_mkord; apply/colP => s; rewrite summxE [RHS]mxE.
by apply: eq_bigr => j _; rewrite !mxE mulrC (nth_map i0) -?sz // /dvec [in RHS]mxE.
Qed.
End RitzVectors.

(** The solver object is the one for the vectors U; without vectors and iterations it returns
    the initial guess; if U contains a solution, it does not iterate; the approximation
    is in the space of V_n and U. *)
Definition fresh C N (l : lsys C N) (U : seq 'cV[C]_N) (a : rargs C N) (s : dsolver C N) : Prop :=
  [/\ ds_m s = size U, (U = [::] -> ds_n s = 0%N -> ds_xk s = Some (x0_of (ra_x0 a))),
      (forall c, resid l (x0_of (ra_x0 a) + colmx U *m c) = 0 -> ds_res s = [:: 0])
    & exists (hn : (ds_n s <= ds_n_ s)%N) xk, ds_xk s = Some xk /\
        in_cols (firstn hn (bp_V (ds_b s))) (o_U (ds_ob s)) (xk - x0_of (ra_x0 a))].

(** One solve with given deflation vectors *)
Section Solve.
Variable C : numClosedFieldType.
Variable sqr : forall n k, 'M[C]_(n, k) -> 'M[C]_(n, k) * 'M[C]_k.
Hypothesis hsqr : qr_spec sqr.
Variable N : nat.
Local Notation vec := 'cV[C]_N.
Variable snorm : nat -> nat -> (nat -> nat -> C) -> C.
Hypothesis hsn : bounds_entries snorm.
Variable l : lsys C N.
Hypothesis hl : lsys_ok l.
Variables (Minv : option (vec -> vec)) (same : bool) (Bm : ipB C N).
Hypothesis eBm : get_ip_Minv_B l Minv = Ok Bm.
Hypothesis vBm : valid_ip Bm.
Hypothesis hadj : forall x y, ip1 Bm x (lMop l y) = ip1 (lB l) x y.
Local Notation A := (lMlAMr l).
Hypothesis sa : self_adjoint (ip1 (lB l)) A.
Hypothesis inj : injective_op A.
Hypothesis hMr : forall x, lMr l x = x.

(** What is kept of a solver for the next solve *)
Definition recyc (s : dsolver C N) : Prop :=
  [/\ ds_sa s = true, exists b e, ds_l s = with_rhs l b e
    & exists hn W, defl_rel (lB l) Bm A (lMop l) hn (bp_V (ds_b s)) (o_U (ds_ob s)) (bp_H (ds_b s))
        (d_E (ds_ob s)) (bp_C (ds_b s)) (bp_B (ds_b s)) W /\ o_AU (ds_ob s) = imcols A (o_U (ds_ob s))].

Variables (b : vec) (e : option vec).
Local Notation lb := (with_rhs l b e).
Hypothesis nb : lMl l b <> 0.

Lemma with_rhs_ok : lsys_ok lb.
Proof. by case: hl => *; split. Qed.

Variables (U : seq vec) (a : rargs C N).
Hypothesis ha : defl_args sqr l Minv same (colmx U) (ra_kw a).
Hypothesis hU : inner Bm (colmx U) (colmx U) = 1%:M.
Hypothesis ho : ortho_ok l (ra_ortho a).
Hypothesis hm : (N <= o_maxiter (ra_o a))%N.
Hypothesis tol0 : 0 <= o_tol (ra_o a).

Let ha' : defl_args sqr lb Minv same (colmx U) (ra_kw a).
Proof. by case: ha => *; split. Qed.

Let N0 : (0 < N)%N.
Proof.
case: (posnP N) => // e0; exfalso; apply: nb; apply/matrixP => i.
by case: i => i hi; exfalso; rewrite e0 in hi.
Qed.

Let ho' : ortho_ok lb (ra_ortho a).
Proof. by case: (ra_ortho a) ho. Qed.

Let solved_of xk (r : C) (iv : bool) n (P : nat -> Prop) : r = resid_norm lb xk / rhs_norm lb ->
  (o_tol (ra_o a) < r -> o_maxiter (ra_o a) = 0%N \/ iv) -> r <= o_tol (ra_o a) \/ (exists j, n = j.+1 /\ P j) ->
  iv = false \/ n = 0%N -> resid_norm lb xk <= o_tol (ra_o a) * rhs_norm lb.
Proof.
move=> er h hn hi.
have b0 : 0 < rhs_norm lb.
  rewrite lt_def sqrtC_ge0 (ip_ge0' (lmip with_rhs_ok)) andbT.
  by rewrite rhs_norm_eq0 //; [apply/eqP|exact: with_rhs_ok].
rewrite -ler_pdivr_mulr // -er; case: hn => [//|[j [ej _]]]; case: hi => [hi|]; last by rewrite ej.
rewrite real_leNgt; first by apply/negP => /h[e0|]; [move: hm; rewrite e0 leqNgt N0|rewrite hi].
  rewrite er; apply/ger0_real/divr_ge0; last exact: ltW.
  rewrite sqrtC_ge0; exact: (ip_ge0' (lmip with_rhs_ok)).
exact: ger0_real.
Qed.

(** Without deflation and iterations the initial guess is returned. *)
Let first_of n xk : defl_optimal lb (colmx U) (ra_x0 a) n xk -> U = [::] -> n = 0%N -> xk = x0_of (ra_x0 a).
Proof.
case=> _ [z [c [-> [al ->] _]]] eU e0; move: al; rewrite e0 => al; rewrite big_ord0 (lin0 (lo_Mr hl)) addr0.
rewrite [_ *m c](_ : _ = 0) ?addr0 //; apply/matrixP => i j; rewrite !mxE big1 // => k.
by exfalso; case: k => k; rewrite eU.
Qed.

Let in_of n xk : defl_optimal lb (colmx U) (ra_x0 a) n xk -> exists z c,
  in_krylov (fun v => defl_P (lB lb) A (colmx U) (A v)) (lMop lb) (defl_P (lB lb) A (colmx U) (resid lb (x0_of (ra_x0 a)))) n z /\
  xk - x0_of (ra_x0 a) = z + colmx U *m c.
Proof. by case=> _ [z [c [-> h _]]]; exists z, c; split=> //; rewrite hMr -(addrA _ z) addrAC subrr add0r. Qed.

Lemma new_minres_ok : exists2 s, new_minres sqr snorm (RSys lb Minv same true) U a = Ok s &
  [/\ solved lb (o_tol (ra_o a)) s, recyc s & fresh lb U a s].
Proof.
have hMr' c : lMr lb (colmx U *m c) = colmx U *m c by exact: hMr.
have [s E [hN hj]] := C29_minres_finite hsqr with_rhs_ok ha' hMr' (ra_x0 a) ho' sa inj hsn nb hm tol0.
have hs : of_run (deflated_minres sqr snorm lb Minv same (colmx U) (ra_kw a) (ra_o a) (ra_ortho a) (ra_x0 a)) s by left.
have [xk exk er] := C29_minres_true_residual hsqr with_rhs_ok ha' hMr' ho' sa nb hs.
have [ob hob] := oblique_total hsqr with_rhs_ok ha'.
have [hn [W [h1 h2 _ _ h5]]] := C31_minres hsqr with_rhs_ok ha' (fl := true) eBm vBm hadj (orth_sep vBm hU) (fun _ => sa) hMr' nb hob ho' sa hs.
rewrite /new_minres /= E hob /=; eexists; first reflexivity.
split; [|by split=> //=; [exists b, e | exists hn, W]|]; last first.
  have [[xk' ex' hx'] _ _] := C29_minres_optimal hsqr with_rhs_ok ha' hMr' ho' sa nb hs.
  move: ex'; rewrite exk => -[ex']; rewrite -ex' in hx'; split=> //=.
  - by move=> eU e0; rewrite (first_of hx' eU e0).
  - move=> c hc; have [er0 _] := C78_no_iterations with_rhs_ok nb hMr' tol0 hc (or_introl (DmrMinres hsqr ha' ho' sa hs)); exact: er0.
  exists hn, xk; split=> //; apply/h5; exact: in_of hx'.
exists xk => //=; split=> //; apply: (solved_of er _ hj).
move: E; rewrite /deflated_minres (bnorm_ok with_rhs_ok) /= hob /= => E.
have [_ h] := C23_normal_return (logged_good _ _ (minres_good _ _ _ _)) E; exact: h.
Qed.

Lemma new_gmres_ok : exists2 s, new_gmres sqr snorm (RSys lb Minv same true) U a = Ok s &
  [/\ solved lb (o_tol (ra_o a)) s, recyc s & fresh lb U a s].
Proof.
have hMr' c : lMr lb (colmx U *m c) = colmx U *m c by exact: hMr.
have [s E [hN hj]] := C29_gmres_finite hsqr with_rhs_ok ha' hMr' (ra_x0 a) ho' inj hsn nb hm tol0.
have hs : of_run (deflated_gmres sqr snorm lb Minv same (colmx U) (ra_kw a) (ra_o a) (ra_ortho a) (ra_x0 a)) s by left.
have [xk exk er] := C29_gmres_true_residual hsqr with_rhs_ok ha' hMr' ho' nb hs.
have [ob hob] := oblique_total hsqr with_rhs_ok ha'.
have [hn [W [h1 h2 _ _ h5]]] := C31_gmres hsqr with_rhs_ok ha' (fl := true) eBm vBm hadj (orth_sep vBm hU) (fun _ => sa) hMr' nb hob ho' hs.
rewrite /new_gmres /= E hob /=; eexists; first reflexivity.
split; [|by split=> //=; [exists b, e | exists hn, W]|]; last first.
  have [[xk' ex' hx'] _ _] := C29_gmres_optimal hsqr with_rhs_ok ha' hMr' ho' nb hs.
  move: ex'; rewrite exk => -[ex']; rewrite -ex' in hx'; split=> //=.
  - by move=> eU e0; rewrite (first_of hx' eU e0).
  - move=> c hc; have [er0 _] := C78_no_iterations with_rhs_ok nb hMr' tol0 hc (or_introl (DmrGmres hsqr ha' ho' hs)); exact: er0.
  exists hn, xk; split=> //; apply/h5; exact: in_of hx'.
exists xk => //=; split=> //; apply: (solved_of er _ hj).
move: E; rewrite /deflated_gmres (bnorm_ok with_rhs_ok) /= hob /= => E.
have [_ h] := C23_normal_return (logged_good _ _ (gmres_good _ _ _ _)) E; exact: h.
Qed.
End Solve.

(** A sequence of solves *)
Section Sequence.
Variable C : numClosedFieldType.
Variable sqr : forall n k, 'M[C]_(n, k) -> 'M[C]_(n, k) * 'M[C]_k.
Variable N : nat.
Local Notation vec := 'cV[C]_N.
Variables eig eigh : forall n, 'M[C]_n -> ('I_n -> C) * 'M[C]_n.
Variables geig geigh : forall n, 'M[C]_n -> 'M[C]_n -> ('I_n -> C) * 'M[C]_n.
Hypothesis heh : forall n (X : 'M[C]_n), X^h = X -> eigh_ok X (eigh X).
Variable l : lsys C N.
Hypothesis hl : lsys_ok l.
Variables (Minv : option (vec -> vec)) (same : bool) (Bm : ipB C N).
Hypothesis eBm : get_ip_Minv_B l Minv = Ok Bm.
Hypothesis vBm : valid_ip Bm.
Local Notation A := (lMlAMr l).
Hypothesis sa : self_adjoint (ip1 (lB l)) A.
Hypothesis hsame : same -> forall x, A x = x.
Local Notation fac := (ritz_factory eig eigh geig geigh).
Local Notation good U := (inner Bm (colmx U) (colmx U) = 1%:M /\ inner (lB l) (colmx U) (imcols A (colmx U)) \in unitmx).

Lemma good_nil : good [::].
Proof. by split; [apply/matrixP => -[]|rewrite unitmxE det_mx00 unitr1]. Qed.

Local Notation fails := (fails eig eigh geig geigh).

Lemma factory_step s sel : recyc l Bm s -> select_ok l sel ->
  (exists2 vs, fac sel s = Ok vs & good vs) \/ (exists2 x, fac sel s = Err x & fails sel s x).
Proof.
case: s => l' sa' m ob n_ n b xk rs iv [/= -> [b' [e' ->]] [hn [W [hr hA]]]] hs.
rewrite /ritz_factory /=; set s := DSolver _ _ _ _ _ _ _.
case: (posnP (n + m)) => nm.
  have nm' : (n + m == 0)%N by rewrite nm.
  rewrite /mk_dritz nm' /=; set z := DRitz _ _ _.
  case E: (sel s z) => [q|x] /=; right; [exists IndexError|exists x] => //; first by left.
  by right; exists z; rewrite // /mk_dritz /= nm'.
have [z Ez [h1 [h2 h3]]] := @ritz_vectors_ok C N eig eigh geig geigh heh (with_rhs l b' e') m ob n_ n b hn Bm W hr sa nm.
rewrite Ez /=; case E: (sel s z) => [q|x] /=; last by right; exists x => //; right; exists z.
have [u1 u2 u3] := hs s z q h3 E; left.
exact: (@ritz_block C N (with_rhs l b' e') m ob n_ n b hn Bm W hr nm z h1 h2 q u1 u2 u3).
Qed.

Variable new : rsys C N -> seq vec -> rargs C N -> res (dsolver C N).
Hypothesis new_ok : forall y U a, call_ok l Minv same Bm y a -> good U ->
  exists2 s, new y U a = Ok s & solved (rs_l y) (o_tol (ra_o a)) s /\ recyc l Bm s.

Variable default : option (factory (dsolver C N) (seq vec)).
Local Notation rcall := (rcall C N).
Local Notation fac_ok := (fac_ok eig eigh geig geigh l).
Hypothesis hdef : fac_ok default.
Local Notation calls_ok := (calls_ok eig eigh geig geigh l Minv same Bm).
Local Notation used := (used default).
Local Notation step := (rsolve (fun y => Ok y) [::] new default).
Local Notation steps := (rsolves (fun y => Ok y) [::] new default).
Local Notation lastok last := (if last is Some s then recyc l Bm s else True).

Lemma step_ok last c : lastok last -> call_ok l Minv same Bm (c_sys c) (c_args c) -> fac_ok (c_fac c) ->
  lastok (step last c).2 /\
  ((exists2 s, (step last c).1 = Ok s & solved (rs_l (c_sys c)) (o_tol (ra_o (c_args c))) s) \/
   (exists s sel x, [/\ last = Some s, used c = Some (fac sel), (step last c).1 = Err x & fails sel s x])).
Proof.
move=> hlast hc hf; rewrite /rsolve /= -/(RecyclingRun.used default c).
have hu : fac_ok (used c).
  by rewrite /used; case: (c_fac c) hf => // f; case=> // -[sel h1 h2]; right; exists sel.
have done U : good U -> exists2 s, new (c_sys c) U (c_args c) = Ok s &
    solved (rs_l (c_sys c)) (o_tol (ra_o (c_args c))) s /\ recyc l Bm s by exact: new_ok.
case: last hlast => [s|] hlast; last first.
  by rewrite /=; have [s -> [h1 h2]] := done _ good_nil; split=> //=; left; exists s.
case: hu => [->|[sel -> hsel]].
  by rewrite /=; have [s' -> [h1 h2]] := done _ good_nil; split=> //=; left; exists s'.
case: (factory_step hlast hsel) => [[vs -> hv]|[x -> hx]] /=.
  by have [s' -> [h1 h2]] := done _ hv; split=> //=; left; exists s'.
by split=> //; right; exists s, sel, x.
Qed.

Lemma steps_cons last c cs :
  steps last (c :: cs) = ((step last c).1 :: (steps (step last c).2 cs).1, (steps (step last c).2 cs).2).
Proof. by rewrite /=; case: (rsolves _ _ _ _ _ cs). Qed.

Lemma steps_cat last pre c post :
  nth None (map Some (steps last (pre ++ c :: post)).1) (size pre) = Some (step (steps last pre).2 c).1.
Proof.
elim: pre last => [|d pre IH] last; first by rewrite steps_cons.
by rewrite cat_cons !steps_cons; exact: IH.
Qed.

Lemma steps_rcons last cs c : (steps last (rcons cs c)).2 = (step (steps last cs).2 c).2.
Proof. by elim: cs last => [|d cs IH] last; rewrite ?rcons_cons !steps_cons //=; exact: IH. Qed.

Lemma steps_ok last cs : lastok last -> calls_ok cs -> lastok (steps last cs).2.
Proof.
elim: cs last => [|c cs IH] last h hc //; have [h1 h2] := hc 0%N c erefl.
have [h3 _] := step_ok h h1 h2; rewrite steps_cons.
exact: (IH _ h3 (fun i => hc i.+1)).
Qed.

Lemma sequence pre c post : calls_ok (pre ++ c :: post) ->
  exists2 r, nth None (map Some (steps None (pre ++ c :: post)).1) (size pre) = Some r &
  outcome_ok eig eigh geig geigh default (steps None pre).2 c r.
Proof.
move=> hc; rewrite steps_cat; eexists; first reflexivity.
have h1 : calls_ok pre.
  move=> i d h; apply: (hc i); rewrite map_cat nth_cat size_map; case: ifP => // /negbT; rewrite -leqNgt => hi.
  by rewrite nth_default ?size_map in h.
have [k1 k2] : call_ok l Minv same Bm (c_sys c) (c_args c) /\ fac_ok (c_fac c).
  by apply: (hc (size pre)); rewrite map_cat nth_cat size_map ltnn subnn.
by have [_ h] := step_ok (steps_ok (last := None) I h1) k1 k2.
Qed.

(** The vectors of a factory that selects all Ritz pairs *)
Lemma factory_all s sel vs (hn : (ds_n s <= ds_n_ s)%N) w : recyc l Bm s -> select_ok l sel -> (0 < ds_n s + ds_m s)%N ->
  (forall z, exists2 q, sel s z = Ok q & size q = (ds_n s + ds_m s)%N) -> fac sel s = Ok vs ->
  in_cols (firstn hn (bp_V (ds_b s))) (o_U (ds_ob s)) w -> exists c, w = colmx vs *m c.
Proof.
case: s hn => l' sa' m ob n_ n b xk rs iv hn [/= -> [b' [e' ->]] [hn' [W [hr hA]]]] hs nm.
rewrite /ritz_factory /=; set s := DSolver _ _ _ _ _ _ _ => hsel; rewrite (bool_irrelevance hn hn').
have [z Ez [h1 [h2 h3]]] := @ritz_vectors_ok C N eig eigh geig geigh heh (with_rhs l b' e') m ob n_ n b hn' Bm W hr sa nm.
have [q E sq] := hsel z; rewrite Ez /= E /= ifF; last by case: (n + m)%N nm.
have [u1 u2 _] := hs s z q h3 E.
exact: (@ritz_all C N (with_rhs l b' e') m ob n_ n b hn' Bm W hr nm z h2 q u1 u2 vs w sq).
Qed.

(** Where a solver comes from *)
Lemma step_from last c s : lastok last -> call_ok l Minv same Bm (c_sys c) (c_args c) -> fac_ok (c_fac c) ->
  (step last c).1 = Ok s -> exists2 U, good U & new (c_sys c) U (c_args c) = Ok s.
Proof.
move=> hlast hc hf; rewrite /rsolve /= -/(RecyclingRun.used default c).
have hu : fac_ok (used c).
  by rewrite /used; case: (c_fac c) hf => // f; case=> // -[sel h1 h2]; right; exists sel.
case: last hlast => [s0|] hlast; last by exists [::] => //; exact: good_nil.
case: hu => [->|[sel -> hsel]]; first by exists [::] => //; exact: good_nil.
by case: (factory_step hlast hsel) => [[vs -> hv]|[x -> hx]] //=; exists vs.
Qed.

(** The vectors of a factory after some calls *)
Lemma sequence_vectors cs s sel vs : calls_ok cs -> (steps None cs).2 = Some s -> select_ok l sel ->
  fac sel s = Ok vs -> good vs.
Proof.
move=> /(steps_ok (last := None) I) h e hs ev; rewrite e in h.
by case: (factory_step h hs) => [[vs' + hv]|[x]]; rewrite ev => // -[->].
Qed.
End Sequence.

(** An eigensolver for Hermitian matrices *)
Section Eigh.
Variable C : numClosedFieldType.

Lemma eigh_exists n (X : 'M[C]_n) : exists r : 'rV[C]_n * 'M[C]_n,
  (X^h == X) ==> ((X *m r.2 == r.2 *m diag_mx r.1) && (r.2^h *m r.2 == 1%:M)).
Proof.
case: eqP => [hX|_]; last by exists (0, 0).
have [U [d [hU e]]] := spectral hX; exists (d, U^h); rewrite /= ctrK.
by rewrite -{1}(mulmx1 X) {1}e -!mulmxA mul1mx hU mulmx1 !eqxx.
Qed.

Definition some_eigh n (X : 'M[C]_n) : ('I_n -> C) * 'M[C]_n :=
  let r := xchoose (eigh_exists X) in (fun i => r.1 0 i, r.2).

Lemma some_eigh_spec n (X : 'M[C]_n) : X^h = X -> eigh_ok X (some_eigh X).
Proof.
move=> /eqP hX; have := implyP (xchooseP (eigh_exists X)) hX; rewrite /some_eigh.
move: (xchoose _) => [d Y] /= /andP[/eqP h1 /eqP h2]; split=> // i; split.
  have -> : X *m col i Y = col i (X *m Y) by rewrite !colE mulmxA.
  by rewrite mul1mx h1 mul_mx_diag; apply/colP => j; rewrite !mxE mulrC.
apply/eqP => e; have := congr1 (fun Z : 'M_ _ => Z i i) h2; rewrite !mxE eqxx big1.
  by move/eqP; rewrite eq_sym oner_eq0.
move=> k _; have := congr1 (fun v : 'cV_ _ => v k 0) e.
by rewrite !mxE => ->; rewrite mulr0.
Qed.
End Eigh.
