(** Proofs about ObliqueProjection and the deflated solvers. *)
From mathcomp Require Import all_ssreflect all_algebra ring.
From Verif Require Import Base Spec.LinAlg Proof.Algebra Model.Inner Spec.Inner Proof.Inner Proof.IpTheory.
From Verif Require Import Model.Arnoldi Spec.Arnoldi Proof.Arnoldi Proof.ArnoldiAll Model.Solver Model.LinearSystem Model.Krylov Spec.Krylov.
From Verif Require Import Spec.Solver Proof.Solver Proof.SolverInv Proof.Gmres Proof.Minres Proof.LinearSystem Proof.CgTheory Proof.Cg Proof.Logged.
From Verif Require Import Model.Projection Spec.Projection Proof.Qr Proof.Projection Model.Deflation Spec.Deflation.

Set Implicit Arguments.
Unset Strict Implicit.
Unset Printing Implicit Defensive.
Import Order.TTheory GRing.Theory Num.Theory.
Local Open Scope ring_scope.

Local Arguments norm : simpl never.

Section Cols.
Variable C : numClosedFieldType.
Variable N : nat.
Local Notation vec := 'cV[C]_N.
Variable f : vec -> vec.
Hypothesis hf : is_linear f.

Lemma mx_sumcol k (X : 'M[C]_(N, k)) (c : 'cV[C]_k) : X *m c = \sum_j c j 0 *: col j X.
Proof.
apply/matrixP => i j; rewrite summxE mxE; apply: eq_bigr => t _.
by rewrite !mxE ord1 mulrC.
Qed.

Lemma opmxE x : opmx f *m x = f x.
Proof.
rewrite {2}[x]vec_sum (lin_sum hf) mx_sumcol; apply: eq_bigr => j _; rewrite (linZ hf); congr (_ *: _).
by apply/matrixP => a b; rewrite !mxE ord1.
Qed.

Lemma mapcolsE k (X : 'M[C]_(N, k)) : mapcols f X = opmx f *m X.
Proof. by apply/matrixP => i j; rewrite mxE -opmxE colE mulmxA -colE mxE. Qed.

Lemma imcolsE k (X : 'M[C]_(N, k)) : imcols f X = opmx f *m X.
Proof. exact: mapcolsE. Qed.

Lemma imcolsM k m (X : 'M[C]_(N, k)) (F : 'M[C]_(k, m)) : imcols f (X *m F) = imcols f X *m F.
Proof. by rewrite !imcolsE mulmxA. Qed.

Lemma imcols_vec k (X : 'M[C]_(N, k)) (c : 'cV[C]_k) : imcols f X *m c = f (X *m c).
Proof. by rewrite imcolsE -mulmxA opmxE. Qed.
End Cols.

(** The projection does not depend on the basis. *)
Section Basis.
Variable C : numClosedFieldType.
Variable N k : nat.
Local Notation vec := 'cV[C]_N.
Variable B : ipB C N.
Hypothesis hB : valid_ip B.
Variables (U V : 'M[C]_(N, k)) (F : 'M[C]_k).
Hypothesis uF : F \in unitmx.
Hypothesis eU : U = V *m F.

Lemma basis_unit (AU AV : 'M[C]_(N, k)) : AU = AV *m F -> inner B U AU \in unitmx -> inner B V AV \in unitmx.
Proof.
by move=> e; rewrite e eU innerMr // innerMl // !unitmx_mul => /andP[/andP[_ ->] _].
Qed.

Lemma basis_alg (AU AV W W' : 'M[C]_(N, k)) m (a : 'M[C]_(N, m)) : AU = AV *m F -> W = W' *m F ->
  inner B U AU \in unitmx ->
  W *m invmx (inner B U AU) *m inner B U a = W' *m invmx (inner B V AV) *m inner B V a.
Proof.
move=> eA eW u; have uV := basis_unit eA u.
have uFh : F^h \in unitmx by rewrite unitmx_ctr.
have e : inner B U AU = F^h *m (inner B V AV *m F) by rewrite eA eU innerMr // innerMl // -mulmxA.
have v : invmx F *m invmx (inner B V AV) *m invmx (F^h) *m inner B U AU = 1%:M.
  by rewrite e -!mulmxA (mulKmx uFh) (mulKmx uV) mulVmx.
have -> : invmx (inner B U AU) = invmx F *m invmx (inner B V AV) *m invmx (F^h).
  by rewrite -[LHS]mul1mx -v mulmxK.
rewrite eW eU innerMl // -!mulmxA (mulmxA F) mulmxV // mul1mx.
by rewrite (mulmxA (invmx (F^h))) mulVmx // mul1mx.
Qed.
End Basis.

Section Oblique.
Variable C : numClosedFieldType.
Variable sqr : forall n k, 'M[C]_(n, k) -> 'M[C]_(n, k) * 'M[C]_k.
Hypothesis hsqr : qr_spec sqr.
Variable N k : nat.
Local Notation vec := 'cV[C]_N.
Variable l : lsys C N.
Hypothesis hl : lsys_ok l.
Variables (Minv : option (vec -> vec)) (same : bool) (U0 : 'M[C]_(N, k)) (kw : pkwargs).
Hypothesis ha : defl_args sqr l Minv same U0 kw.
Local Notation A := (lMlAMr l).
Local Notation ip := (inner (lB l)).

Let hB := lo_B hl.
Let hB' : valid_ip (ip_arg (Some (lB l))) := hB.
Let hA := lMlAMr_lin hl.

Lemma oblique_total : exists ob, mk_oblique sqr l Minv same U0 kw = Ok ob.
Proof.
have [B eB vB] := da_ip ha; rewrite /mk_oblique eB /=.
have [Q [R [-> _ _ _ _]]] := mgs_thm U0 (pk_reorthos kw) vB; rewrite /=.
have [p ->] := mk_proj_total hsqr hB' (mapcols A Q) (if same then None else Some Q) (pk_orth kw) (da_its ha).
by eexists.
Qed.

Variable ob : obl C N k.
Hypothesis hob : mk_oblique sqr l Minv same U0 kw = Ok ob.
Local Notation U := (o_U ob).
Local Notation AU := (o_AU ob).
Local Notation p := (o_p ob).
Local Notation E := (ip U AU).
Local Notation Yo := (if same then None else Some U).

Lemma oblE : [/\ AU = imcols A U, exists2 F, F \in unitmx & U0 = U *m F
   & mk_proj sqr AU Yo (Some (lB l)) (pk_orth kw) (pk_its kw) = Ok p].
Proof.
move: hob; have [B eB vB] := da_ip ha; rewrite /mk_oblique eB /=.
have [Q [R [-> _ [F [_ uF eF]] _ _]]] := mgs_thm U0 (pk_reorthos kw) vB; rewrite /=.
case ep: (mk_proj _ _ _ _ _ _) => [p'|e] //= [eo]; rewrite -eo /=.
by split=> //; exists F.
Qed.

Lemma E_unit : E \in unitmx.
Proof.
have [eA [F uF e] _] := oblE; apply: (basis_unit hB e (AU := imcols A U0)) (da_unit ha).
by rewrite eA e imcolsM.
Qed.

Lemma sameE : same -> AU = U.
Proof.
move=> /(da_same ha) h; have [-> _ _] := oblE; apply/matrixP => i j; by rewrite mxE h mxE.
Qed.

Lemma YoE : (if Yo is Some Y then Y else AU) = U.
Proof. by case: (boolP same) => // /sameE. Qed.

Lemma p_hyps : [/\ inner (ip_arg (Some (lB l))) (if Yo is Some Y then Y else AU) AU \in unitmx,
  pk_orth kw -> Yo = None -> qr_hyp (Some (lB l)) AU &
  pk_orth kw -> qr_hyp (Some (lB l)) (if Yo is Some Y then Y else AU)].
Proof.
rewrite YoE; split; first exact: E_unit.
  by move=> h _; have [_] := da_sep ha h hob.
by move=> h; have [] := da_sep ha h hob.
Qed.

Definition Pd (a : vec) : vec := a - AU *m invmx E *m ip U a.

Lemma PdE a : Pd a = defl_P (lB l) A U0 a.
Proof.
have [eA [F uF e] _] := oblE; rewrite /Pd /defl_P; congr (_ - _); apply/esym.
by apply: (basis_alg hB uF e) (da_unit ha); rewrite eA e imcolsM.
Qed.

Let hk : pk_orth kw -> Some (lB l) = None -> (k <= N)%N. Proof. by []. Qed.

Lemma d_complE a : p_compl p a = Ok (Pd a).
Proof.
have [h1 h2 h3] := p_hyps; have [_ _ hp] := oblE.
by rewrite (complE hsqr hB' hk hp h1 h2) /Pmx YoE.
Qed.

Lemma mx_k00 m (c d : 'M[C]_(k, m)) : k = 0%N -> c = d.
Proof. by move=> e; apply: mx_k0; rewrite e. Qed.

Lemma d_YaE m (a : 'M[C]_(N, m)) : p_Ya p a = ip U a.
Proof.
have [h1 h2 h3] := p_hyps; have [_ _ hp] := oblE.
case: (posnP k) => k0; first exact: mx_k00.
by rewrite (p_YaE hB' (proj_okP hsqr hB' hk hp h1 k0 h2) a h3) YoE.
Qed.

Lemma d_EE : d_E ob = E.
Proof.
have [h1 h2 h3] := p_hyps; have [_ _ hp] := oblE.
case: (posnP k) => k0; first exact: mx_k00.
have po := proj_okP hsqr hB' hk hp h1 k0 h2.
have -> : d_E ob = match pVR p, pWR p with Some VR, Some WR => tconj WR *m (ip (pW p) (pV p) *m VR)
                   | _, _ => ip (pW p) (pV p) end.
  rewrite /d_E; have := po_QR po => /=.
  by case: (pQR p) => [[Q R] [-> _ _]|[-> _]].
case: (boolP (pk_orth kw)) => ho; last first.
  by have [-> _ -> ->] := po_none po ho; rewrite YoE.
have [VR -> e1] := po_VR po ho (proj2 (da_sep ha ho hob)).
have [WR -> e2] := po_WR po ho (h3 ho).
have eU : U = pW p *m WR by rewrite -e2 YoE.
by rewrite tconjE [in RHS]eU [in RHS]e1 innerMr // innerMl // mulmxA.
Qed.

Lemma o_correctE z : o_correct l ob z = Ok (z + U *m (invmx E *m ip U (resid l z))).
Proof.
have [h1 h2 h3] := p_hyps; have [_ _ hp] := oblE.
case: (posnP k) => k0.
  have m0 (X : 'M[C]_(N, k)) (c : 'cV[C]_k) : X *m c = 0.
    by apply/matrixP => i j; rewrite !mxE big1 // => -[t ht]; exfalso; rewrite k0 in ht.
  rewrite m0 addr0; move: hp; rewrite /mk_proj (negbTE (da_its ha)) ifT; last by rewrite k0.
  move=> -[ep]; rewrite /o_correct -ep /p_solve /=.
  by rewrite m0 addr0.
have po := proj_okP hsqr hB' hk hp h1 k0 h2.
rewrite /o_correct (p_solveE hB' h1 po) /= -/(resid l z).
rewrite (po_same po) /=.
case: (boolP (pk_orth kw)) => ho /=; last first.
  by have [_ _ -> ->] := po_none po ho; rewrite YoE.
case: (boolP same) => hs /=.
  have ew : pW p = pV p by apply: (po_WV po) => //; rewrite hs.
  have [F uF eX] := po_X po; have [S uS eY] := po_Y po; move: eY; rewrite YoE => eY.
  congr (Ok (z + _)); rewrite {1}ew (proj_alg hB uF uS eX eY E_unit).
  by rewrite (sameE hs) mulmxA.
have [VR eV e1] := po_VR po ho (proj2 (da_sep ha ho hob)).
have [WR eW e2] := po_WR po ho (h3 ho); rewrite eV eW.
have eU : U = pW p *m WR by rewrite -e2 YoE.
have uWV := WV_unit hB' h1 po.
have eE : E = WR^h *m (ip (pW p) (pV p) *m VR) by rewrite {1}eU {1}e1 innerMr // innerMl // mulmxA.
have uE := E_unit; rewrite eE in uE; have := uE; rewrite !unitmx_mul => /and3P[uW _ uV].
rewrite solve_upperE ?uV /=; last exact: (po_VRu po eV).
have e3 : ip U (resid l z) = WR^h *m ip (pW p) (resid l z) by rewrite {1}eU innerMl.
congr (Ok (z + _)); rewrite e3 eE {1}eU -mulmxA; congr (_ *m (_ *m _)).
apply: (can_inj (mulKmx uE)).
by rewrite (mulKVmx uE) -!mulmxA (mulKVmx uV) (mulKVmx uWV).
Qed.

(** Properties of P. *)
Let hip := valid_is_ip hB.

Lemma AUc (c : 'cV[C]_k) : AU *m c = A (U *m c).
Proof. by have [-> _ _] := oblE; rewrite imcols_vec. Qed.

Lemma span_U (c : 'cV[C]_k) : exists c', U *m c = U0 *m c'.
Proof.
have [_ [F uF e] _] := oblE; exists (invmx F *m c).
by rewrite e -mulmxA mulKVmx.
Qed.

Lemma span_U0 (c : 'cV[C]_k) : exists c', U0 *m c = U *m c'.
Proof. by have [_ [F uF e] _] := oblE; exists (F *m c); rewrite e mulmxA. Qed.

Lemma orth_U (a : vec) : ip U a = 0 <-> ip U0 a = 0.
Proof.
have [_ [F uF e] _] := oblE; rewrite e innerMl //; split=> [->|h]; first by rewrite mulmx0.
have uFh : F^h \in unitmx by rewrite unitmx_ctr.
by apply: (can_inj (mulKmx uFh)); rewrite h mulmx0.
Qed.

Lemma orth_ip (a : vec) (c : 'cV[C]_k) : ip U a = 0 -> ip1 (lB l) (U *m c) a = 0.
Proof. by move=> h; rewrite /ip1 innerMl // h mulmx0 mxE. Qed.

Lemma UPd a : ip U (Pd a) = 0.
Proof. by rewrite /Pd innerBr // -mulmxA innerMr // mulKVmx ?E_unit // subrr. Qed.

Lemma Pd_lin : is_linear Pd.
Proof.
move=> a x y; rewrite /Pd innerDr // innerZr // mulmxDr scalerBr -scalemxAr.
by rewrite opprD addrACA.
Qed.

Lemma PdAU c : Pd (AU *m c) = 0.
Proof. by rewrite /Pd innerMr // -mulmxA mulKmx ?E_unit // subrr. Qed.

(** P A x = A y for some y that differs from x by an element of the span of U *)
Definition cU (x : vec) : 'cV[C]_k := invmx E *m ip U (A x).
Lemma PdA x : Pd (A x) = A (x - U *m cU x).
Proof. by rewrite /Pd -mulmxA AUc -(linB hA). Qed.

Definition dop (v : vec) : vec := Pd (A v).
Lemma d_opE v : d_op l ob v = dop v.
Proof. by rewrite /d_op d_complE. Qed.

Lemma dop_lin : is_linear dop.
Proof. by move=> a x y; rewrite /dop hA Pd_lin. Qed.

Lemma ip1_inner x y : ip1 (lB l) x y = ip x y 0 0. Proof. by []. Qed.

Lemma inner_adj m n (f : vec -> vec) (X : 'M[C]_(N, m)) (Y : 'M[C]_(N, n)) : is_linear f ->
  self_adjoint (ip1 (lB l)) f -> ip (imcols f X) Y = ip X (imcols f Y).
Proof.
move=> hf sa; apply/matrixP => i j; rewrite !inner_entry //.
have e t (Z : 'M[C]_(N, t)) q : col q (imcols f Z) = f (col q Z).
  by apply/matrixP => a b; rewrite !mxE ord1.
by rewrite !e sa.
Qed.

Lemma dop_sa : self_adjoint (ip1 (lB l)) A -> self_adjoint (ip1 (lB l)) dop.
Proof.
move=> sa x y; rewrite /dop /Pd (ipBl hip) (ipBr hip) sa; congr (_ - _).
have [eA _ _] := oblE.
have Eh : E^h = E by rewrite -innerC // eA (inner_adj _ _ hA sa).
have aE z : ip U (A z) = ip AU z.
  rewrite eA (inner_adj _ _ hA sa); congr (inner _ _ _).
  by apply/matrixP => i j; rewrite mxE !ord1 col_id.
rewrite !ip1_inner -!mulmxA innerMl // innerMr // !aE ctrM invmx_ctr Eh -innerC //.
by rewrite mulmxA.
Qed.

Section Pd.
Hypothesis sa : self_adjoint (ip1 (lB l)) A.
Hypothesis pd : pos_def (ip1 (lB l)) A.

Lemma dop_psd x : ip1 (lB l) x (dop x) = ip1 (lB l) (x - U *m cU x) (A (x - U *m cU x)).
Proof.
by rewrite /dop PdA (ipBl hip) -PdA (orth_ip _ (UPd _)) subr0.
Qed.

Lemma dop_spd a : cg_spd (ip1 (lB l)) dop (Pd a).
Proof.
have z (x : vec) : x != 0 \/ x = 0 by case: (eqVneq x 0); [right|left].
split; first exact: dop_sa.
  move=> x; rewrite dop_psd; case: (z (x - U *m cU x)) => [/pd/ltW //|->].
  by rewrite (ipl0 hip).
move=> x; rewrite dop_psd /dop PdA; case: (z (x - U *m cU x)) => [/pd h e|e _].
  by rewrite e ltxx in h.
rewrite e (lin0 hA); split=> //.
by move/eqP: e; rewrite subr_eq0 => /eqP->; apply: orth_ip; apply: UPd.
Qed.

(** The energy of P A is the minimum of the energy of A. *)
Lemma dop_energy_le x : ip1 (lB l) x (dop x) <= ip1 (lB l) x (A x).
Proof.
rewrite dop_psd; set u := U *m cU x; set y := x - u.
have o1 : ip1 (lB l) u (A y) = 0 by rewrite -PdA (orth_ip _ (UPd _)).
have o2 : ip1 (lB l) y (A u) = 0 by rewrite -sa (ipC hip) o1 conjC0.
have ex : x = y + u by rewrite subrK.
have -> : ip1 (lB l) x (A x) = ip1 (lB l) y (A y) + ip1 (lB l) u (A u).
  move: o1 o2; rewrite ex; move: (y) (u) => y' u' o1 o2.
  by rewrite (linD hA) !(ipDl hip) !(ipDr hip) o1 o2 addr0 add0r.
rewrite ler_addl; case: (eqVneq u 0) => [->|/pd/ltW //]; by rewrite (ipl0 hip).
Qed.

Lemma dopU x c : dop (x - U *m c) = dop x.
Proof. by rewrite /dop (linB hA) (linB Pd_lin) -AUc PdAU subr0. Qed.

Lemma dop_energy_min x c : ip1 (lB l) x (dop x) <= ip1 (lB l) (x - U *m c) (A (x - U *m c)).
Proof.
apply: le_trans (dop_energy_le _); rewrite dopU (ipBl hip) (orth_ip _ (UPd _)) subr0 //.
Qed.
End Pd.

(** The Krylov spaces *)
Local Notation M := (lMop l).
Local Notation K a := (in_krylov dop M (Pd a)).

Lemma krylov_MU a n z : K a n z -> exists2 w, z = M w & ip U w = 0.
Proof.
have step i : exists2 w, krylov (fun x => M (dop x)) (M (Pd a)) i = M w & ip U w = 0.
  by case: i => [|i]; eexists=> //=; apply: UPd.
elim: n z => [|n IH] z [c ->].
  by exists 0; rewrite ?big_ord0 ?(lin0 (lo_M hl)) // inner0r.
rewrite big_ord_recr /=; have [|w -> h] := IH (\sum_(i < n) c i *: krylov (fun x => M (dop x)) (M (Pd a)) i).
  by exists c.
have [w' -> h'] := step n; exists (c n *: w' + w); first by rewrite (lo_M hl) addrC.
by rewrite innerDr // innerZr // h h' scaler0 addr0.
Qed.

Lemma dop_inj a : injective_op A -> krylov_inj dop M (Pd a).
Proof.
move=> inj n z hz; have [w ez hw] := krylov_MU hz.
rewrite /dop PdA => /inj/eqP; rewrite subr_eq0 => /eqP ec.
have : ip1 (lB l) z w = 0 by rewrite ec orth_ip.
rewrite ez (lo_Msa hl) => h; have /eqP : w = 0; last by move=> /eqP->; rewrite (lin0 (lo_M hl)).
by apply/eqP; rewrite -(ip_eq0 (lmip hl)) /mip h.
Qed.

(** The residual after the correction *)
Hypothesis hMr : forall c, lMr l (U0 *m c) = U0 *m c.

Lemma MrU c : lMr l (U *m c) = U *m c.
Proof. by have [c' ->] := span_U c. Qed.

Lemma resid_U x c : resid l (x + U *m c) = resid l x - AU *m c.
Proof. by rewrite -MrU (resid_update hl) AUc. Qed.

Lemma resid_correct z x : o_correct l ob z = Ok x -> resid l x = Pd (resid l z).
Proof. by rewrite o_correctE => -[<-]; rewrite resid_U /Pd mulmxA. Qed.

Lemma defl_kd x0 : kd_ok (d_kdata l ob) (lsys_sys l (rhs_norm l)) x0 (Pd (resid l (x0_of x0))).
Proof.
split=> //=; try by case: hl.
- by move=> a x y; rewrite !d_opE dop_lin.
- rewrite /d_res0; have -> : d_Mlr l x0 = resid l (x0_of x0).
    by case: x0 => //=; rewrite /resid (lin0 (lo_A hl)) subr0.
  by rewrite d_complE /= (norm_M hl).
- move=> z; rewrite o_correctE; eexists; first by [].
  set x := _ + U *m _; rewrite -[LHS]/(let! t := get_residual l (rhs_norm l) (Some x) in Ok t.2).
  rewrite (get_residual_some hl) /= /resid_norm; congr (Ok (mnorm _ _ _)).
  have -> : resid l x = Pd (resid l (x0_of x0 + lMr l z)) by apply: resid_correct; rewrite o_correctE.
  by rewrite (resid_update hl) (linB Pd_lin) d_opE.
Qed.

Lemma defl_cfg maxiter ortho : ortho_ok l ortho -> arn_cfg (k_cfg (d_kdata l ob) maxiter ortho).
Proof.
have L : is_linear (d_op l ob) by move=> a x y; rewrite !d_opE dop_lin.
case: ortho => //= h.
- by left; split=> //=; case: hl.
- by left; split=> //=; case: hl.
- left; split=> //=; try by case: hl.
  by move=> x y; rewrite /= !d_opE; apply: dop_sa.
- by case: h => h1 h2 h3; right; split=> //; split.
Qed.

(** From the minimal residual property of the projected problem. *)
Variable x0 : option vec.
Local Notation x := (x0_of x0).
Local Notation P := (defl_P (lB l) A U0).
Local Notation KP := (in_krylov (fun v => P (A v)) M (P (resid l x))).
Local Notation d := (d_kdata l ob).

Lemma krylov_eq f g r n z : (forall v, f v = g v) -> in_krylov f M r n z -> in_krylov g M r n z.
Proof.
move=> h [c ->]; exists c; apply: eq_bigr => i _; congr (_ *: _).
by elim: (i : nat) => //= j ->; rewrite h.
Qed.

Lemma KPE n z : in_krylov (k_A d) (k_Mop d) (Pd (resid l x)) n z <-> KP n z.
Proof.
by rewrite PdE; split; apply: krylov_eq => v /=; rewrite d_opE /dop PdE.
Qed.

Lemma Pd_id a : ip U a = 0 -> Pd a = a.
Proof. by rewrite /Pd => ->; rewrite mulmx0 subr0. Qed.

Lemma rnormP z : rnorm (ip1 (lB l)) (k_A d) (lMop l) (Pd (resid l x)) z =
  mnorm (ip1 (lB l)) M (Pd (resid l (x + lMr l z))).
Proof. by rewrite /rnorm (resid_update hl) (linB Pd_lin) /= d_opE. Qed.

Definition defl_min n (r : C) (xk : vec) : Prop := exists z c,
  [/\ xk = x + lMr l z + U0 *m c, KP n z, ip U0 (resid l xk) = 0, r = resid_norm l xk
    & forall z' c', KP n z' -> ip U0 (resid l (x + lMr l z' + U0 *m c')) = 0 ->
        resid_norm l xk <= resid_norm l (x + lMr l z' + U0 *m c')].

Lemma defl_minimizer n z : minimizer (rnorm (ip1 (k_B d)) (k_A d) (k_Mop d) (Pd (resid l x)))
    (in_krylov (k_A d) (k_Mop d) (Pd (resid l x)) n) z ->
  exists2 xk, o_correct l ob (x + lMr l z) = Ok xk &
    defl_min n (rnorm (ip1 (k_B d)) (k_A d) (k_Mop d) (Pd (resid l x)) z) xk.
Proof.
move=> [h1 h2]; have e := o_correctE (x + lMr l z).
set c := invmx E *m _ in e; have [c0 ec] := span_U c; rewrite ec in e.
eexists; first exact: e.
have rE := resid_correct e; exists z, c0; split=> //.
- by apply/KPE.
- by apply/orth_U; rewrite rE UPd.
- by rewrite rnormP /resid_norm rE.
move=> z' c' hz ho; rewrite /resid_norm rE -rnormP.
apply: le_trans (h2 z' _) _; first by apply/KPE.
rewrite rnormP; have [c1 e1] := span_U0 c'.
have -> : Pd (resid l (x + lMr l z')) = resid l (x + lMr l z' + U0 *m c'); last by [].
by rewrite -[RHS]Pd_id; [rewrite e1 resid_U (linB Pd_lin) PdAU subr0|apply/orth_U].
Qed.

(** Energy norm optimality of deflated CG. *)
Lemma defl_energy n z y : self_adjoint (ip1 (lB l)) A -> pos_def (ip1 (lB l)) A ->
  resid l (x + lMr l y) = 0 ->
  (forall z', KP n z' -> ip1 (lB l) (y - z) (dop (y - z)) <= ip1 (lB l) (y - z') (dop (y - z'))) ->
  exists2 c, o_correct l ob (x + lMr l z) = Ok (x + lMr l z + U0 *m c) &
    forall z' c', KP n z' -> ip1 (lB l) (y - (z + U0 *m c)) (A (y - (z + U0 *m c))) <=
                             ip1 (lB l) (y - (z' + U0 *m c')) (A (y - (z' + U0 *m c'))).
Proof.
move=> sa pd hy hm; have rz : resid l (x + lMr l z) = A (y - z).
  have /eqP := hy; rewrite (resid_update hl) subr_eq0 => /eqP e.
  by rewrite (resid_update hl) e -(linB hA).
have e := o_correctE (x + lMr l z); rewrite rz -/(cU (y - z)) in e.
have [c0 ec] := span_U (cU (y - z)); exists c0; first by rewrite e ec.
move=> z' c' hz; have [c1 e1] := span_U0 c'; rewrite e1 -ec !opprD !addrA.
rewrite -dop_psd //; apply: le_trans (hm _ hz) _; exact: dop_energy_min.
Qed.

(** The attribute C of the deflated solvers. *)
Variable o : opts C.
Variable snorm : nat -> nat -> (nat -> nat -> C) -> C.
Variable ortho : ortho_t.
Hypothesis ho : ortho_ok l ortho.
Local Notation ys := (lsys_sys l (rhs_norm l)).

Definition log_ok (a : arn C N) (Cs : seq 'cV[C]_k) : Prop :=
  size Cs = a_iter a /\ forall j, (j < a_iter a)%N -> nth 0 Cs j = ip U (A (a_V a j)).

Lemma log_ok_advance c a a' Cs : log_ok a Cs -> advance snorm c a = Ok a' ->
  log_ok a' (rcons Cs (d_UAv l ob (a_V a (a_iter a)))).
Proof.
move=> [h1 h2] E; have := advance_cases snorm c a; rewrite E => e.
split; first by rewrite size_rcons h1 e.
move=> j; rewrite e ltnS nth_rcons h1 => hj.
rewrite (advance_V E hj); move: hj; rewrite leq_eqVlt => /orP[/eqP->|hj].
  by rewrite ltnn eqxx /d_UAv d_YaE.
by rewrite hj h2.
Qed.

Lemma gmres_log s : y_bnorm ys != 0 ->
  of_run (krun ys o (d_gmres snorm l ob (o_maxiter o) ortho) x0) s ->
  log_ok (gm_a (s_st s).1) (s_st s).2.
Proof.
move=> nb h; pose I := gm_inv d x0 (Pd (resid l x)) (o_maxiter o) snorm ortho.
have hd := defl_kd x0; have hc := defl_cfg (o_maxiter o) ho.
have := @logged_inv C N _ (gmres snorm d (o_maxiter o) ortho) _ _ ys o x0 I (fun t => log_ok (gm_a t)) (gmres_good _ _ _ _) nb.
move=> hh; have {hh} := hh _ _ _ _ _ s h; case=> //.
- move=> t E; split; first exact: (gm_start_inv snorm hd hc E).
  have e : a_iter (gm_a t) = 0%N by apply: (gm_start (gmres_good d (o_maxiter o) snorm ortho) E).
  by split; rewrite e.
- move=> t t' r Cs i1 h1 hi _ E.
  split; first by have [] := gm_step_inv hd hc i1 hi E.
  by move: E; rewrite /= /gmres_step; case Ea: (advance _ _ _) => [a|//] /= [<- _]; apply: log_ok_advance Ea.
Qed.

Lemma minres_log s : self_adjoint (ip1 (lB l)) A -> y_bnorm ys != 0 ->
  of_run (krun ys o (d_minres snorm l ob (o_maxiter o) ortho) x0) s ->
  log_ok (mr_a (s_st s).1) (s_st s).2.
Proof.
move=> sa nb h; have hd := defl_kd x0; have hc := defl_cfg (o_maxiter o) ho.
have := @logged_inv C N _ (minres snorm d (o_maxiter o) ortho) _ _ ys o x0 (fun _ => True) (fun t => log_ok (mr_a t)) (minres_good _ _ _ _) nb.
move=> hh; have {hh} := hh _ _ _ _ _ s h; case=> //.
- move=> t E; split=> //.
  have e : a_iter (mr_a t) = 0%N by apply: (gm_start (minres_good d (o_maxiter o) snorm ortho) E).
  by split; rewrite e.
- move=> t t' r Cs i1 h1 hi _ E; split=> //.
  move: E; rewrite /= /minres_step => E; have [a Ea] := bind_ok E => {E}.
  case: (if mr_G1 t is Some g then _ else _) => p1 p2.
  case: (if mr_G2 t is Some g then _ else _) => q1 q2.
  by case: (givens_apply _ _ _) => y0 y1; case: ifP => // _ [<- _]; apply: log_ok_advance Ea.
Qed.

(** Deflated CG: the recurrence for C. *)
Section CgLog.
Hypothesis sa : self_adjoint (ip1 (lB l)) A.
Hypothesis pd : pos_def (ip1 (lB l)) A.
Variable store : bool.
Local Notation r0 := (Pd (resid l x)).
Local Notation cr := (cr (ip1 (lB l)) (d_op l ob) M r0).
Local Notation cp := (cp (ip1 (lB l)) (d_op l ob) M r0).
Local Notation rho := (rho (ip1 (lB l)) (d_op l ob) M r0).
Local Notation cV := (cV (ip1 (lB l)) (d_op l ob) M r0).
Local Notation w i := (ip U (A (cp i))).

Lemma d_op_spd : cg_spd (ip1 (k_B d)) (k_A d) r0.
Proof.
have [h1 h2 h3] := dop_spd sa pd (resid l x); split=> /=.
- by move=> u v; rewrite !d_opE h1.
- by move=> u; rewrite d_opE.
- by move=> u; rewrite d_opE; apply: h3.
Qed.

Record cglog_ok (t : cgst C N) (lg : seq 'cV[C]_k * seq 'cV[C]_k) : Prop := CgLogOk {
  cl_s1 : size lg.1 = cg_it t; cl_s2 : size lg.2 = cg_it t;
  cl_w : forall j, (j < cg_it t)%N -> nth 0 lg.1 j = w ((cg_it t).-1 - j)%N;
  cl_C : forall j, (j < cg_it t)%N -> nth 0 lg.2 j = ip U (A (cV ((cg_it t).-1 - j)%N));
  cl_rho : forall j, (j <= cg_it t)%N -> nth 0 (cg_rhos t) j = rho (cg_it t - j)%N }.

Lemma UA_lin a u v : ip U (A (a *: u + v)) = a *: ip U (A u) + ip U (A v).
Proof. by rewrite hA innerDr // innerZr. Qed.

Lemma rho_gt i : cr i != 0 -> 0 < rho i.
Proof. by move=> nz; rewrite lt_def (ip_ge0' (lmip hl)) andbT (ip_eq0 (lmip hl)). Qed.

Lemma log_alg1 (g a0 a1 b : C) (wk w1 : 'cV[C]_k) : a0 != 0 -> a1 != 0 ->
  (g / a0) *: (wk - (1 + b) *: w1) - (a1 / a0) *: ((- g / a1) *: w1) = (g / a0) *: (wk - b *: w1).
Proof. by move=> h0 h1; apply/matrixP => i j; rewrite !mxE; field; rewrite h0 h1. Qed.

Lemma log_alg2 (g a0 a1 b b1 : C) (wk w1 w2 : 'cV[C]_k) : a0 != 0 -> a1 != 0 ->
  (g / a0) *: (wk - (1 + b) *: w1 + b1 *: w2) - (a1 / a0) *: ((- g / a1) *: (w1 - b1 *: w2)) =
  (g / a0) *: (wk - b *: w1).
Proof.
move=> h0 h1; apply/matrixP => i j; rewrite !mxE; move: (wk i j) (w1 i j) (w2 i j) => u v y.
by field; rewrite h0 h1.
Qed.

(** The value appended to C. *)
Lemma cg_log_val t UAps Cs : let kk := cg_it t in
  cg_ok d x0 r0 store t -> cr kk != 0 -> cglog_ok t (UAps, Cs) ->
  cg_log l ob t (UAps, Cs) = (w kk :: UAps, ip U (A (cV kk)) :: Cs).
Proof.
move=> kk h nz [s1 s2 hw hC hr]; rewrite /cg_log.
have ep : cg_nextp t = cp kk.
  rewrite /cg_nextp -(cg_dir h) /cg_nextp; case: posnP => // k0; congr (_ + _ *: _).
  by rewrite /be (prednK k0) (hr 0%N) // subn0 (hr 1%N) // subn1.
have ew : d_UAv l ob (cg_nextp t) = w kk by rewrite ep /d_UAv d_YaE.
rewrite ew; congr (_, _ :: _) => /=.
have r0E : nth 0 (cg_rhos t) 0 = rho kk by rewrite hr // subn0.
rewrite r0E; have sk0 : sqrtC (rho kk) != 0 by rewrite sqrtC_eq0 gt_eqF ?rho_gt.
have eV i : ip U (A (cV i)) = ((-1) ^+ i / sqrtC (rho i)) *: ip U (A (M (cr i))).
  by rewrite /CgTheory.cV (linZ hA) innerZr.
have eMr i : ip U (A (M (cr i.+1))) = w i.+1 - be (ip1 (lB l)) (d_op l ob) M r0 i *: w i.
  by rewrite cpS [M _ + _]addrC UA_lin [_ + ip U _]addrC addrK.
case: (posnP kk) => [k0|k0].
  by rewrite -/kk k0 /= eV.
have ek : kk = kk.-1.+1 by rewrite prednK.
have r1E : nth 0 (cg_rhos t) 1 = rho kk.-1 by rewrite hr // subn1.
have w1E : nth 0 UAps 0 = w kk.-1 by rewrite hw // subn0.
have C1E : nth 0 Cs 0 = ip U (A (cV kk.-1)) by rewrite hC // subn0.
have nz1 : cr kk.-1 != 0 by apply: (ci_nz h); rewrite -/kk {2}ek.
have sk1 : sqrtC (rho kk.-1) != 0 by rewrite sqrtC_eq0 gt_eqF ?rho_gt.
have sq : sqrtC (rho kk.-1 / rho kk) = sqrtC (rho kk.-1) / sqrtC (rho kk).
  rewrite -{1}[rho kk.-1]sqrtCK -{1}[rho kk]sqrtCK -exprVn -exprMn sqrCK //.
  by rewrite divr_ge0 ?sqrtC_ge0 ?ltW ?rho_gt.
have sg : (-1) ^+ kk.-1 = - (-1) ^+ kk :> C by rewrite {2}ek exprS mulN1r opprK.
have eK : ip U (A (M (cr kk))) = w kk - (rho kk / rho kk.-1) *: w kk.-1.
  by rewrite {1}ek eMr /be -ek.
rewrite -/kk r1E w1E C1E sq !eV sg eK.
case: ifP => k1; last first.
  have k01 : kk.-1 = 0%N by case: (kk) k1 => [|[]].
  by rewrite k01 in sk1 *; rewrite log_alg1.
have ek1 : kk.-1 = kk.-2.+1 by case: (kk) k1 => [|[]].
have r2E : nth 0 (cg_rhos t) 2 = rho kk.-2 by rewrite hr // subn2.
have w2E : nth 0 UAps 1 = w kk.-2 by rewrite hw // subn1.
have eK1 : ip U (A (M (cr kk.-1))) = w kk.-1 - (rho kk.-1 / rho kk.-2) *: w kk.-2.
  by rewrite ek1 eMr /be.
by rewrite r2E w2E eK1 log_alg2.
Qed.

Lemma cg_log_run s : y_bnorm ys != 0 -> of_run (krun ys o (d_cg l ob store) x0) s ->
  cglog_ok (s_st s).1 (s_st s).2.
Proof.
move=> nb h; have hd := defl_kd x0; have sp := d_op_spd.
have := @logged_inv C N _ (cg d store) _ _ ys o x0 (cg_ok d x0 r0 store) cglog_ok (cg_good _ _) nb.
move=> hh; have {hh} := hh _ _ _ _ _ s h; case=> //.
- move=> t E; have i1 := cg_start_inv hd E; split=> //.
  have e : cg_it t = 0%N by apply: (gm_start (cg_good d store) E).
  by split=> /=; rewrite ?e // => j; rewrite leqn0 => /eqP->; rewrite (ci_rho i1) e.
- move=> t t' r [UAps Cs] i1 h1 hi _ E.
  have [i2 it2 _] := cg_step_inv hd sp i1 E; split=> //.
  have [nz er] := cg_step_rhos hd sp i1 E.
  rewrite (cg_log_val i1 nz h1); case: h1 => /= s1 s2 hw hC hr.
  split=> /=; rewrite ?s1 ?s2 it2 //=.
  + by case=> [|j] hj /=; rewrite ?subn0 ?hw // subnS -subn1 -subnDA addnC subnDA subn1.
  + by case=> [|j] hj /=; rewrite ?subn0 ?hC // subnS -subn1 -subnDA addnC subnDA subn1.
  by rewrite er => -[|j] hj //=; rewrite hr.
- move=> t x' r lg i1 h1 ht E Er; have e := cg_explicit hd i1 E Er.
  have i2 := cg_feed_inv i1 e; split=> //.
  case: h1 => s1 s2 hw hC hr; split=> //= -[|j] hj.
    by have := ci_rho i2; rewrite subn0.
  by rewrite -(hr j.+1 hj); case: (cg_rhos t) => [|a1 a2] /=; rewrite ?nth_nil.
Qed.
End CgLog.
End Oblique.
