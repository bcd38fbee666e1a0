(** C08-C10, C12: QR factorisation, projections and the Hegedus trick. *)
From mathcomp Require Import all_ssreflect all_algebra ring.
From Verif Require Import Base Spec.LinAlg Model.Inner Spec.Inner Proof.Algebra Proof.Inner Proof.IpTheory.
From Verif Require Import Spec.Arnoldi Proof.Arnoldi.
From Verif Require Import Model.Projection Spec.Projection Proof.Qr Proof.QrExist Proof.Projection.

Set Implicit Arguments.
Unset Strict Implicit.
Unset Printing Implicit Defensive.
Import Order.TTheory GRing.Theory Num.Theory.
Local Open Scope ring_scope.

Local Arguments norm : simpl never.

Section Properties.
Variable C : numClosedFieldType.
(** scipy.linalg.qr *)
Variable sqr : forall n k, 'M[C]_(n, k) -> 'M[C]_(n, k) * 'M[C]_k.
Hypothesis hsqr : qr_spec sqr.

Section Qr.
Variable N : nat.

(** C08.  qr with an inner product: modified Gram-Schmidt.  Columns that are separated by
    1e-15 give an orthonormal factorisation with R_ii >= 1e-15. *)
Theorem C08_qr (B : ipB C N) k (X : 'M[C]_(N, k)) reorthos : valid_ip B ->
  separated (ip1 B) (eps15 C) X ->
  exists Q R, [/\ qr sqr (Some B) X reorthos = Ok (Q, R), X = Q *m R, inner B Q Q = 1%:M,
    upper_tri R & forall i, eps15 C <= R i i].
Proof.
move=> hB hs; have [Q [R [e [h1 h2] h3 h4 h5]]] := mgs_thm X reorthos hB.
by have [h6 h7] := h4 (h5 hs); exists Q, R; split=> //; apply: h5.
Qed.

(** Without an inner product the result is scipy's. *)
Theorem C08_qr_euclid k (X : 'M[C]_(N, k)) reorthos : (0 < k <= N)%N ->
  exists Q R, [/\ qr sqr None X reorthos = Ok (Q, R), X = Q *m R, Q^h *m Q = 1%:M & upper_tri R].
Proof.
move=> /andP[h0 hk]; rewrite /qr h0; exists (sqr X).1, (sqr X).2.
by have [h1 h2 h3] := hsqr X hk; split=> //; case: (sqr X).
Qed.

(** In every case: R is upper triangular with nonnegative diagonal, and the first i columns
    of Q span the same space as the first i columns of X (F is upper triangular and
    nonsingular). *)
Theorem C08_span (B : ipB C N) k (X : 'M[C]_(N, k)) reorthos : valid_ip B ->
  exists Q R F, [/\ qr sqr (Some B) X reorthos = Ok (Q, R), upper_tri R, forall i, 0 <= R i i,
    upper_tri F & F \in unitmx /\ X = Q *m F].
Proof.
move=> hB; have [Q [R [e [h1 h2] [F [f1 f2 f3]] h4 h5]]] := mgs_thm X reorthos hB.
by exists Q, R, F; split.
Qed.

(** The columns after the test on R. *)
Theorem C08_qr_posteriori (B : ipB C N) k (X : 'M[C]_(N, k)) reorthos Q R : valid_ip B ->
  qr sqr (Some B) X reorthos = Ok (Q, R) -> (forall i, eps15 C <= R i i) ->
  X = Q *m R /\ inner B Q Q = 1%:M.
Proof.
move=> hB; have [Q' [R' [e _ _ h4 _]]] := mgs_thm X reorthos hB.
by rewrite /qr e => -[<- <-] h; apply: h4.
Qed.

(** More columns than rows: Q is not orthonormal, but nothing is raised. *)
Theorem C08_rank_deficient_refuted (B : ipB C N) k (X : 'M[C]_(N, k)) reorthos : valid_ip B -> (N < k)%N ->
  exists Q R, qr sqr (Some B) X reorthos = Ok (Q, R) /\ inner B Q Q <> 1%:M.
Proof.
move=> hB hk; have [Q [R [e _ _ _ _]]] := mgs_thm X reorthos hB.
exists Q, R; split=> // h.
have /mulmx1_min : (Q^h *m gramB B) *m Q = 1%:M by rewrite -inner_gram.
by rewrite leqNgt hk.
Qed.
End Qr.

(** A column that is shorter than 1e-15 is not normalised: X <> Q R. *)
Theorem C08_threshold_refuted :
  exists (X Q R : 'M[C]_1), qr sqr (Some IpNone) X 0 = Ok (Q, R) /\ X <> Q *m R.
Proof. exact: qr_small. Qed.

Section Proj.
Variable N k : nat.
Variable B : option (ipB C N).
Variable X : 'M[C]_(N, k).
Variable Yo : option 'M[C]_(N, k).
Variable orth : bool.
Variable its : nat.
(** Y=None means Y=X. *)
Let Y := if Yo is Some Y then Y else X.
Local Notation ip := (inner (ip_arg B)).

(** C10.  iterations < 1 is rejected; everything else is accepted. *)
Theorem C10_iterations : mk_proj sqr X Yo B orth 0 = Err ArgumentError.
Proof. by []. Qed.
Theorem C10_constructed : valid_ip (ip_arg B) -> its != 0%N -> exists p, mk_proj sqr X Yo B orth its = Ok p.
Proof. by move=> hB; apply: mk_proj_total. Qed.

Variable p : proj C N k.
Hypothesis hp : mk_proj sqr X Yo B orth its = Ok p.

Section Args.
Hypothesis ha : proj_args B X Yo orth.
Let hB := pa_B ha.
Let hu := pa_unit ha.

(** C09.  The projection as a formula. *)
Theorem C09_formula m (a : 'M[C]_(N, m)) :
  p_apply p a = Ok (X *m invmx (ip Y X) *m ip Y a).
Proof. by rewrite (applyE hsqr hB (pa_k ha) hp hu (pa_sep ha)). Qed.

(** apply(a) is the only vector in the span of X with <Y, a - apply(a)> = 0. *)
Theorem C09_projection m (a : 'M[C]_(N, m)) : exists Pa, p_apply p a = Ok Pa /\
  forall b : 'M[C]_(N, m), b = Pa <-> (exists c, b = X *m c) /\ ip Y (a - b) = 0.
Proof.
eexists; split; first exact: C09_formula.
move=> b; split=> [->|[[c ->]]].
  split; first by exists (invmx (ip Y X) *m ip Y a); rewrite mulmxA.
  by rewrite innerBr // -mulmxA innerMr // mulmxA mulmxV ?mul1mx ?subrr.
rewrite innerBr // innerMr // => /subr0_eq ->.
by rewrite -mulmxA (mulKmx hu).
Qed.

Theorem C09_idempotent m (a : 'M[C]_(N, m)) : (let! x := p_apply p a in p_apply p x) = p_apply p a.
Proof.
by rewrite C09_formula /= C09_formula -!mulmxA (innerMr hB) (mulmxA (invmx _) (ip Y X)) mulVmx // mul1mx.
Qed.

Theorem C09_range m (a : 'M[C]_(N, m)) : (exists c, a = X *m c) <-> p_apply p a = Ok a.
Proof.
rewrite C09_formula; split=> [[c ->]|[h]].
  by rewrite -!mulmxA (innerMr hB) (mulKmx hu).
by exists (invmx (ip Y X) *m ip Y a); rewrite mulmxA h.
Qed.

Theorem C09_kernel m (a : 'M[C]_(N, m)) : p_apply p a = Ok 0 <-> ip Y a = 0.
Proof.
rewrite C09_formula; split=> [[h]|->]; last by rewrite mulmx0.
have := congr1 (fun z => ip Y z) h; rewrite inner0r // -!mulmxA (innerMr hB).
by rewrite mulmxA mulmxV // mul1mx.
Qed.

Theorem C09_linear m (al : C) (a b : 'M[C]_(N, m)) :
  p_apply p (al *: a + b) = let! x := p_apply p a in let! y := p_apply p b in Ok (al *: x + y).
Proof. by rewrite !C09_formula /= innerDr // innerZr // mulmxDr -scalemxAr. Qed.

(** matrix() represents apply. *)
Theorem C09_matrix : exists2 P, p_matrix p = Ok P & forall m (a : 'M[C]_(N, m)), p_apply p a = Ok (P *m a).
Proof.
eexists; first exact: C09_formula.
by move=> m a; rewrite C09_formula -!mulmxA -(innerMr hB) mul1mx.
Qed.

(** C10. *)
Theorem C10_complement m (a : 'M[C]_(N, m)) : p_compl p a = let! x := p_apply p a in Ok (a - x).
Proof. by rewrite C09_formula (complE hsqr hB (pa_k ha) hp hu (pa_sep ha)). Qed.

Theorem C10_adjoint m n (a : 'M[C]_(N, m)) (b : 'M[C]_(N, n)) :
  exists x y, [/\ p_apply p a = Ok x, p_apply_adj p b = Ok y & ip x b = ip a y].
Proof.
do 2 eexists; split; first exact: C09_formula.
  by rewrite (apply_adjE hsqr hB (pa_k ha) hp hu (pa_sep ha)).
exact: (adjointE hB X Yo).
Qed.

Theorem C10_complement_adjoint m n (a : 'M[C]_(N, m)) (b : 'M[C]_(N, n)) :
  exists x y, [/\ p_compl p a = Ok x, p_compl_adj p b = Ok y & ip x b = ip a y].
Proof.
do 2 eexists; split; first by rewrite (complE hsqr hB (pa_k ha) hp hu (pa_sep ha)).
  by rewrite (compl_adjE hsqr hB (pa_k ha) hp hu (pa_sep ha)).
by rewrite innerBl // innerBr // (adjointE hB X Yo).
Qed.

(** return_Ya=True *)
Theorem C10_Ya m (a : 'M[C]_(N, m)) : (orth -> qr_hyp B Y) ->
  p_apply_Ya p a = (let! x := p_apply p a in Ok (x, ip Y a)) /\
  p_compl_Ya p a = (let! x := p_compl p a in Ok (x, ip Y a)).
Proof.
move=> h; rewrite C10_complement C09_formula /=.
by rewrite (apply_YaE hsqr hB (pa_k ha) hp hu (pa_sep ha)) // (compl_YaE hsqr hB (pa_k ha) hp hu (pa_sep ha)).
Qed.

(** operator() and operator_complement() apply the projection and its complement. *)
Theorem C10_operators m (a : 'M[C]_(N, m)) :
  [/\ (p_operator p m).1 a = p_apply p a, (p_operator p m).2 a = p_apply_adj p a,
      (p_operator_compl p m).1 a = p_compl p a & (p_operator_compl p m).2 a = p_compl_adj p a].
Proof.
by rewrite /p_operator /p_operator_compl /p_apply /p_apply_adj /p_compl /p_compl_adj; case: (k == 0%N).
Qed.
End Args.

(** C09.  No columns: the zero operator, and the identity as the complement. *)
Theorem C09_empty m (a : 'M[C]_(N, m)) : k = 0%N ->
  p_apply p a = Ok 0 /\ p_compl p a = Ok a.
Proof. by move=> /eqP e; rewrite /p_apply /p_compl e. Qed.

(** C09.  A singular <Y, X> is detected (in exact arithmetic) whenever Y is given, if the
    bases are taken as they are or orthogonalised with Gram-Schmidt. *)
Theorem C09_singular_raises Y' m (a : 'M[C]_(N, m)) : valid_ip (ip_arg B) -> Yo = Some Y' -> (0 < k)%N ->
  (orth -> B <> None) -> ip Y' X \notin unitmx -> p_apply p a = Err LinAlgError.
Proof. exact: (apply_singular hsqr hp). Qed.
End Proj.

(** C09.  A column that is shorter than 1e-15 is not normalised, and the result is not a
    projection. *)
Theorem C09_small_refuted : exists (X : 'M[C]_1) (p : proj C 1 1),
  [/\ mk_proj sqr X None (Some IpNone) true 2 = Ok p, inner IpNone X X \in unitmx &
      p_apply p X <> Ok X].
Proof. exact: (proj_small sqr). Qed.

(** C12.  The residual norm of hegedus is ||M Ml (b - A y)||_{M^-1}. *)
Section Hegedus.
Variable N : nat.
Local Notation vec := 'cV[C]_N.
Variables (A M Ml : vec -> vec) (b x0 : vec) (B : ipB C N).
Hypothesis hB : valid_ip B.
Hypothesis hA : is_linear A.
Hypothesis hMl : is_linear Ml.
Hypothesis hM : is_linear M.
Hypothesis hsa : self_adjoint (ip1 B) M.
Hypothesis hpd : pos_def (ip1 B) M.
Let rn y := ipnorm (mip (ip1 B) M) (Ml (b - A y)).
Let w := Ml (A x0).

Theorem C12_hegedus_multiple : exists g, hegedus A b x0 M Ml B = Ok (g *: x0).
Proof. by rewrite /hegedus; case: ifP; [exists 0; rewrite scale0r|eexists]. Qed.

Theorem C12_hegedus_optimal : eps15 C < ip1 B (M w) w -> exists2 y, hegedus A b x0 M Ml B = Ok y &
  forall g : C, rn y <= rn (g *: x0).
Proof.
move=> hw; rewrite /hegedus -/w (lt_geF hw); eexists; first by [].
move=> g; have hm := mip_is_ip (valid_is_ip hB) hM hsa hpd.
have mipE x y : ip1 B (M x) y = mip (ip1 B) M x y by rewrite /mip hsa.
rewrite !mipE in hw *; set al := _ / _.
have w0 : mip (ip1 B) M w w != 0 by rewrite gt_eqF // (lt_trans (eps15_gt0 C)).
have lz c : Ml (b - A (c *: x0)) = Ml b - c *: w by rewrite (linZ hA) (linB hMl) (linZ hMl).
rewrite /rn (ipnorm_le hm) !lz; set s := Ml b.
have -> : s - g *: w = (s - al *: w) + (al - g) *: w by rewrite scalerBl addrA subrK.
rewrite [X in _ <= X](pythagoras hm); first by rewrite ler_addl (ip_ge0' hm).
rewrite (ipZr hm) [mip _ _ _ w](ipC hm) (ipBr hm) (ipZr hm) /al divfK // subrr conjC0 mulr0 //.
Qed.

Theorem C12_hegedus_never_worse : exists2 y, hegedus A b x0 M Ml B = Ok y & rn y <= rn 0.
Proof.
case: (boolP (eps15 C < ip1 B (M w) w)) => [/C12_hegedus_optimal[y -> h]|h].
  by exists y => //; have := h 0; rewrite scale0r.
exists 0; last by [].
have r1 : eps15 C \is Num.real by rewrite ger0_real // ltW // eps15_gt0.
have r2 : ip1 B (M w) w \is Num.real.
  by rewrite ger0_real // hsa; apply: (ip_ge0' (mip_is_ip (valid_is_ip hB) hM hsa hpd)).
by rewrite /hegedus -/w real_leNgt // h.
Qed.
End Hegedus.

(** C12.  Below the threshold the result is 0 and not optimal. *)
Theorem C12_threshold_refuted : exists x0 b : 'cV[C]_1,
  [/\ hegedus id b x0 id id IpNone = Ok 0, b != 0 & x0 = b].
Proof.
exists ((eps15 C)%:M), ((eps15 C)%:M); split=> //.
  rewrite /hegedus /ip1 /= !tconjE; case: ifP => // /negP[].
  have e0 := ltW (eps15_gt0 C).
  rewrite mxE big_ord1 !mxE eqxx mulr1n geC0_conj // ler_pimulr //.
  by rewrite /eps15 invf_le1 ?exprn_ege1 ?ler1n ?exprn_gt0 ?ltr0n.
by apply/eqP => /matrixP/(_ 0 0)/eqP; rewrite !mxE eqxx mulr1n gt_eqF ?eps15_gt0.
Qed.
End Properties.

(** The assumptions can be met. *)
Section Examples.
Variable C : numClosedFieldType.

Example C08_scipy_qr : qr_spec (@some_qr C). Proof. exact: some_qr_spec. Qed.

(** The unit vectors are separated in the inner product of diag(1,2). *)
Let D : 'M[C]_2 := diag_mx (\row_(i < 2) (i.+1)%:R).
Let B12 : ipB C 2 := IpOp D.

Lemma B12E (x y : 'cV[C]_2) : inner B12 x y = (x^h *m D *m y).
Proof. by rewrite innerOp //; case: (diag12_valid C). Qed.

Lemma eps15_le1 : eps15 C <= 1.
Proof. by rewrite /eps15 invf_le1 ?exprn_ege1 ?ler1n ?exprn_gt0 ?ltr0n. Qed.

Example C08_separated : valid_ip B12 /\ separated (ip1 B12) (eps15 C) (1%:M : 'M[C]_2).
Proof.
split; first exact: diag12_valid.
move=> i c; set x := col i _ - _; apply: le_trans eps15_le1 _.
have xi : x i 0 = 1.
  rewrite /x !mxE eqxx summxE big1 ?subr0 // => j hj; rewrite !mxE.
  by rewrite -val_eqE /= gtn_eqF // mulr0.
move: (x) xi => {c}x xi; rewrite -(@ler_pexpn2r _ 2) ?nnegrE ?ler01 ?sqrtC_ge0 //; last first.
  by have := ip_ge0' (valid_is_ip (diag12_valid C)) x.
rewrite expr1n /ipnorm sqrtCK /ip1 B12E -mulmxA mul_diag_mx mxE (bigD1 i) //=.
rewrite ctrE !mxE xi conjC1 mul1r mulr1 ler_paddr ?ler1n // sumr_ge0 // => j _.
by rewrite ctrE !mxE mulrCA mulr_ge0 ?ler0n // mulrC -normCK exprn_ge0.
Qed.

(** An oblique projection onto the span of X = (1,0)^T along the complement of
    Y = (1,1)^T, with and without orthogonalisation, and an orthogonal one. *)
Let X0 : 'cV[C]_2 := delta_mx 0 0.
Let Y0 : 'cV[C]_2 := \col_i 1.

Example C09_args :
  [/\ proj_args (Some B12) X0 (Some Y0) true, proj_args None X0 (Some Y0) false
    & proj_args (Some B12) (1%:M : 'M[C]_2) None true].
Proof.
have hB := diag12_valid C.
have u1 : inner B12 Y0 X0 = 1%:M.
  apply/matrixP => i j; rewrite !ord1 B12E -mulmxA mul_diag_mx !mxE big_ord_recl big_ord1.
  by rewrite !ctrE !mxE /= conjC1 !mulr1 !mulr0 addr0.
have u2 : inner IpNone Y0 X0 = 1%:M.
  apply/matrixP => i j; rewrite !ord1 /= tconjE !mxE big_ord_recl big_ord1.
  by rewrite !ctrE !mxE /= conjC1 !mulr1 !mulr0 addr0.
have u3 : inner B12 (1%:M : 'M[C]_2) 1%:M \in unitmx.
  rewrite innerOp; last by case: hB.
  rewrite ctr1 mul1mx mulmx1 unitmxE det_diag big_ord_recl big_ord1 !mxE /= mul1r.
  by rewrite unitfE pnatr_eq0.
split; split=> //; rewrite ?u1 ?u2 ?unitmx1 //.
by move=> _ _; case: C08_separated.
Qed.

Example C09_run : exists p, mk_proj (@some_qr C) X0 (Some Y0) (Some B12) true 2 = Ok p /\
  p_apply p Y0 = Ok (3%:R *: X0).
Proof.
have [ha _ _] := C09_args.
have [p hp] := C10_constructed (@some_qr_spec C) X0 (Some Y0) true (pa_B ha) (isT : 2%N != 0%N).
exists p; split=> //; rewrite (C09_formula (@some_qr_spec C) hp ha).
transitivity (Ok (X0 *m invmx (inner B12 Y0 X0) *m inner B12 Y0 Y0)); first by [].
have -> : inner B12 Y0 X0 = 1%:M.
  apply/matrixP => i j; rewrite !ord1 B12E -mulmxA mul_diag_mx !mxE big_ord_recl big_ord1.
  by rewrite !ctrE !mxE /= conjC1 !mulr1 !mulr0 addr0.
have -> : inner B12 Y0 Y0 = 3%:R%:M.
  apply/matrixP => i j; rewrite !ord1 B12E -mulmxA mul_diag_mx !mxE big_ord_recl big_ord1.
  by rewrite !ctrE !mxE /= conjC1 !mulr1 !mul1r mulr1n -[3%N]/(1 + 2)%N natrD.
by rewrite invmx1 mulmx1 mul_mx_scalar.
Qed.

Example C12_run : exists y : 'cV[C]_2, hegedus (fun x => D *m x) X0 X0 id id B12 = Ok y.
Proof.
have hB := diag12_valid C; have pd : pos_def (ip1 B12) id by move=> x; apply: (ip_pos (valid_is_ip hB)).
have li : is_linear (@id 'cV[C]_2) by [].
by have [y e _] := C12_hegedus_never_worse X0 X0 hB (lin_mx D) li li (fun x y => erefl) pd; exists y.
Qed.
End Examples.

Print Assumptions C08_qr.
Print Assumptions C08_qr_euclid.
Print Assumptions C08_span.
Print Assumptions C08_qr_posteriori.
Print Assumptions C08_rank_deficient_refuted.
Print Assumptions C08_threshold_refuted.
Print Assumptions C10_iterations.
Print Assumptions C10_constructed.
Print Assumptions C09_formula.
Print Assumptions C09_projection.
Print Assumptions C09_idempotent.
Print Assumptions C09_range.
Print Assumptions C09_kernel.
Print Assumptions C09_linear.
Print Assumptions C09_matrix.
Print Assumptions C10_complement.
Print Assumptions C10_adjoint.
Print Assumptions C10_complement_adjoint.
Print Assumptions C10_Ya.
Print Assumptions C10_operators.
Print Assumptions C09_empty.
Print Assumptions C09_singular_raises.
Print Assumptions C09_small_refuted.
Print Assumptions C12_hegedus_multiple.
Print Assumptions C12_hegedus_optimal.
Print Assumptions C12_hegedus_never_worse.
Print Assumptions C12_threshold_refuted.
Print Assumptions C08_scipy_qr.
Print Assumptions C08_separated.
Print Assumptions C09_args.
Print Assumptions C09_run.
Print Assumptions C12_run.
