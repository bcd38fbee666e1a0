(** Gram matrices, triangular systems and the Gram-Schmidt loop of qr. *)
From mathcomp Require Import all_ssreflect all_algebra ring.
From Verif Require Import Base Spec.LinAlg Proof.Algebra Model.Inner Spec.Inner Proof.Inner Proof.IpTheory.
From Verif Require Import Model.Projection Spec.Projection.

Set Implicit Arguments.
Unset Strict Implicit.
Unset Printing Implicit Defensive.
Import Order.TTheory GRing.Theory Num.Theory.
Local Open Scope ring_scope.

Section Gram.
Variable C : numClosedFieldType.
Variable N : nat.
Variable B : ipB C N.
Hypothesis hB : valid_ip B.

Definition gramB : 'M[C]_N := inner B 1%:M 1%:M.

Let hip := valid_is_ip hB.

Lemma vec_sum (x : 'cV[C]_N) : x = \sum_k x k 0 *: col k 1%:M.
Proof.
apply/matrixP => i j; rewrite summxE (bigD1 i) //= big1 => [|k ne].
  by rewrite !mxE eqxx mulr1 addr0 ord1.
by rewrite !mxE eq_sym (negbTE ne) mulr0.
Qed.

Lemma inner_gram m n (X : 'M[C]_(N, m)) (Y : 'M[C]_(N, n)) : inner B X Y = X^h *m gramB *m Y.
Proof.
rewrite /gramB !(inner_columns _ _ hB); apply/matrixP => i j; rewrite mxE [RHS]mxE.
rewrite [col i X]vec_sum [col j Y]vec_sum (ip_sumr hip); apply: eq_bigr => l _.
rewrite (ipZr hip) (ip_suml hip) mxE mulrC [in RHS]mxE; congr (_ * _).
apply: eq_bigr => k _; by rewrite (ipZl hip) ctrE !mxE.
Qed.

Lemma gram_herm : gramB^h = gramB.
Proof.
rewrite /gramB (inner_columns _ _ hB); apply/matrixP => i j.
by rewrite ctrE !mxE -(ipC hip).
Qed.

Lemma inner_ip1 (x y : 'cV[C]_N) : inner B x y = (ip1 B x y)%:M.
Proof. by rewrite [LHS]mx11E. Qed.

Lemma innerC m n (X : 'M[C]_(N, m)) (Y : 'M[C]_(N, n)) : inner B Y X = (inner B X Y)^h.
Proof. by rewrite !inner_gram !ctrM ctrK gram_herm mulmxA. Qed.

Lemma innerMr m n p (X : 'M[C]_(N, m)) (Y : 'M[C]_(N, n)) (c : 'M[C]_(n, p)) :
  inner B X (Y *m c) = inner B X Y *m c.
Proof. by rewrite !inner_gram mulmxA. Qed.

Lemma innerMl m n p (X : 'M[C]_(N, m)) (Y : 'M[C]_(N, n)) (c : 'M[C]_(m, p)) :
  inner B (X *m c) Y = c^h *m inner B X Y.
Proof. by rewrite !inner_gram ctrM -!mulmxA. Qed.

Lemma innerBr m n (X : 'M[C]_(N, m)) (Y Z : 'M[C]_(N, n)) :
  inner B X (Y - Z) = inner B X Y - inner B X Z.
Proof. by rewrite !inner_gram mulmxBr. Qed.

Lemma innerDr m n (X : 'M[C]_(N, m)) (Y Z : 'M[C]_(N, n)) :
  inner B X (Y + Z) = inner B X Y + inner B X Z.
Proof. by rewrite !inner_gram mulmxDr. Qed.

Lemma innerBl m n (X Z : 'M[C]_(N, m)) (Y : 'M[C]_(N, n)) :
  inner B (X - Z) Y = inner B X Y - inner B Z Y.
Proof. by rewrite !inner_gram ctrB !mulmxBl. Qed.

Lemma innerZr m n (X : 'M[C]_(N, m)) (Y : 'M[C]_(N, n)) a : inner B X (a *: Y) = a *: inner B X Y.
Proof. by rewrite !inner_gram -scalemxAr. Qed.

Lemma inner0r m n (X : 'M[C]_(N, m)) : inner B X (0 : 'M[C]_(N, n)) = 0.
Proof. by rewrite !inner_gram mulmx0. Qed.

Lemma inner_entry m n (X : 'M[C]_(N, m)) (Y : 'M[C]_(N, n)) i j :
  inner B X Y i j = ip1 B (col i X) (col j Y).
Proof. by rewrite (inner_columns _ _ hB) mxE. Qed.
End Gram.

(** Triangular matrices. *)
Section Tri.
Variable C : numClosedFieldType.

Lemma upper_det k (R : 'M[C]_k) : upper_tri R -> \det R = \prod_i R i i.
Proof.
move=> h; rewrite -det_tr det_trig; first by apply: eq_bigr => i _; rewrite mxE.
by apply/is_trig_mxP => i j hij; rewrite mxE h.
Qed.

Lemma upper_unit k (R : 'M[C]_k) : upper_tri R -> (R \in unitmx) = [forall i, R i i != 0].
Proof.
move=> h; rewrite unitmxE upper_det // unitfE.
apply/prodf_neq0/forallP => [hh i|hh i _]; exact: hh.
Qed.

Lemma solve_upperE k m (R : 'M[C]_k) (b : 'M[C]_(k, m)) : upper_tri R ->
  solve_upper R b = if R \in unitmx then Ok (invmx R *m b) else Err LinAlgError.
Proof.
move=> h; rewrite /solve_upper upper_unit //.
have -> : \matrix_(i, j) (if (i <= j)%N then R i j else 0) = R.
  by apply/matrixP => i j; rewrite mxE; case: leqP => // /h.
rewrite -[[forall i, _]]negbK negb_forall.
have -> : [exists x, ~~ (R x x != 0)] = [exists i, R i i == 0].
  by apply/existsP/existsP => -[i hi]; exists i; move: hi; rewrite negbK.
by case: ifP.
Qed.

Lemma unitmx_ctr k (R : 'M[C]_k) : (R^h \in unitmx) = (R \in unitmx).
Proof. by rewrite /ctr map_unitmx unitmx_tr. Qed.

Lemma invmx_ctr k (R : 'M[C]_k) : (invmx R)^h = invmx (R^h).
Proof.
case: (boolP (R \in unitmx)) => u; last by rewrite /invmx unitmx_ctr (negbTE u).
have ru : R^h \in unitmx by rewrite unitmx_ctr.
by rewrite -[LHS](mulmxK ru) -ctrM mulmxV // ctr1 mul1mx.
Qed.

Lemma solve_lowerE k m (R : 'M[C]_k) (b : 'M[C]_(k, m)) : upper_tri R ->
  solve_lower (tconj R) b = if R \in unitmx then Ok (invmx (R^h) *m b) else Err LinAlgError.
Proof.
move=> h; rewrite /solve_lower tconjE upper_unit //.
have -> : \matrix_(i, j) (if (j <= i)%N then R^h i j else 0) = R^h.
  by apply/matrixP => i j; rewrite mxE; case: leqP => // /h; rewrite ctrE => ->; rewrite conjC0.
rewrite -[[forall i, _]]negbK negb_forall.
have -> : [exists x, ~~ (R x x != 0)] = [exists i, R^h i i == 0].
  by apply/existsP/existsP => -[i hi]; exists i; move: hi; rewrite ctrE conjC_eq0 ?negbK.
by case: ifP.
Qed.

Lemma unitary_inv k (Q : 'M[C]_k) : Q^h *m Q = 1%:M -> Q \in unitmx /\ invmx Q = Q^h.
Proof.
move=> h; have u : Q \in unitmx by case: (mulmx1_unit h).
by split=> //; rewrite -[LHS]mul1mx -h -mulmxA mulmxV // mulmx1.
Qed.
End Tri.

Local Arguments norm : simpl never.

(** The Gram-Schmidt loop. *)
Section Mgs.
Variable C : numClosedFieldType.
Variable N : nat.
Local Notation vec := 'cV[C]_N.
Variable B : ipB C N.
Hypothesis hB : valid_ip B.
Local Notation ip := (ip1 B).
Let hip : is_ip ip := valid_is_ip hB.
Variable x : nat -> vec.
Variable reorthos : nat.

Lemma eps15_gt0 : 0 < eps15 C.
Proof. by rewrite invr_gt0 exprn_gt0 // ltr0n. Qed.

(** The factor that X = Q R' holds with, without any assumption. *)
Definition rfac (R : nat -> nat -> C) l j : C :=
  if (l == j) && ~~ (eps15 C <= R j j) then 1 else R l j.

Record mgs_inv (i : nat) (Q : nat -> vec) (R : nat -> nat -> C) : Prop := MgsInv {
  mi_rest : forall j, (i <= j)%N -> Q j = x j;
  mi_zero : forall l j, (i <= j)%N || (j < l)%N -> R l j = 0;
  mi_fac : forall j, (j < i)%N -> x j = \sum_(l < j.+1) rfac R l j *: Q l;
  mi_span : forall j, (j < i)%N -> in_span x j.+1 (Q j);
  mi_diag : forall j, (j < i)%N -> exists2 w, in_span x j w & R j j = ipnorm ip (x j - w);
  mi_orth : forall m, (m <= i)%N -> (forall j, (j < m)%N -> eps15 C <= R j j) -> orthonormal ip Q m }.

(** During the treatment of column i. *)
Record col_inv (i t : nat) (Q0 Q : nat -> vec) (R0 R : nat -> nat -> C) : Prop := ColInv {
  ci_Q : forall j, j != i -> Q j = Q0 j;
  ci_R : forall l j, (j != i) || (i <= l)%N -> R l j = R0 l j;
  ci_x : x i = Q i + \sum_(l < i) R l i *: Q0 l;
  ci_o : orthonormal ip Q0 i -> forall l, (l < t)%N -> ip (Q0 l) (Q i) = 0 }.

Lemma mod_id (q1 q2 S : vec) (a c : C) : q1 + (c *: q2 + S) = q1 - a *: q2 + (c *: q2 + a *: q2 + S).
Proof. by apply/matrixP => u v; rewrite !mxE; ring. Qed.

Lemma orth_pass i t Q0 Q R0 R : (t <= i)%N -> col_inv i 0 Q0 Q R0 R ->
  let s := forn t (mgs_orth B i) (Q, R) in col_inv i t Q0 s.1 R0 s.2.
Proof.
elim: t => [|t IH] hti h //=; have {IH} := IH (ltnW hti) h => /=.
case: (forn t _ _) => {h} Q' R' /= [h1 h2 h3 h4].
have ti : t != i by rewrite ltn_eqF.
split=> /=.
- by move=> j hj; rewrite /upd (negbTE hj) h1.
- move=> l j hlj; rewrite /upd2; case: ifP => [/andP[/eqP el /eqP ej]|_]; last exact: h2.
  by move: hlj; rewrite el ej eqxx leqNgt hti.
- rewrite /upd eqxx (h1 _ ti) h3 (bigD1 (Ordinal hti)) //= [in RHS](bigD1 (Ordinal hti)) //=.
  rewrite /upd2 !eqxx /= scalerDl.
  rewrite [in RHS](eq_bigr (fun l : 'I_i => R' l i *: Q0 l)) => [|l ne]; last first.
    by rewrite andbT; case: eqVneq => // e; case/eqP: ne; apply: val_inj.
  exact: mod_id.
- move=> on l hl; rewrite /upd eqxx (h1 _ ti) (ipBr hip) (ipZr hip).
  case: (ltngtP l t) => [lt|/ltn_geF|->].
  + by rewrite (h4 on) // on ?(ltn_eqF lt) ?mulr0 ?subr0 // (ltn_trans lt).
  + by rewrite -ltnS hl.
  + by rewrite on // eqxx mulr1 subrr.
Qed.

Lemma orth_passes i n Q0 R0 :
  (forall l, R0 l i = 0) -> Q0 i = x i ->
  let s := forn n.+1 (fun _ => forn i (mgs_orth B i)) (Q0, R0) in col_inv i i Q0 s.1 R0 s.2.
Proof.
move=> h1 h2 /=.
have base : col_inv i 0 Q0 Q0 R0 R0.
  split=> //; by rewrite h2 big1 ?addr0 // => l _; rewrite h1 scale0r.
have weak Q R : col_inv i i Q0 Q R0 R -> col_inv i 0 Q0 Q R0 R by case=> a b c d; split.
have [Q [R [e h]]] : exists Q R, forn n (fun _ => forn i (mgs_orth B i)) (Q0, R0) = (Q, R) /\ col_inv i 0 Q0 Q R0 R.
  elim: n => [|n [Q [R [e h]]]]; first by exists Q0, R0.
  have := orth_pass (leqnn i) h => /=; rewrite e; case: (forn i _ _) => Q' R' /weak h'.
  by exists Q', R'.
by rewrite e; apply: (orth_pass (leqnn i) h).
Qed.

Lemma mgs_col_inv i Q0 R0 : mgs_inv i Q0 R0 ->
  exists Q R, mgs_col B reorthos i (Q0, R0) = Ok (Q, R) /\ mgs_inv i.+1 Q R.
Proof.
case=> m1 m2 m3 m4 m5 m6; rewrite /mgs_col.
have := @orth_passes i reorthos Q0 R0; case: (forn _ _ _) => Q R /=.
case=> [l||h1 h2 h3 h4]; [by apply: m2; rewrite leqnn|exact: m1|].
rewrite norm_ip //=; set n := ipnorm ip (Q i).
have n0 : 0 <= n by apply: (ipnorm_ge0 hip).
(* the normalised column *)
pose q := if eps15 C <= n then n^-1 *: Q i else Q i.
pose Q' := upd Q i q; pose R' := upd2 R i i n.
have nz : eps15 C <= n -> n != 0 by move=> h; rewrite gt_eqF // (lt_le_trans eps15_gt0).
have oE : (if eps15 C <= n then (upd Q i (n^-1 *: Q i), R') else (Q, R')) = 
   (if eps15 C <= n then Q' else Q, R').
  by rewrite /Q' /q; case: ifP => hn; rewrite ?hn.
have QE j : (if eps15 C <= n then Q' else Q) j = if j == i then q else Q0 j.
  rewrite /Q' /q /upd; case: ifP => hn; case: (eqVneq j i) => e; rewrite ?hn ?e //; exact: h1.
have RE l j : R' l j = if (l == i) && (j == i) then n else if j == i then (if (l < i)%N then R l i else 0) else R0 l j.
  rewrite /R' /upd2; case: ifP => // hli; case: eqVneq => [e|ne].
    rewrite {hli}e; case: ltnP => // hl; rewrite h2 ?hl ?orbT //.
    by apply: m2; rewrite leqnn.
  by apply: h2; rewrite ne.
move: (if eps15 C <= n then Q' else Q) QE oE => Q1 QE oE.
exists Q1, R'; split; first by rewrite -oE /R'; case: ifP.
have fi : x i = \sum_(l < i.+1) rfac R' l i *: Q1 l.
  rewrite big_ord_recr /= h3 addrC; congr (_ + _).
    apply: eq_bigr => l _; rewrite QE /rfac ltn_eqF //= RE ltn_eqF //= eqxx.
    by rewrite ltn_ord.
  rewrite /rfac !RE !eqxx /= QE eqxx /q; case hn: (eps15 C <= n) => /=; last by rewrite scale1r.
  by rewrite scalerA mulfV ?nz // scale1r.
have wspan : in_span x i (\sum_(l < i) R l i *: Q0 l).
  apply: span_sum => l _; apply: spanZ; apply: (span_widen _ (m4 _ (ltn_ord l))).
  exact: ltn_ord.
have Qi : Q i = x i - \sum_(l < i) R l i *: Q0 l by rewrite h3 addrK.
have qspan : in_span x i.+1 q.
  have hh : in_span x i.+1 (Q i).
    by rewrite Qi; apply: spanB; [apply: span_mem|apply: (span_widen _ wspan)].
  by rewrite /q; case: ifP => // _; apply: spanZ.
split.
- by move=> j hj; rewrite QE gtn_eqF // m1 // ltnW.
- move=> l j hlj; rewrite RE; case: eqVneq => [el|nl] /=.
    by case: eqVneq => [ej|nj]; [move: hlj; rewrite el ej !ltnn|apply: m2; move: hlj; rewrite -el => /orP[h|->]; rewrite ?orbT // (ltnW h)].
  case: eqVneq => [ej|nj]; first by move: hlj; rewrite ej ltnn /= => /ltnW/leq_gtF ->.
  by apply: m2; case/orP: hlj => [/ltnW->|->]; rewrite ?orbT.
- move=> j; rewrite ltnS leq_eqVlt => /orP[/eqP->//|hj].
  rewrite m3 //; apply: eq_bigr => l _; rewrite QE /rfac !RE (ltn_eqF hj) !andbF.
  by rewrite [_ == i]ltn_eqF // (leq_trans (ltn_ord l)).
- move=> j; rewrite ltnS leq_eqVlt => /orP[/eqP->|hj]; first by rewrite QE eqxx.
  by rewrite QE (ltn_eqF hj); apply: m4.
- move=> j; rewrite ltnS leq_eqVlt => /orP[/eqP->|hj].
    by rewrite RE !eqxx; exists (\sum_(l < i) R l i *: Q0 l) => //; rewrite -Qi.
  by rewrite RE (ltn_eqF hj); apply: m5.
- move=> m; rewrite leq_eqVlt ltnS => /orP[/eqP->|hm] hd; last first.
    apply: (@ortho_ext _ _ _ Q0).
      by move=> j hj; rewrite QE ltn_eqF // (leq_trans hj).
    apply: m6 => // j hj; have := hd j hj.
    by rewrite RE ltn_eqF // (leq_trans hj).
  have o0 : orthonormal ip Q0 i.
    by apply: m6 => // j hj; have := hd j (ltnW hj); rewrite RE (ltn_eqF hj).
  have hn : eps15 C <= n by have := hd i (leqnn _); rewrite RE !eqxx.
  have qE : q = n^-1 *: Q i by rewrite /q hn.
  have o1 : orthonormal ip Q1 i.
    by apply: (ortho_ext _ o0) => j hj; rewrite QE ltn_eqF.
  apply: (orthoS hip) => //.
    rewrite QE eqxx qE (ipZl hip) (ipZr hip) -(ipnorm_sq ip) -/n expr2.
    rewrite (ge0_conj _) ?invr_ge0 //; move: (nz hn) => {}nz; move: n nz {n0 oE QE RE R' q Q' hd hn qE qspan fi} => n nz.
    by field.
  by move=> j hj; rewrite !QE eqxx (ltn_eqF hj) qE (ipZr hip) (h4 o0) // mulr0.
Qed.

Lemma mgs_loop i : exists Q R, fornE i (mgs_col B reorthos) (x, fun _ _ => 0) = Ok (Q, R) /\ mgs_inv i Q R.
Proof.
elim: i => [|i [Q [R [e h]]]] /=; last by rewrite e; apply: mgs_col_inv.
exists x, (fun _ _ => 0); split=> //; split=> //.
by move=> m; rewrite leqn0 => /eqP-> _ [].
Qed.
End Mgs.

Section QrThm.
Variable C : numClosedFieldType.
Variable sqr : forall n k, 'M[C]_(n, k) -> 'M[C]_(n, k) * 'M[C]_k.
Hypothesis hsqr : qr_spec sqr.
Variable N : nat.

Lemma ncolE k (X : 'M[C]_(N, k)) (j : 'I_k) : ncol X j = col j X.
Proof. by rewrite /ncol valK. Qed.

Lemma mxfun_mul k (Q : nat -> 'cV[C]_N) (F : nat -> nat -> C) (X : 'M[C]_(N, k)) :
  (forall l j, (j < l)%N -> F l j = 0) ->
  (forall j : 'I_k, col j X = \sum_(l < j.+1) F l j *: Q l) ->
  X = (\matrix_(i < N, j < k) Q j i 0) *m (\matrix_(i < k, j < k) F i j).
Proof.
move=> hF h; apply/matrixP => i j; have /matrixP/(_ i 0) := h j; rewrite mxE => ->.
rewrite summxE mxE (big_ord_widen k (fun l => (F l j *: Q l) i 0)) //.
rewrite big_mkcond /=; apply: eq_bigr => l _; rewrite !mxE mulrC.
by case: leqP => // hl; rewrite hF // mulr0.
Qed.

Lemma mgs_thm (B : ipB C N) k (X : 'M[C]_(N, k)) reorthos : valid_ip B ->
  exists Q R, [/\ mgs B X reorthos = Ok (Q, R), upper_tri R /\ (forall i, 0 <= R i i),
    exists F, [/\ upper_tri F, F \in unitmx & X = Q *m F],
    (forall i, eps15 C <= R i i) -> X = Q *m R /\ inner B Q Q = 1%:M
  & separated (ip1 B) (eps15 C) X -> forall i, eps15 C <= R i i].
Proof.
move=> hB; have [Q [R [e [m1 m2 m3 m4 m5 m6]]]] := mgs_loop hB (ncol X) reorthos k.
rewrite /mgs e /=; do 2 eexists; split; first by [].
- split=> [i j hij|i]; rewrite mxE; first by rewrite m2 // hij orbT.
  by have [w _ ->] := m5 i (ltn_ord i); apply: (ipnorm_ge0 (valid_is_ip hB)).
- have fz l j : (j < l)%N -> rfac R l j = 0.
    by move=> h; rewrite /rfac gtn_eqF //= m2 // h orbT.
  have fu : upper_tri (\matrix_(i < k, j < k) rfac R i j).
    by move=> i j h; rewrite mxE fz.
  exists (\matrix_(i, j) rfac R i j); split=> //.
    rewrite upper_unit //; apply/forallP => i; rewrite mxE /rfac eqxx /=.
    case: ifP => [|/negbFE h]; first by rewrite oner_eq0.
    by rewrite gt_eqF // (lt_le_trans (eps15_gt0 C)).
  by apply: mxfun_mul => // j; rewrite -ncolE; apply: m3.
- move=> hd; have hd' j : (j < k)%N -> eps15 C <= R j j.
    by move=> hj; have := hd (Ordinal hj); rewrite mxE.
  split.
    apply: mxfun_mul => [l j h|j]; first by rewrite m2 // h orbT.
    rewrite -ncolE m3 //; apply: eq_bigr => l _; rewrite /rfac hd' //= andbF //.
  have on := m6 k (leqnn k) hd'.
  apply/matrixP => i j; rewrite inner_entry // mxE -on //; congr (ip1 B _ _).
    by apply/matrixP => u v; rewrite !mxE ord1.
  by apply/matrixP => u v; rewrite !mxE ord1.
- move=> hs i; rewrite mxE; have [w [c ->] ->] := m5 i (ltn_ord i).
  have := hs i c; congr (_ <= ipnorm _ (_ - _)); first by rewrite ncolE.
  rewrite [RHS](big_ord_widen k (fun l => c l *: ncol X l)) //; last exact: ltnW.
  by apply: eq_bigr => j _; rewrite ncolE.
Qed.

Lemma full_rank_unit k (B : ipB C N) (X Y : 'M[C]_(N, k)) : valid_ip B ->
  inner B Y X \in unitmx -> full_rank X /\ full_rank Y.
Proof.
move=> hB u; split=> c hc.
  have : inner B Y X *m c = 0 by rewrite -innerMr // hc inner0r.
  by move/(congr1 (mulmx (invmx (inner B Y X)))); rewrite mulKmx // mulmx0.
have : inner B X Y *m c = 0 by rewrite -innerMr // hc inner0r.
have u' : inner B X Y \in unitmx by rewrite (innerC hB Y) unitmx_ctr.
by move/(congr1 (mulmx (invmx (inner B X Y)))); rewrite mulKmx // mulmx0.
Qed.

Lemma full_rank_fac k (X Q : 'M[C]_(N, k)) (R : 'M[C]_k) : full_rank X -> X = Q *m R -> R \in unitmx.
Proof.
move=> hX e; rewrite -row_free_unit -kermx_eq0; apply/negPn/negP => nz.
have : R^T \in unitmx -> R \in unitmx by rewrite unitmx_tr.
rewrite -row_free_unit -kermx_eq0; case: eqP => [_ /(_ isT)|ne _].
  by rewrite -row_free_unit -kermx_eq0 (negbTE nz).
apply: ne; apply/row_matrixP => i; rewrite row0; set v := row i _.
have hv : v *m R^T = 0 by rewrite /v -row_mul mulmx_ker row0.
have : X *m v^T = 0 by rewrite e -mulmxA -[R *m _]trmxK trmx_mul trmxK hv trmx0 mulmx0.
by move/hX/(congr1 trmx); rewrite trmxK trmx0.
Qed.

Lemma qr_thm B k (X : 'M[C]_(N, k)) reorthos : valid_ip (ip_arg B) ->
  exists Q R, [/\ qr sqr B X reorthos = Ok (Q, R),
    (B = None -> (k <= N)%N) -> upper_tri R,
    qr_hyp B X -> X = Q *m R /\ inner (ip_arg B) Q Q = 1%:M
  & (B = None -> (k <= N)%N) -> full_rank X -> exists2 F, F \in unitmx & X = Q *m F].
Proof.
case: B => [B|] /= hB.
  have [Q [R [e [h1 h2] [F [f1 f2 f3]] h4 h5]]] := mgs_thm X reorthos hB.
  by exists Q, R; split=> // [/h5/h4//|_ _]; exists F.
case: ifP => hk; last first.
  move: X; have -> : k = 0%N by case: (k) hk.
  move=> X; have hB' : valid_ip (@IpNone C N) by [].
  have [Q [R [e [h1 h2] [F [f1 f2 f3]] h4 h5]]] := mgs_thm X reorthos hB'.
  exists Q, R; split=> //; last by exists F.
  by move=> _; apply: h4 => -[].
exists (sqr X).1, (sqr X).2; split=> //; first by case: (sqr X).
- by move=> /(_ erefl) hkN; case: (hsqr X hkN).
- by move=> hkN; have [h1 h2 h3] := hsqr X hkN; rewrite /inner tconjE.
- move=> /(_ erefl) hkN fr; have [h1 h2 h3] := hsqr X hkN.
  by exists (sqr X).2 => //; apply: (full_rank_fac fr h1).
Qed.
End QrThm.
