(** A QR factorisation with real factors of real matrices exists, so that the assumptions of C74 on scipy.linalg.qr can be met. *)
From mathcomp Require Import all_ssreflect all_algebra.
From Verif Require Import Base Spec.LinAlg Spec.Projection Model.Inner Spec.Inner Spec.Dtype.
From Verif Require Import Proof.Algebra Proof.Inner Proof.QrExist Proof.Dtype Proof.RealRun.

Set Implicit Arguments.
Unset Strict Implicit.
Unset Printing Implicit Defensive.
Import Order.TTheory GRing.Theory Num.Theory.
Local Open Scope ring_scope.

Section Exist.
Variable C : numClosedFieldType.
Local Arguments has_dtype {C} d x : simpl never.
Local Notation rl := (@has_dtype C DFloat).
Local Notation rv X := (@mx_dtype C DFloat _ _ X).

Lemma house_rl n (x : 'cV[C]_n.+1) : rv x -> rv (house_matrix (mk_house x)).
Proof.
move=> hx; have i1 : rv (1%:M : 'M[C]_n.+1) by move=> i j; rewrite mxE; case: eqP => _; [exact: hd1|exact: hd0].
suff [hb hv] : rl (hbeta (mk_house x)) /\ rv (hv (mk_house x)).
  by rewrite /house_matrix; apply: rvB => //; apply: mdZ => //; apply: mdM => //; apply: rv_tconj.
have s0 (v : 'cV[C]_n.+1) a : rv v -> rl a -> rv (set0 v a).
  by move=> h1 h2 i j; rewrite /set0 mxE; case: ifP.
have n0 (a b : C) : 0 <= b -> rl (sqrtC (`|a| ^+ 2 + b))^-1.
  by move=> hb; apply: rl_ge0; rewrite invr_ge0 sqrtC_ge0 addr_ge0 // exprn_ge0.
have dv (a b : C) : rl a -> rl (a / `|b|) by move=> ha; apply: hdM => //; apply: rl_ge0; rewrite invr_ge0.
rewrite /mk_house; case: ifP => _ /=.
  by split; [exact: hd0|apply: mdZ; [apply: n0; rewrite expr0n|apply: s0 => //; exact: hd1]].
set sg := sqrtC _; have g0 : 0 <= sg by rewrite sqrtC_ge0; apply: sumr_ge0 => i _; exact: exprn_ge0.
have g2 : 0 <= sg ^+ 2 by apply: exprn_ge0.
case: ifP => _ /=; first by split; [exact: hd0|apply: mdZ; [exact: n0|apply: s0 => //; exact: hd1]].
have h1 : rv (set0 x 1) by apply: s0 => //; exact: hd1.
case: ifP => _ /=; (split; first exact: rl_nat); (apply: mdZ; first exact: n0); apply: s0 => //.
  by apply: hdN; exact: rl_ge0.
apply: hdD; first exact: hx.
apply: hdM; first exact: dv.
by apply: rl_sqrt; rewrite addr_ge0 // exprn_ge0.
Qed.

Lemma full_qr_r n : forall k (X : 'M[C]_(n, k)),
  exists U : 'M[C]_n, [/\ U *m U^h = 1%:M, upper_tri (U *m X) & rv X -> rv U].
Proof.
have i1 m : rv (1%:M : 'M[C]_m) by move=> i j; rewrite mxE; case: eqP => _; [exact: hd1|exact: hd0].
elim: n => [|n IH] [|k] X; try by exists 1%:M; rewrite ctr1 mulmx1; split=> // -[].
  by exists 1%:M; rewrite ctr1 mulmx1; split=> // i [].
pose x : 'cV[C]_n.+1 := col 0 X; pose H := house_matrix (mk_house x).
have [_ _ _ hx] := mk_house_spec x; have [h1 h2] := house_unitary x.
pose X' : 'M[C]_(1 + n, 1 + k) := H *m X.
have X'0 i : X' (rshift 1 i) 0 = 0.
  have := congr1 (fun z : 'cV[C]_n.+1 => z (rshift 1 i) 0) hx.
  rewrite -/H !mxE; have -> : (rshift 1 i == 0 :> 'I_n.+1) = false by [].
  by rewrite mulr0 => h; rewrite -[RHS]h; apply: eq_bigr => l _; rewrite [x l 0]mxE.
have [U [hU tU rU]] := IH k (drsubmx X').
exists ((block_mx 1%:M 0 0 U : 'M[C]_(1 + n)) *m (H : 'M[C]_(1 + n))); split.
  by rewrite ctrM mulmxA -(mulmxA _ H) h1 h2 mulmx1; apply: block_unitary.
- rewrite -mulmxA -/X' -[X']submxK (@mulmx_block C 1 n 1 n 1 k) !mul0mx mul1mx addr0 !add0r.
  have -> : dlsubmx X' = 0.
    by apply/matrixP => i j; rewrite [RHS]mxE -(X'0 i) [LHS]mxE [LHS]mxE (ord1 j) lshift0.
  by rewrite mulmx0; apply: block_upper.
move=> hX; have hH : rv H by apply: house_rl => i j; rewrite mxE.
have hX' : rv X' by apply: mdM.
have {}rU : rv U by apply: rU => i j; have := hX' (rshift 1 i) (rshift 1 j); rewrite -{1}[X']submxK block_mxEdr.
suff rW : rv (block_mx 1%:M 0 0 U : 'M[C]_(1 + n, 1 + n)) by exact: (mdM rW hH).
move=> i j; case: (@split_ordP 1 n i) => i' ->; case: (@split_ordP 1 n j) => j' ->.
- by rewrite block_mxEul; exact: i1.
- by rewrite block_mxEur mxE; exact: hd0.
- by rewrite block_mxEdl mxE; exact: hd0.
by rewrite block_mxEdr; exact: rU.
Qed.

Lemma qr_exists_r n k (X : 'M[C]_(n, k)) : (k <= n)%N ->
  exists QR : 'M[C]_(n, k) * 'M[C]_k,
    [&& X == QR.1 *m QR.2, QR.1^h *m QR.1 == 1%:M & [forall i : 'I_k, forall j : 'I_k, (j < i)%N ==> (QR.2 i j == 0)]] /\ (rv X -> rv QR.1 /\ rv QR.2).
Proof.
move=> kn; have [U [hU tU rU]] := full_qr_r X.
have hU' : U^h *m U = 1%:M by apply: mulmx1C.
pose w : 'I_k -> 'I_n := widen_ord kn.
exists (\matrix_(i, j) U^h i (w j), \matrix_(i, j) (U *m X) (w i) j) => /=.
have hr : rv X -> rv (\matrix_(i, j) U^h i (w j) : 'M[C]_(n, k)) /\ rv (\matrix_(i, j) (U *m X) (w i) j : 'M[C]_k).
  move=> hX; have {}rU := rU hX; split=> i j; rewrite mxE; first by rewrite ctrE; exact: (hdJ (rU _ _)).
  exact: (mdM rU hX).
split=> //; apply/and3P; split.
- apply/eqP; rewrite -[LHS]mul1mx -hU' -mulmxA; apply/matrixP => i j; rewrite [LHS]mxE [RHS]mxE.
  have -> : \sum_j0 (\matrix_(i0, j1) U^h i0 (w j1)) i j0 * (\matrix_(i0, j1) (U *m X) (w i0) j1) j0 j =
            \sum_j0 U^h i (w j0) * (U *m X) (w j0) j.
    by apply: eq_bigr => l _; rewrite ![_ i l]mxE ![_ l j]mxE.
  pose F (l : nat) := if insub l is Some l' then U^h i l' * (U *m X) l' j else 0 : C.
  have FE (l : 'I_n) : F l = U^h i l * (U *m X) l j by rewrite /F valK.
  transitivity (\sum_(l < n) F l); first by apply: eq_bigr => l _; rewrite FE.
  transitivity (\sum_(l < k) F l); last by apply: eq_bigr => l _; rewrite -FE.
  rewrite -!(big_mkord xpredT F) (big_cat_nat _ _ _ (leq0n k) kn) /= [X in _ + X]big1_seq ?addr0 //.
  move=> l; rewrite mem_index_iota => /andP[_ /andP[h1 h2]].
  by rewrite /F insubT tU ?mulr0 //=; apply: leq_trans h1.
- apply/eqP/matrixP => i j; rewrite [RHS]mxE.
  have := congr1 (fun z : 'M[C]_n => z (w i) (w j)) hU; rewrite [RHS]mxE.
  have -> : (w i == w j) = (i == j) by [].
  by move=> <-; rewrite [RHS]mxE mxE; apply: eq_bigr => l _; rewrite !mxE conjCK.
- by apply/forallP => i; apply/forallP => j; apply/implyP => h; rewrite mxE; apply/eqP; apply: tU.
Qed.

Definition is_rv m n (X : 'M[C]_(m, n)) := [forall i, forall j, X i j \is Num.real].
Lemma is_rvP m n (X : 'M[C]_(m, n)) : reflect (rv X) (is_rv X).
Proof.
apply: (iffP forallP) => [h i j|h i]; first by have /forallP/(_ j) := h i.
by apply/forallP => j; exact: h.
Qed.

Lemma qr_exists_r' n k (X : 'M[C]_(n, k)) : exists QR : 'M[C]_(n, k) * 'M[C]_k,
  ((k <= n)%N ==> [&& X == QR.1 *m QR.2, QR.1^h *m QR.1 == 1%:M &
                   [forall i : 'I_k, forall j : 'I_k, (j < i)%N ==> (QR.2 i j == 0)]]) && (is_rv X ==> is_rv QR.1 && is_rv QR.2).
Proof.
case: (boolP (k <= n)%N) => h.
  have [QR [e hr]] := qr_exists_r X h; exists QR; rewrite e /=; apply/implyP => /is_rvP/hr[h1 h2].
  by apply/andP; split; apply/is_rvP.
by exists (0, 0); apply/implyP => _; apply/andP; split; apply/is_rvP; exact: md0.
Qed.

Definition real_qr n k (X : 'M[C]_(n, k)) : 'M[C]_(n, k) * 'M[C]_k := xchoose (qr_exists_r' X).

Lemma real_qr_spec : qr_spec real_qr.
Proof.
move=> n k X h; have /andP[/implyP/(_ h) + _] := xchooseP (qr_exists_r' X).
move=> /and3P[/eqP h1 /eqP h2 /forallP h3]; split=> //.
by move=> i j hij; have /forallP/(_ j)/implyP/(_ hij)/eqP := h3 i.
Qed.

Lemma real_qr_rl n k (X : 'M[C]_(n, k)) : rv X -> rv (real_qr X).1 /\ rv (real_qr X).2.
Proof.
by move=> /is_rvP h; have /andP[_ /implyP/(_ h)/andP[/is_rvP h1 /is_rvP h2]] := xchooseP (qr_exists_r' X).
Qed.
End Exist.
