(** A QR factorisation exists, so that the assumptions on scipy.linalg.qr can be met. *)
From mathcomp Require Import all_ssreflect all_algebra.
From Verif Require Import Base Spec.LinAlg Spec.Projection Model.Inner Spec.Inner.
From Verif Require Import Proof.Algebra Proof.Inner.

Set Implicit Arguments.
Unset Strict Implicit.
Unset Printing Implicit Defensive.
Import Order.TTheory GRing.Theory Num.Theory.
Local Open Scope ring_scope.

Section Exist.
Variable C : numClosedFieldType.

Lemma block_unitary n (U : 'M[C]_n) : U *m U^h = 1%:M ->
  let W : 'M[C]_(1 + n) := block_mx 1%:M 0 0 U in W *m W^h = 1%:M.
Proof.
move=> hU W; rewrite /W /ctr tr_block_mx map_block_mx mulmx_block.
rewrite !trmx0 !map_mx0 !mulmx0 !mul0mx !addr0 !add0r.
by rewrite trmx1 map_mx1 mulmx1 [U *m _]hU -scalar_mx_block.
Qed.

Lemma block_upper n k (a : 'M[C]_1) b (D : 'M[C]_(n, k)) : upper_tri D -> upper_tri (block_mx a b 0 D).
Proof.
move=> tU i j; case: (split_ordP i) => i' -> ; first by rewrite ord1 /=.
case: (split_ordP j) => j' ->; first by rewrite block_mxEdl mxE.
by rewrite block_mxEdr /= ltnS => h; apply: tU.
Qed.

Lemma full_qr n : forall k (X : 'M[C]_(n, k)),
  exists U : 'M[C]_n, U *m U^h = 1%:M /\ upper_tri (U *m X).
Proof.
elim: n => [|n IH] [|k] X; try by exists 1%:M; rewrite ctr1 mulmx1; split=> // -[].
  by exists 1%:M; rewrite ctr1 mulmx1; split=> // i [].
pose x : 'cV[C]_n.+1 := col 0 X; pose H := house_matrix (mk_house x).
have [_ _ _ hx] := mk_house_spec x; have [h1 h2] := house_unitary x.
pose X' : 'M[C]_(1 + n, 1 + k) := H *m X.
have X'0 i : X' (rshift 1 i) 0 = 0.
  have := congr1 (fun z : 'cV[C]_n.+1 => z (rshift 1 i) 0) hx.
  rewrite -/H !mxE; have -> : (rshift 1 i == 0 :> 'I_n.+1) = false by [].
  by rewrite mulr0 => h; rewrite -[RHS]h; apply: eq_bigr => l _; rewrite [x l 0]mxE.
have [U [hU tU]] := IH k (drsubmx X').
exists ((block_mx 1%:M 0 0 U : 'M[C]_(1 + n)) *m (H : 'M[C]_(1 + n))); split.
  by rewrite ctrM mulmxA -(mulmxA _ H) h1 h2 mulmx1; apply: block_unitary.
rewrite -mulmxA -/X' -[X']submxK (@mulmx_block C 1 n 1 n 1 k) !mul0mx mul1mx addr0 !add0r.
have -> : dlsubmx X' = 0.
  by apply/matrixP => i j; rewrite [RHS]mxE -(X'0 i) [LHS]mxE [LHS]mxE (ord1 j) lshift0.
by rewrite mulmx0; apply: block_upper.
Qed.

Lemma qr_exists n k (X : 'M[C]_(n, k)) : (k <= n)%N ->
  exists QR : 'M[C]_(n, k) * 'M[C]_k,
    [&& X == QR.1 *m QR.2, QR.1^h *m QR.1 == 1%:M & [forall i : 'I_k, forall j : 'I_k, (j < i)%N ==> (QR.2 i j == 0)]].
Proof.
move=> kn; have [U [hU tU]] := full_qr X.
have hU' : U^h *m U = 1%:M by apply: mulmx1C.
pose w : 'I_k -> 'I_n := widen_ord kn.
exists (\matrix_(i, j) U^h i (w j), \matrix_(i, j) (U *m X) (w i) j) => /=.
apply/and3P; split.
- apply/eqP; rewrite -[LHS]mul1mx -hU' -mulmxA; apply/matrixP => i j; rewrite [LHS]mxE [RHS]mxE.
  have -> : \sum_j0 (\matrix_(i0, j1) U^h i0 (w j1)) i j0 * (\matrix_(i0, j1) (U *m X) (w i0) j1) j0 j =
            \sum_j0 U^h i (w j0) * (U *m X) (w j0) j.
    by apply: eq_bigr => l _; rewrite ![_ i l]mxE ![_ l j]mxE.
  pose F (l : nat) := if insub l is Some l' then U^h i l' * (U *m X) l' j else 0 : C.
  have FE (l : 'I_n) : F l = U^h i l * (U *m X) l j by rewrite /F valK.
  transitivity (\sum_(l < n) F l); first by apply: eq_bigr => l _; rewrite FE.
  transitivity (\sum_(l < k) F l); last by apply: eq_bigr => l _; rewrite -FE.
  rewrite -!(big_mkord xpredT F) (big_cat_nat _ _ _ (leq0n k) kn) /= [X in _ + X]big1_seq ?addr0 //.
  move=> l; rewrite mem_index_iota => /andP[_ /andP[h1 h2]].
  by rewrite /F insubT tU ?mulr0 //=; apply: leq_trans h1.
- apply/eqP/matrixP => i j; rewrite [RHS]mxE.
  have := congr1 (fun z : 'M[C]_n => z (w i) (w j)) hU; rewrite [RHS]mxE.
  have -> : (w i == w j) = (i == j) by [].
  by move=> <-; rewrite [RHS]mxE mxE; apply: eq_bigr => l _; rewrite !mxE conjCK.
- by apply/forallP => i; apply/forallP => j; apply/implyP => h; rewrite mxE; apply/eqP; apply: tU.
Qed.

Lemma qr_exists' n k (X : 'M[C]_(n, k)) : exists QR : 'M[C]_(n, k) * 'M[C]_k,
  (k <= n)%N ==> [&& X == QR.1 *m QR.2, QR.1^h *m QR.1 == 1%:M &
                   [forall i : 'I_k, forall j : 'I_k, (j < i)%N ==> (QR.2 i j == 0)]].
Proof.
case: (boolP (k <= n)%N) => h; last by exists (0, 0).
by have [QR e] := qr_exists X h; exists QR.
Qed.

Definition some_qr n k (X : 'M[C]_(n, k)) : 'M[C]_(n, k) * 'M[C]_k := xchoose (qr_exists' X).

Lemma some_qr_spec : qr_spec some_qr.
Proof.
move=> n k X h; have /implyP/(_ h) := xchooseP (qr_exists' X).
move=> /and3P[/eqP h1 /eqP h2 /forallP h3]; split=> //.
by move=> i j hij; have /forallP/(_ j)/implyP/(_ hij)/eqP := h3 i.
Qed.
End Exist.
