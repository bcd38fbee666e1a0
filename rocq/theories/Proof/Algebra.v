(** Basic facts on conjugate transposes, Euclidean norms and inner products. *)
From mathcomp Require Import all_ssreflect all_algebra.
From mathcomp Require Import ring.
From Verif Require Import Base Spec.LinAlg.

Set Implicit Arguments.
Unset Strict Implicit.
Unset Printing Implicit Defensive.
Import Order.TTheory GRing.Theory Num.Theory.
Local Open Scope ring_scope.

Section Ctr.
Variable C : numClosedFieldType.
Lemma ctrK m n (A : 'M[C]_(m, n)) : A^h^h = A.
Proof. by apply/matrixP=> i j; rewrite !mxE conjCK. Qed.
Lemma ctrM m n p (A : 'M[C]_(m, n)) (B : 'M[C]_(n, p)) : (A *m B)^h = B^h *m A^h.
Proof. by rewrite /ctr trmx_mul map_mxM. Qed.
Lemma ctrD m n (A B : 'M[C]_(m, n)) : (A + B)^h = A^h + B^h.
Proof. by rewrite /ctr linearD /= map_mxD. Qed.
Lemma ctrN m n (A : 'M[C]_(m, n)) : (- A)^h = - A^h.
Proof. by rewrite /ctr linearN /= map_mxN. Qed.
Lemma ctrB m n (A B : 'M[C]_(m, n)) : (A - B)^h = A^h - B^h.
Proof. by rewrite ctrD ctrN. Qed.
Lemma ctrZ m n c (A : 'M[C]_(m, n)) : (c *: A)^h = c^* *: A^h.
Proof. by apply/matrixP=> i j; rewrite !mxE rmorphM. Qed.
Lemma ctr0 m n : (0 : 'M[C]_(m, n))^h = 0.
Proof. by apply/matrixP=> i j; rewrite !mxE rmorph0. Qed.
Lemma ctr1 n : (1%:M : 'M[C]_n)^h = 1%:M.
Proof. by apply/matrixP=> i j; rewrite !mxE eq_sym; case: eqP => _; rewrite ?rmorph1 ?rmorph0. Qed.
Lemma ctrE m n (A : 'M[C]_(m, n)) i j : A^h i j = (A j i)^*.
Proof. by rewrite !mxE. Qed.
Lemma ctr_inj m n : injective (@ctr C m n).
Proof. by move=> A B /(congr1 (@ctr C n m)); rewrite !ctrK. Qed.
Lemma ctr_sum (I : Type) (r : seq I) (P : pred I) m n (F : I -> 'M[C]_(m, n)) :
  (\sum_(i <- r | P i) F i)^h = \sum_(i <- r | P i) (F i)^h.
Proof. by elim/big_rec2: _ => [|i x y _ <-]; rewrite ?ctr0 ?ctrD. Qed.
End Ctr.

Section Norms.
Variable C : numClosedFieldType.

Lemma normCK2 (x : C) : `|x| ^+ 2 = x^* * x.
Proof. by rewrite normCK mulrC. Qed.

Lemma ge0_conj (x : C) : 0 <= x -> x^* = x.
Proof. by move=> h; apply/CrealP/ger0_real. Qed.
Lemma norm_real (x : C) : `|x|^* = `|x|.
Proof. by apply: ge0_conj. Qed.
Lemma sqrtC_sq (x : C) : sqrtC x ^+ 2 = x.
Proof. exact: sqrtCK. Qed.

(** X^* X entry: sum of squared moduli *)
Lemma gramE N (x : 'cV[C]_N) : (x^h *m x) 0 0 = \sum_i `|x i 0| ^+ 2.
Proof. by rewrite mxE; apply: eq_bigr => i _; rewrite ctrE normCK2. Qed.

Lemma gram_ge0 N (x : 'cV[C]_N) : 0 <= (x^h *m x) 0 0.
Proof. by rewrite gramE; apply: sumr_ge0 => i _; rewrite exprn_ge0. Qed.

Lemma gram_eq0 N (x : 'cV[C]_N) : ((x^h *m x) 0 0 == 0) = (x == 0).
Proof.
rewrite gramE psumr_eq0 => [|i _]; last by rewrite exprn_ge0.
apply/allP/eqP => [h|-> i _]; last by rewrite mxE normr0 expr0n /=.
apply/matrixP=> i j; rewrite ord1 mxE; apply/eqP.
by have := h i (mem_index_enum _); rewrite /= expf_eq0 /= normr_eq0.
Qed.

Lemma mx11E (A : 'M[C]_1) : A = (A 0 0)%:M.
Proof. by apply/matrixP=> i j; rewrite !mxE !ord1 eqxx. Qed.

Lemma mul_col_mx11 m (x : 'cV[C]_m) (A : 'M[C]_1) : x *m A = A 0 0 *: x.
Proof. by rewrite [A in LHS]mx11E mul_mx_scalar. Qed.
End Norms.
