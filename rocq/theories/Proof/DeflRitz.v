(** Proofs about deflation.Ritz and the blocks used by Arnoldifyer. *)
From mathcomp Require Import all_ssreflect all_algebra ring.
From Verif Require Import Base Spec.LinAlg Proof.Algebra Model.Ritz Spec.Ritz Proof.Ritz Model.Inner Spec.Inner Proof.Inner Proof.IpTheory.
From Verif Require Import Model.Arnoldi Model.Solver Model.LinearSystem Model.Krylov Model.Projection Model.Deflation Spec.Deflation.
From Verif Require Import Proof.Qr Proof.Deflation Model.DeflRitz Spec.DeflRitz.

Set Implicit Arguments.
Unset Strict Implicit.
Unset Printing Implicit Defensive.
Import Order.TTheory GRing.Theory Num.Theory.
Local Open Scope ring_scope.

Section Blocks.
Variable C : numClosedFieldType.

Lemma ctr_row_mx p q r (X : 'M[C]_(p, q)) (Y : 'M[C]_(p, r)) : (row_mx X Y)^h = col_mx X^h Y^h.
Proof. by rewrite /ctr tr_row_mx map_col_mx. Qed.
Lemma ctr_col_mx p q r (X : 'M[C]_(q, p)) (Y : 'M[C]_(r, p)) : (col_mx X Y)^h = row_mx X^h Y^h.
Proof. by rewrite /ctr tr_col_mx map_row_mx. Qed.

Lemma eye1 n : @eye C n n = 1%:M.
Proof. by apply/matrixP => i j; rewrite !mxE. Qed.

Section Eye.
Variables (p q n : nat) (hn : (n <= q)%N).
Lemma cols_firstn (V : 'M[C]_(p, q)) : cols n V = firstn hn V.
Proof.
apply/matrixP => i j; rewrite !mxE; have h : (j < q)%N by apply: leq_trans hn.
by rewrite (insubT (fun k => k < q)%N h); congr (V _ _); apply: val_inj.
Qed.
Lemma firstn_eye (V : 'M[C]_(p, q)) : firstn hn V = V *m eye C q n.
Proof.
apply/matrixP => i j; rewrite !mxE (bigD1 (widen_ord hn j)) //= big1 ?mxE ?eqxx ?mulr1 ?addr0 // => k ne.
rewrite mxE (_ : (k == j :> nat) = false) ?mulr0 //; apply: contraNF ne => /eqP e; apply/eqP/val_inj; exact: e.
Qed.
Lemma rows_eye r (X : 'M[C]_(q, r)) : rows n X = eye C n q *m X.
Proof.
apply/matrixP => i j; rewrite !mxE; have h : (i < q)%N by apply: leq_trans hn.
rewrite (insubT (fun k => k < q)%N h) (bigD1 (Ordinal h)) //= big1 => [|k ne].
  by rewrite mxE eqxx mul1r addr0; congr (X _ _); apply: val_inj.
rewrite mxE (_ : (i == k :> nat) = false) ?mul0r //; apply: contraNF ne => /eqP e; apply/eqP/val_inj.
by rewrite /= -e.
Qed.
Lemma eye_ctr : (eye C q n)^h = eye C n q.
Proof. by apply/matrixP => i j; rewrite ctrE !mxE conjC_nat eq_sym. Qed.
Lemma eye_mul : eye C n q *m eye C q n = 1%:M.
Proof.
by apply/matrixP => i j; rewrite -rows_eye !mxE; rewrite (insubT (fun k => k < q)%N (leq_trans (ltn_ord i) hn)) !mxE.
Qed.
End Eye.

Section Inner.
Variables (N : nat) (B : ipB C N).
Hypothesis hB : valid_ip B.
Lemma inner_row_r m p q (X : 'M[C]_(N, m)) (Y : 'M[C]_(N, p)) (Z : 'M[C]_(N, q)) :
  inner B X (row_mx Y Z) = row_mx (inner B X Y) (inner B X Z).
Proof. by rewrite !(inner_gram hB) mul_mx_row. Qed.
Lemma inner_row_l m p q (X : 'M[C]_(N, m)) (Y : 'M[C]_(N, p)) (Z : 'M[C]_(N, q)) :
  inner B (row_mx Y Z) X = col_mx (inner B Y X) (inner B Z X).
Proof. by rewrite !(inner_gram hB) ctr_row_mx !mul_col_mx. Qed.
Lemma inner_row p q r s (X : 'M[C]_(N, p)) (Y : 'M[C]_(N, q)) (Z : 'M[C]_(N, r)) (W : 'M[C]_(N, s)) :
  inner B (row_mx X Y) (row_mx Z W) = block_mx (inner B X Z) (inner B X W) (inner B Y Z) (inner B Y W).
Proof. by rewrite inner_row_l !inner_row_r. Qed.
End Inner.
End Blocks.

Section Rel.
Variable C : numClosedFieldType.
Variable N : nat.
Local Notation vec := 'cV[C]_N.
Variables (B Bm : ipB C N) (A M : vec -> vec) (n_ n m : nat) (hn : (n <= n_)%N).
Variables (V : 'M[C]_(N, n_)) (U : 'M[C]_(N, m)) (H_ : 'M[C]_(n_, n)) (E : 'M[C]_m).
Variables (Cm : 'M[C]_(m, n)) (B_ : 'M[C]_(n_, m)) (W : 'M[C]_(N, n)).
Hypothesis hr : defl_rel B Bm A M hn V U H_ E Cm B_ W.
Let hB := dr_B hr.
Let hBm := dr_Bm hr.
Let hA := dr_A hr.
Let hM := dr_M hr.
Local Notation X := (row_mx (firstn hn V) U).
Local Notation MA := (fun x => M (A x)).
Local Notation AU := (imcols A U).
Local Notation MAU := (imcols M AU).
Local Notation EC := (invmx E *m Cm).
Local Notation Ln := (block_mx H_ 0 EC 1%:M).

Lemma MA_lin : is_linear MA.
Proof. by move=> a x y; rewrite hA hM. Qed.

Lemma MAE k (Y : 'M[C]_(N, k)) : imcols MA Y = imcols M (imcols A Y).
Proof.
apply/matrixP => i j; rewrite !mxE; congr (M _ _ _); apply/matrixP => a b.
by rewrite !mxE ord1.
Qed.

Lemma adjm k p (Y : 'M[C]_(N, k)) (Z : 'M[C]_(N, p)) : inner Bm Y (imcols M Z) = inner B Y Z.
Proof.
apply/matrixP => i j; rewrite !inner_entry //.
have -> : col j (imcols M Z) = M (col j Z) by apply/matrixP => a b; rewrite !mxE ord1.
exact: (dr_adj hr).
Qed.

Lemma imrow (f : vec -> vec) p q (Y : 'M[C]_(N, p)) (Z : 'M[C]_(N, q)) : is_linear f ->
  imcols f (row_mx Y Z) = row_mx (imcols f Y) (imcols f Z).
Proof. by move=> hf; rewrite !(imcolsE hf) mul_mx_row. Qed.

Lemma MAXE : imcols MA X = row_mx V MAU *m Ln + row_mx W 0.
Proof.
rewrite (imrow _ _ MA_lin) mul_row_block !mulmx0 add0r mulmx1 MAE add_row_mx addr0 MAE; congr row_mx.
have := dr_rel hr; rewrite -mulmxA !(imcolsE hM) mulmxBr -!(imcolsE hM) => /eqP.
rewrite subr_eq => /eqP->; rewrite addrAC; congr (_ + _ + _).
by rewrite (imcolsE hM) mulmxA -(imcolsE hM).
Qed.

Lemma gramX : inner Bm X X = 1%:M.
Proof.
rewrite (inner_row hBm) (dr_UU hr) firstn_eye !innerMl // !innerMr // (dr_VV hr) (dr_UV hr) mul0mx mul1mx.
rewrite eye_ctr eye_mul // (innerC hBm U V) (dr_UV hr) ctr0 mulmx0.
by rewrite -scalar_mx_block.
Qed.

Lemma gramXQ : inner Bm X (row_mx V MAU) = block_mx (eye C n n_) (eye C n n_ *m B_) 0 E.
Proof.
rewrite (inner_row hBm) !adjm -(dr_E hr) (dr_UV hr) firstn_eye !innerMl // -(dr_B_ hr) (dr_VV hr) eye_ctr.
by rewrite mulmx1.
Qed.

Lemma gramXW : inner Bm X (row_mx W (0 : 'M_(N, m))) = 0.
Proof.
rewrite (inner_row hBm) !inner0r // (dr_UW hr) firstn_eye innerMl // (dr_VW hr) mulmx0.
by rewrite -[RHS]submxK; congr block_mx; apply/matrixP => i j; rewrite !mxE.
Qed.

Lemma gramMA : inner Bm X (imcols MA X) = block_mx (eye C n n_ *m H_ + eye C n n_ *m B_ *m EC) (eye C n n_ *m B_) Cm E.
Proof.
rewrite MAXE innerDr // gramXW addr0 innerMr // gramXQ mulmx_block !mulmx0 !mul0mx !mulmx1 !add0r.
by rewrite mulKVmx ?(dr_unit hr).
Qed.

Lemma gramQ : inner Bm (row_mx V MAU) (row_mx V MAU) = block_mx 1%:M B_ B_^h (inner B AU MAU).
Proof.
rewrite (inner_row hBm) (dr_VV hr) !adjm -(dr_B_ hr); congr block_mx.
  by rewrite (innerC hBm V) adjm -(dr_B_ hr).
by rewrite -adjm (innerC hBm MAU) adjm -(innerC hB).
Qed.

Lemma gramQU : inner Bm (row_mx (row_mx V MAU) U) (row_mx (row_mx V MAU) U) =
  block_mx (block_mx 1%:M B_ B_^h (inner B AU MAU)) (col_mx 0 E^h) (row_mx 0 E) 1%:M.
Proof.
rewrite (inner_row hBm) gramQ (dr_UU hr); congr block_mx.
  by rewrite innerC // (inner_row_r hBm) adjm -(dr_E hr) (dr_UV hr) ctr_row_mx ctr0.
by rewrite (inner_row_r hBm) adjm -(dr_E hr) (dr_UV hr).
Qed.

Lemma resE (mu : C) (y : 'cV[C]_(n + m)) : M (A (X *m y)) - mu *: (X *m y) =
  row_mx (row_mx V MAU) U *m (col_mx (block_mx (H_ - mu *: eye C n_ n) 0 EC 1%:M) (row_mx 0 (- (mu *: 1%:M))) *m y)
  + row_mx W 0 *m y.
Proof.
rewrite -(imcols_vec MA_lin) MAXE scalemxAl -mulmxBl [in RHS]mulmxA -mulmxDl; congr (_ *m y).
rewrite [in LHS]mul_row_block [in RHS]mul_row_col [in RHS]mul_row_block !mulmx0 !mulmx1 !add0r mul_mx_row mulmx0.
rewrite scale_row_mx opp_row_mx !add_row_mx !addr0 firstn_eye.
congr row_mx; last by rewrite mulmxN -scalemxAr mulmx1.
by rewrite mulmxBr -scalemxAr addrAC; congr (_ + _); rewrite addrAC.
Qed.

Lemma ip1X (x y : vec) : ip1 Bm x y = inner Bm x y 0 0. Proof. by []. Qed.

Lemma nrmX y : ipnorm (ip1 Bm) (X *m y) = ipnorm (@ipE C _) y.
Proof. by rewrite /ipnorm ip1X innerMl // innerMr // gramX mul1mx. Qed.

Lemma orthX (w : vec) : inner Bm X w = 0 -> forall x, in_cols (firstn hn V) U x -> ip1 Bm x w = 0.
Proof.
move=> h x [a [c ->]]; rewrite -mul_row_col ip1X innerMl // h mulmx0 mxE //.
Qed.

Lemma ritzX (t : C) (y : 'cV[C]_(n + m)) :
  block_mx (eye C n n_ *m H_ + eye C n n_ *m B_ *m EC) (eye C n n_ *m B_) Cm E *m y = t *: y ->
  inner Bm X (M (A (X *m y)) - t *: (X *m y)) = 0.
Proof.
by move=> h; rewrite innerBr // innerZr // -(imcols_vec MA_lin) !innerMr // gramMA gramX h mul1mx subrr.
Qed.
End Rel.

Section Model.
Variable C : numClosedFieldType.
Variable N : nat.
Local Notation vec := 'cV[C]_N.
Variables (l : lsys C N) (m : nat) (ob : obl C N m) (n_ n : nat) (b : byprod C N n_ n m) (hn : (n <= n_)%N).
Variables (Bm : ipB C N) (W : 'M[C]_(N, n)).
Local Notation A := (lMlAMr l).
Local Notation M := (lMop l).
Local Notation U := (o_U ob).
Local Notation V := (bp_V b).
Local Notation E := (d_E ob).
Local Notation X := (row_mx (firstn hn V) U).
Local Notation MA := (fun x => M (A x)).
Hypothesis hr : defl_rel (lB l) Bm A M hn V U (bp_H b) E (bp_C b) (bp_B b) W.
Hypothesis hAU : o_AU ob = imcols A U.
Let hB := dr_B hr.
Let hBm := dr_Bm hr.
Local Notation EC := (invmx E *m bp_C b).

Lemma EinvCE : EinvC ob b = Ok EC.
Proof.
rewrite /EinvC (dr_unit hr).
have h : m = 0%N -> bp_C b = EC by move=> e; apply/matrixP => -[i hi]; exfalso; rewrite e in hi.
by move: h; case: (m) (bp_C b) EC => // c d ->.
Qed.

Lemma dME : dM ob b EC = inner Bm X (imcols MA X).
Proof. by rewrite (gramMA hr) /dM !(rows_eye hn). Qed.

Lemma dFE : dF l ob = inner (lB l) (imcols A U) (imcols M (imcols A U)).
Proof. by rewrite /dF /o_MAU hAU. Qed.

Lemma dKE : dK l ob b = inner Bm (row_mx V (imcols M (imcols A U))) (row_mx V (imcols M (imcols A U))).
Proof. by rewrite (gramQ hr) /dK dFE eye1 tconjE. Qed.

Lemma dLE : W = 0 -> tconj (dL b EC) *m (dK l ob b *m dL b EC) = inner Bm (imcols MA X) (imcols MA X).
Proof.
move=> W0; rewrite (MAXE hr) W0 row_mx0 addr0 innerMl // innerMr // -dKE tconjE /dL eye1.
by rewrite mulmxA.
Qed.

Lemma dbasisE : dbasis ob b = X.
Proof. by rewrite /dbasis (cols_firstn hn). Qed.

(** The Gram matrix of [V, MAU, U] is S with E and E^* exchanged. *)
Lemma dSE : E^h = E -> dS l ob b = inner Bm (row_mx (row_mx V (imcols M (imcols A U))) U)
  (row_mx (row_mx V (imcols M (imcols A U))) U).
Proof. by move=> sE; rewrite (gramQU hr) /dS dFE !eye1 !tconjE sE. Qed.

Lemma dresnormE mu y : E^h = E -> W = 0 ->
  dresnorm l ob b EC mu y = ipnorm (ip1 Bm) (M (A (X *m y)) - mu *: (X *m y)).
Proof.
move=> sE W0; rewrite (resE hr) W0 row_mx0 mul0mx addr0 /dresnorm dSE // /ipnorm.
rewrite /dG !eye1; set g := _ *m y; rewrite ip1X innerMl // innerMr // tconjE mulmxA.
congr sqrtC; rewrite ger0_norm //.
set Q := row_mx _ U; have := ip_ge0' (valid_is_ip hBm) (Q *m g).
by rewrite ip1X innerMl // innerMr // mulmxA.
Qed.
End Model.
