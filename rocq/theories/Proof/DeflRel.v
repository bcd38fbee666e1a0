(** The attributes of a deflated solver satisfy the relations of Spec/DeflRitz.v. *)
From mathcomp Require Import all_ssreflect all_algebra ring.
From Verif Require Import Base Spec.LinAlg Proof.Algebra Model.Inner Spec.Inner Proof.Inner Proof.IpTheory.
From Verif Require Import Model.Arnoldi Spec.Arnoldi Proof.Arnoldi Proof.ArnoldiRel Proof.ArnoldiAll Model.Solver Model.LinearSystem Model.Krylov Spec.Krylov.
From Verif Require Import Proof.LinearSystem Model.Projection Spec.Projection Model.Deflation Spec.Deflation.
From Verif Require Import Proof.Qr Proof.Projection Proof.Deflation Model.DeflRitz Spec.DeflRitz Proof.DeflRitz.

Set Implicit Arguments.
Unset Strict Implicit.
Unset Printing Implicit Defensive.
Import Order.TTheory GRing.Theory Num.Theory.
Local Open Scope ring_scope.

(** The relation only looks at the leading columns. *)
Lemma arnoldi_rel_ext (C : numClosedFieldType) N (ip : 'cV[C]_N -> 'cV[C]_N -> C) A M v n m V P H V' P' H' :
  (n <= m)%N ->
  arnoldi_rel ip A M v n m V P H -> (forall j, (j < m)%N -> V' j = V j) -> (forall j, (j < m)%N -> P' j = P j) ->
  (forall i j, H' i j = H i j) -> arnoldi_rel ip A M v n m V' P' H'.
Proof.
move=> hnm [R1 R2 R3 R4 R5] eV eP eH; split.
- by move=> j hj; rewrite eV // eP // R1.
- by move=> i j hi hj; rewrite !eP //; apply: R2.
- by move=> h0; rewrite eP // -R3.
- move=> j hj; have [w [k1 k2 k3 k4]] := R4 j hj; have hjm := leq_trans hj hnm; exists w; split.
  + rewrite eV // k1; congr (_ + _); apply: eq_bigr => i _; rewrite eH eP //.
    by apply: leq_ltn_trans hjm; rewrite -ltnS.
  + by move=> i hi; rewrite eV ?k2 // (leq_ltn_trans hi).
  + by rewrite eH.
  + by move=> hj'; rewrite eH eP //; apply: k4.
- by move=> i j hij; rewrite eH R5.
Qed.

Section Rel.
Variable C : numClosedFieldType.
Variable sqr : forall n k, 'M[C]_(n, k) -> 'M[C]_(n, k) * 'M[C]_k.
Hypothesis hsqr : qr_spec sqr.
Variable N k : nat.
Local Notation vec := 'cV[C]_N.
Variable l : lsys C N.
Hypothesis hl : lsys_ok l.
Variables (Minv : option (vec -> vec)) (same : bool) (U0 : 'M[C]_(N, k)) (kw : pkwargs).
Hypothesis ha : defl_args sqr l Minv same U0 kw.
Variable ob : obl C N k.
Hypothesis hob : mk_oblique sqr l Minv same U0 kw = Ok ob.
Variable Bm : ipB C N.
Hypothesis eBm : get_ip_Minv_B l Minv = Ok Bm.
Hypothesis vBm : valid_ip Bm.
Hypothesis hadj : forall x y, ip1 Bm x (lMop l y) = ip1 (lB l) x y.
Hypothesis hsep : separated (ip1 Bm) (eps15 C) U0.
Local Notation A := (lMlAMr l).
Local Notation M := (lMop l).
Local Notation ip := (inner (lB l)).
Local Notation U := (o_U ob).
Let hB := lo_B hl.
Let hip := valid_is_ip hB.
Let hA := lMlAMr_lin hl.
Let hM := lo_M hl.

Lemma U_orth : inner Bm U U = 1%:M.
Proof.
move: hob; rewrite /mk_oblique eBm /=.
have [Q [R [-> _ _ h4 h5]]] := mgs_thm U0 (pk_reorthos kw) vBm; rewrite /=.
case: (mk_proj _ _ _ _ _ _) => [p|e] //= [<-] /=.
by have [] := h4 (h5 hsep).
Qed.

Variables (r : vec) (n n_ : nat) (V P : nat -> vec) (H : nat -> nat -> C) (Cs : seq 'cV[C]_k) (fl : bool).
Hypothesis hn : (n <= n_)%N.
Hypothesis hn1 : (n_ <= n.+1)%N.
Hypothesis R : arnoldi_rel (ip1 (lB l)) (d_op l ob) M (Pd l ob r) n n_ V P H.
Hypothesis r0 : (0 < n_)%N -> Pd l ob r != 0.
Hypothesis sC : size Cs = n.
Hypothesis hC : forall j, (j < n)%N -> nth 0 Cs j = ip U (A (V j)).
Hypothesis hfl : fl -> self_adjoint (ip1 (lB l)) A.

Let mp := lmip hl.

Lemma U_P j : (j < n_)%N -> ip U (P j) = 0.
Proof.
elim/ltn_ind: j => -[|j] IH hj.
  have nr := r0 hj; have e := ar_first R hj.
  have n0 : ipnorm (mip (ip1 (lB l)) M) (Pd l ob r) != 0 by rewrite (ipnorm_eq0 mp).
  have := UPd hl ha hob r; rewrite {1}e innerZr // => /eqP; rewrite scaler_eq0 (negbTE n0) => /eqP //.
have jn : (j < n)%N by rewrite -ltnS (leq_trans hj).
have [w [e1 _ _ e4]] := ar_step R jn; have [ew H0] := e4 hj.
have uw : ip U w = 0.
  have -> : w = d_op l ob (V j) - \sum_(i < j.+1) H i j *: P i by rewrite e1 addrC addKr.
  rewrite innerBr // (d_opE hsqr hl ha hob) (UPd hl ha hob) sub0r.
  suff -> : ip U (\sum_(i < j.+1) H i j *: P i) = 0 by rewrite oppr0.
  elim/big_rec: _ => [|i x _ hx]; first by rewrite inner0r.
  by rewrite innerDr // hx addr0 innerZr // IH ?scaler0 // ltnW // (leq_ltn_trans _ hj).
have := uw; rewrite ew innerZr // => /eqP; rewrite scaler_eq0 gt_eqF //= => /eqP //.
Qed.

Local Notation b := (mk_byprod l fl ob n_ n V H Cs).

Lemma colV j (hj : (j < n_)%N) : col (Ordinal hj) (bp_V b) = V j.
Proof. by apply/matrixP => a c; rewrite !mxE ord1. Qed.
Lemma colVn (j : 'I_n) : col j (firstn hn (bp_V b)) = V j.
Proof. by apply/matrixP => a c; rewrite !mxE ord1. Qed.
Lemma col_im (f : vec -> vec) p (X : 'M[C]_(N, p)) j : col j (imcols f X) = f (col j X).
Proof. by apply/matrixP => a c; rewrite !mxE ord1. Qed.

Definition remW : 'M[C]_(N, n) :=
  imcols M (imcols A (firstn hn (bp_V b)) - imcols A U *m invmx (d_E ob) *m bp_C b) - bp_V b *m bp_H b.

Lemma C_E : bp_C b = ip U (imcols A (firstn hn (bp_V b))).
Proof.
apply/matrixP => i j; rewrite mxE hC //.
by rewrite !inner_entry // col_im colVn col_id.
Qed.

Lemma col_rem (j : 'I_n) : col j remW = M (d_op l ob (V j)) - \sum_(i < n_) H i j *: V i.
Proof.
have [eA _ _] := oblE ha hob.
rewrite /remW linearB /= col_im; congr (_ - _).
  congr (lMop l _); rewrite linearB /= col_im colVn (d_opE hsqr hl ha hob) /dop /Pd (d_EE hsqr hl ha hob) eA; congr (_ - _).
  rewrite colE -!mulmxA -colE; congr (_ *m (_ *m _)).
  by apply/matrixP => a c; rewrite ord1 -hC // !mxE.
apply/matrixP => a c; rewrite summxE !mxE; apply: eq_bigr => i _.
by rewrite !mxE ord1 mulrC.
Qed.

Lemma ipP i x : (i < n_)%N -> ip1 Bm (V i) (M x) = ip1 (lB l) (V i) x. Proof. by rewrite hadj. Qed.

Lemma VV i j : (i < n_)%N -> (j < n_)%N -> ip1 Bm (V i) (V j) = (i == j)%:R.
Proof.
move=> hi hj; rewrite (ar_V R hj) hadj (rel_Vip (lo_Msa hl) R) //; exact: (ar_orth R).
Qed.

Let hbm := valid_is_ip vBm.

Lemma V_rem i j : (i < n_)%N -> (j < n)%N ->
  ip1 Bm (V i) (M (d_op l ob (V j)) - \sum_(t < n_) H t j *: V t) = 0.
Proof.
move=> hi hj; have hj' : (j < n_)%N by apply: leq_trans hn.
rewrite (ipBr hbm) hadj; have -> : ip1 Bm (V i) (\sum_(t < n_) H t j *: V t) = H i j.
  rewrite (ip_sumr hbm) (bigD1 (Ordinal hi)) //= big1 => [|t ne].
    by rewrite (ipZr hbm) VV // eqxx mulr1 addr0.
  rewrite (ipZr hbm) VV // (_ : (i == t :> nat) = false) ?mulr0 //.
  by apply: contraNF ne => /eqP e; apply/eqP/val_inj; rewrite /= -e.
case: (leqP i j) => hij; first by rewrite (rel_entry hip hM (lo_Msa hl) (lo_Mpd hl) R) // subrr.
have hj1 : (j.+1 < n_)%N by apply: leq_ltn_trans hi.
rewrite (rel_fullsum R hj hj1 hj1) (ip_sumr hip) (bigD1 (Ordinal hi)) //= big1 => [|t ne].
  rewrite (ipZr hip) (rel_Vip (lo_Msa hl) R) // (ar_orth R hi hi) eqxx mulr1 addr0 subrr //.
rewrite (ipZr hip) (rel_Vip (lo_Msa hl) R) // (ar_orth R hi (ltn_ord t)) (_ : (i == t :> nat) = false) ?mulr0 //.
by apply: contraNF ne => /eqP e; apply/eqP/val_inj; rewrite /= -e.
Qed.

Lemma U_V j : (j < n_)%N -> inner Bm U (V j) = 0.
Proof.
move=> hj; apply/matrixP => i c; rewrite ord1 (inner_entry vBm) mxE.
have -> : col 0 (V j) = M (P j) by rewrite -(ar_V R hj); apply/matrixP => s t; rewrite !mxE ord1.
rewrite hadj; have /matrixP /(_ i 0) := U_P hj; rewrite (inner_entry hB) mxE => <-.
by congr (ip1 _ _ _); apply/matrixP => s t; rewrite !mxE ord1.
Qed.

Lemma byprod_rel : defl_rel (lB l) Bm A M hn (bp_V b) U (bp_H b) (d_E ob) (bp_C b) (bp_B b) remW.
Proof.
have [eA _ _] := oblE ha hob.
split=> //.
- apply/matrixP => i j; rewrite (inner_entry vBm) mxE.
  case: i j => i hi [j hj]; rewrite !colV VV //.
- exact: U_orth.
- apply/matrixP => i [j hj]; rewrite (inner_entry vBm) colV mxE.
  have /matrixP /(_ i 0) := U_V hj; rewrite (inner_entry vBm) mxE => <-.
  by congr (ip1 _ _ _); apply/matrixP => s t; rewrite !mxE ord1.
- by rewrite (d_EE hsqr hl ha hob) eA.
- by rewrite (d_EE hsqr hl ha hob); apply: (E_unit hl ha hob).
- exact: C_E.
- apply/matrixP => -[i hi] j; rewrite mxE (inner_entry hB) colV /d_B_ /=.
  case: ifP => [/andP[/hfl sa hc]|_]; last first.
    rewrite eA (inner_entry hB); congr (ip1 _ _ _); apply/matrixP => s t; by rewrite !mxE ord1.
  have hi' : (i < n)%N by case/orP: hc => // h; apply: leq_trans hi h.
  by rewrite hC // tconjE -(innerC hB) (inner_entry hB) col_id col_im sa.
- by rewrite /remW addrCA subrr addr0.
- apply/matrixP => -[i hi] [j hj]; rewrite (inner_entry vBm) colV col_rem mxE; exact: V_rem.
- apply/matrixP => i [j hj]; rewrite (inner_entry vBm) col_rem mxE /= (ipBr hbm) hadj.
  have -> : ip1 (lB l) (col i U) (d_op l ob (V j)) = 0.
    rewrite (d_opE hsqr hl ha hob); have /matrixP /(_ i 0) := UPd hl ha hob (A (V j)).
    rewrite (inner_entry hB) mxE => <-; congr (ip1 _ _ _); apply/matrixP => s t; by rewrite !mxE ord1.
  rewrite (ip_sumr hbm) big1 ?subr0 // => t _; rewrite (ipZr hbm).
  have /matrixP /(_ i 0) := U_V (ltn_ord t); rewrite (inner_entry vBm) mxE (_ : col 0 (V t) = V t) => [->|].
    by rewrite mulr0.
  by apply/matrixP => s q; rewrite !mxE ord1.
Qed.

Lemma remW0 : n_ = n.+1 \/ (0 < n)%N && (H n n.-1 == 0) \/ n = 0%N -> remW = 0.
Proof.
move=> h; apply/matrixP => i j; have := col_rem j => /matrixP /(_ i 0); rewrite mxE => ->.
suff -> : M (d_op l ob (V j)) - \sum_(t < n_) H t j *: V t = 0 by rewrite !mxE.
have step : d_op l ob (V j) = \sum_(t < n_) H t j *: P t -> M (d_op l ob (V j)) - \sum_(t < n_) H t j *: V t = 0.
  by move=> ->; rewrite (lin_sum hM) -sumrB big1 // => t _; rewrite (linZ hM) -(ar_V R) ?subrr.
apply: step; have hj := ltn_ord j; have [h1|h1] := ltnP j.+1 n_; first exact: (rel_fullsum R).
have e1 : n_ = n by apply/eqP; rewrite eqn_leq hn andbT; apply: leq_trans h1 _.
have ej : (j : nat).+1 = n by apply/eqP; rewrite eqn_leq hj (leq_trans hn h1).
case: h => [e|[/andP[_ /eqP e]|e]]; [by move: e; rewrite e1 => /n_Sn|  |by exfalso; move: hj => /=; rewrite -ej in e].
have ej' : (j : nat) = n.-1 by rewrite -[in RHS]ej.
have [w [-> _ ew _]] := ar_step R hj; move: ew; rewrite ej {1}ej' e => /esym/eqP.
rewrite (ipnorm_eq0 mp) => /eqP->; rewrite addr0.
by rewrite e1.
Qed.

Lemma cols_span w : in_cols (firstn hn (bp_V b)) U w <->
  exists z c, in_span V n z /\ w = z + U0 *m c.
Proof.
have e (a : 'cV[C]_n) : firstn hn (bp_V b) *m a = \sum_(j < n) a j 0 *: V j.
  by rewrite mx_sumcol; apply: eq_bigr => j _; rewrite colVn.
split=> [[a [c ->]]|[z [c [[a ->] ->]]]].
  have [c' ->] := span_U ha hob c; exists (firstn hn (bp_V b) *m a), c'; split=> //.
  exists (fun i => if insub i is Some j then a j 0 else 0); rewrite e; apply: eq_bigr => j _.
  by rewrite valK.
have [c' ->] := span_U0 ha hob c; exists (\col_j a j), c'; rewrite e; congr (_ + _).
by apply: eq_bigr => j _; rewrite mxE.
Qed.
End Rel.
