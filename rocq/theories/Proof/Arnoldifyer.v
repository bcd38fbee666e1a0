(** Proofs about Arnoldifyer. *)
From mathcomp Require Import all_ssreflect all_algebra perm ring.
From Verif Require Import Base Spec.LinAlg Proof.Algebra Model.Inner Spec.Inner Proof.Inner Proof.IpTheory.
From Verif Require Import Model.Arnoldi Model.Solver Model.LinearSystem Model.Krylov Model.Projection Spec.Projection Model.Deflation Spec.Deflation.
From Verif Require Import Proof.Qr Proof.Projection Proof.Deflation Model.DeflRitz Spec.DeflRitz Proof.DeflRitz.
From Verif Require Import Model.Arnoldifyer Spec.Arnoldifyer Proof.ObliqueNorm.

Set Implicit Arguments.
Unset Strict Implicit.
Unset Printing Implicit Defensive.
Import Order.TTheory GRing.Theory Num.Theory.
Local Open Scope ring_scope.

Section Pad.
Variable C : numClosedFieldType.
Variables (n w q : nat) (hq : (n + w = q)%N).
Local Notation S := (padeye C w q n).

Let hn : (n <= q)%N. Proof. by rewrite -hq leq_addr. Qed.
Let hw (j : 'I_w) : (n + j < q)%N. Proof. by rewrite -hq ltn_add2l. Qed.

Lemma drowsE r (X : 'M[C]_(q, r)) : drows w n X = S *m X.
Proof.
apply/matrixP => i j; rewrite !mxE (insubT (fun k => k < q)%N (hw i)) (bigD1 (Ordinal (hw i))) //= big1 => [|k ne].
  by rewrite mxE eqxx mul1r addr0; congr (X _ _); apply: val_inj.
rewrite mxE (_ : (k == (n + i)%N :> nat) = false) ?mul0r //; apply: contraNF ne => /eqP e; apply/eqP/val_inj; exact: e.
Qed.

Lemma dcolsE p (X : 'M[C]_(p, q)) : dcols w n X = X *m S^h.
Proof.
apply/matrixP => i j; rewrite !mxE (insubT (fun k => k < q)%N (hw j)) (bigD1 (Ordinal (hw j))) //= big1 => [|k ne].
  by rewrite ctrE mxE eqxx conjC_nat mulr1 addr0; congr (X _ _); apply: val_inj.
rewrite ctrE mxE (_ : (k == (n + j)%N :> nat) = false) ?conjC_nat ?mulr0 //; apply: contraNF ne => /eqP e; apply/eqP/val_inj; exact: e.
Qed.

Lemma padSS : S *m S^h = 1%:M.
Proof.
by apply/matrixP => i j; rewrite -drowsE !mxE (insubT (fun k => k < q)%N (hw i)) ctrE !mxE conjC_nat /= eqn_add2l.
Qed.

Lemma eye_pad : eye C n q *m S^h = 0.
Proof.
apply/matrixP => i j; rewrite -rows_eye // !mxE; have h : (i < q)%N by apply: leq_trans hn.
by rewrite (insubT (fun k => k < q)%N h) ctrE !mxE conjC_nat /= ltn_eqF // (leq_trans (ltn_ord i)) // leq_addr.
Qed.

Lemma eye_pad1 : eye C q n *m eye C n q + S^h *m S = 1%:M.
Proof.
move: hq hn => /esym e; move: hw; rewrite {}e => hw' hn'.
have -> : eye C n (n + w) = row_mx 1%:M 0.
  apply/matrixP => i j; rewrite mxE -[j]splitK; case: (split j) => k; rewrite /= ?row_mxEl ?row_mxEr mxE //.
  by rewrite ltn_eqF // (leq_trans (ltn_ord i)) // leq_addr.
have -> : eye C (n + w) n = col_mx 1%:M 0.
  apply/matrixP => i j; rewrite mxE -[i]splitK; case: (split i) => k; rewrite /= ?col_mxEu ?col_mxEd mxE //.
  by rewrite gtn_eqF // (leq_trans (ltn_ord j)) // leq_addr.
have -> : padeye C w (n + w) n = row_mx 0 1%:M.
  apply/matrixP => i j; rewrite mxE -[j]splitK; case: (split j) => k; rewrite /= ?row_mxEl ?row_mxEr mxE.
    by rewrite ltn_eqF // (leq_trans (ltn_ord k)) // leq_addr.
  by rewrite eqn_add2l eq_sym.
rewrite ctr_row_mx ctr0 ctr1 !mul_col_row !mulmx0 !mul0mx !mulmx1 add_block_mx !addr0 !add0r.
by rewrite -scalar_mx_block.
Qed.

Lemma pad_block m : padeye C (w + m) (q + m) n = block_mx S 0 0 1%:M.
Proof.
apply/matrixP => i j; rewrite mxE -[i]splitK -[j]splitK; case: (split i) => i'; case: (split j) => j' /=.
- by rewrite block_mxEul mxE.
- rewrite block_mxEur mxE /= gtn_eqF //; apply: leq_trans (hw i') _; exact: leq_addr.
- rewrite block_mxEdl mxE /= ltn_eqF // addnA hq; apply: leq_trans (ltn_ord j') _; exact: leq_addr.
by rewrite block_mxEdr !mxE /= addnA hq eqn_add2l eq_sym.
Qed.

Lemma eye_col l : eye C (w + l) w = col_mx 1%:M 0.
Proof.
apply/matrixP => i j; rewrite mxE -[i]splitK; case: (split i) => k; rewrite /= ?col_mxEu ?col_mxEd mxE //.
by rewrite gtn_eqF // (leq_trans (ltn_ord j)) // leq_addr.
Qed.
End Pad.

Section Rank.
Variable C : numClosedFieldType.

Lemma count_initial (d : nat -> bool) K : (forall i j, (i <= j)%N -> d j -> d i) ->
  forall i, (i < K)%N -> (i < \sum_(j < K) d j)%N = d i.
Proof.
move=> hd; elim: K => // K IH i; rewrite ltnS leq_eqVlt big_ord_recr /=.
have le : (\sum_(j < K) d j <= K)%N.
  apply: (@leq_trans (\sum_(j < K) 1)%N); first by apply: leq_sum => j _; apply: leq_b1.
  by rewrite sum_nat_const card_ord muln1.
case dK: (d K) => [] hi.
  have e : (\sum_(j < K) d j = K)%N.
    rewrite (eq_bigr (fun _ => 1%N)) => [|j _]; first by rewrite sum_nat_const card_ord muln1.
    by rewrite (hd j K) // ltnW.
  have di : d i by apply: (hd i K) => //; case/orP: hi => [/eqP->//|/ltnW].
  by rewrite e addn1 ltnS di leq_eqVlt hi.
rewrite addn0; case/orP: hi => [/eqP->|]; last exact: IH.
by rewrite dK ltnNge le.
Qed.

Variables (N m : nat) (X : 'M[C]_(N, m)) (Q : 'M[C]_(N, minn N m)) (R : 'M[C]_(minn N m, m)) (s : {perm 'I_m}).
Hypothesis hp : pqr_ok X Q R s.
Variable thr : C.
Hypothesis thr0 : 0 <= thr.
Local Notation K := (minn N m).
Local Notation wd := (widen_ord (geq_minr N m)).
Local Notation D i := (R i (wd i)).
Hypothesis gap : forall i, D i = 0 \/ eps14 C * thr < `|D i|.
Local Notation l := (arank thr R).

Let e0 : 0 <= eps14 C * thr.
Proof. by rewrite mulr_ge0 // invr_ge0 exprn_ge0 // ler0n. Qed.

Lemma diag_dec (i j : 'I_K) : (i <= j)%N -> `|D j| <= `|D i|.
Proof.
move=> ij; rewrite -(@ler_pexpn2r _ 2) ?nnegrE //.
apply: le_trans (pq_piv hp (j := wd j) ij).
by rewrite (bigD1 j) //= ler_addl sumr_ge0 // => t _; rewrite exprn_ge0.
Qed.

Lemma arankP (i : 'I_K) : (i < l)%N = (eps14 C * thr < `|D i|).
Proof.
pose d j := if insub j is Some j' then eps14 C * thr < `|D j'| else false.
have dE (j : 'I_K) : d j = (eps14 C * thr < `|D j|) by rewrite /d insubT // => hj; congr (_ < `|R _ _|); apply: val_inj.
have -> : l = (\sum_(j < K) d j)%N by apply: eq_bigr => j _; rewrite dE.
rewrite count_initial ?dE // => a c ac; rewrite /d; case: insubP => // c' hc ec hd.
have ha : (a < K)%N by apply: leq_ltn_trans hc.
rewrite (insubT (fun j => j < K)%N ha); apply: lt_le_trans hd _; apply: diag_dec.
by rewrite /= ec.
Qed.

Lemma arank_le : (l <= K)%N.
Proof.
apply: (@leq_trans (\sum_(j < K) 1)%N); first by apply: leq_sum => j _; apply: leq_b1.
by rewrite sum_nat_const card_ord muln1.
Qed.

Lemma zero_rows (i : 'I_K) j : (l <= i)%N -> R i j = 0.
Proof.
move=> hi; have := arankP i; rewrite ltnNge hi /= => /esym h.
have di : D i = 0 by case: (gap i) => //; rewrite h.
case: (ltnP j i) => ji; first exact: (pq_R hp).
have := pq_piv hp ji; rewrite di normr0 expr0n /= (bigD1 i) //= => h1.
have : `|R i j| ^+ 2 <= 0.
  by apply: le_trans h1; rewrite ler_addl sumr_ge0 // => t _; rewrite exprn_ge0.
rewrite le_eqVlt => /orP[|h2]; first by rewrite sqrf_eq0 normr_eq0 => /eqP.
by have := lt_le_trans h2 (exprn_ge0 2 (normr_ge0 (R i j))); rewrite ltxx.
Qed.

Lemma diag_neq0 (i : 'I_K) : (i < l)%N -> D i != 0.
Proof.
rewrite arankP => h; apply/eqP => d0; move: h; rewrite d0 normr0 => h.
by have := le_lt_trans e0 h; rewrite ltxx.
Qed.

Definition R12raw : 'M[C]_(l, m) := \matrix_(i, j) (if insub (i : nat) is Some i' then R i' ((perm_inv s) j) else 0).

Lemma rank_fac : X = cols l Q *m R12raw.
Proof.
apply/matrixP => i j; rewrite -{1}[j](permKV s) (pq_X hp) !mxE.
pose F t := if insub t is Some t' then Q i t' * R t' ((perm_inv s) j) else 0.
have FE (t : 'I_K) : F t = Q i t * R t ((perm_inv s) j) by rewrite /F valK.
rewrite (eq_bigr (fun t : 'I_K => F t)) => [|t _]; last by rewrite FE.
rewrite [RHS](eq_bigr (fun t : 'I_l => F t)) => [|t _]; last first.
  have ht : (t < K)%N by apply: leq_trans arank_le.
  by rewrite !mxE /F (insubT (fun x => x < K)%N ht).
rewrite (big_ord_widen _ F arank_le) [RHS]big_mkcond /=; apply: eq_bigr => t _.
by case: ltnP => // ht; rewrite FE zero_rows // mulr0.
Qed.

(** Every vector that is orthogonal to X is orthogonal to the selected columns of Q. *)
Lemma rank_orth p (B : ipB C N) (Y : 'M[C]_(N, p)) : valid_ip B -> inner B Y X = 0 -> inner B Y (cols l Q) = 0.
Proof.
move=> hB h; have hcol j : inner B Y (col j X) = 0.
  by rewrite colE innerMr // h mul0mx.
have colQ (i : 'I_K) : (i < l)%N -> inner B Y (col i Q) = 0.
  have [u] := ubnP (i : nat); elim: u i => // u IH i; rewrite ltnS => iu il.
  have e : col i Q = (D i)^-1 *: (col (s (wd i)) X - \sum_(t < K | (t < i)%N) R t (wd i) *: col t Q).
    apply/matrixP => a c; rewrite !mxE (pq_X hp) mxE summxE.
    rewrite (bigD1 i) //= (bigID (fun t : 'I_K => (t < i)%N)) /=.
    rewrite [X in _ + (_ + X)]big1 => [|t /andP[ti nt]]; last first.
      rewrite (pq_R hp) ?mulr0 //= ltn_neqAle leqNgt nt andbT eq_sym; exact: ti.
    rewrite addr0 [X in _ + X - _](_ : _ = \sum_(t < K | (t < i)%N) (R t (wd i) *: col t Q) a c); last first.
      rewrite [LHS](eq_bigl (fun t : 'I_K => (t < i)%N)) => [|t]; first by apply: eq_bigr => t _; rewrite !mxE mulrC.
      by case: ltnP => ht; rewrite ?andbF // andbT neq_ltn ht.
    by rewrite addrK mulrC mulfK // diag_neq0.
  rewrite e innerZr // innerBr // hcol (inner_gram hB) mulmx_sumr big1 ?subr0 ?scaler0 // => t ti.
  by rewrite -(inner_gram hB) innerZr // (IH t) ?scaler0 //; [apply: leq_trans iu|apply: ltn_trans il].
apply/matrixP => a c; rewrite inner_entry // mxE.
have hc : (c < K)%N by apply: leq_trans arank_le.
have -> : col c (cols l Q) = col (Ordinal hc) Q.
  by apply/matrixP => x y; rewrite !mxE (insubT (fun x => x < K)%N hc).
have := colQ (Ordinal hc) (ltn_ord c) => /(congr1 (fun M : 'M_(_, _) => M a 0)); rewrite inner_entry // mxE => <-.
by congr (ip1 _ _ _); apply/matrixP => x y; rewrite !mxE.
Qed.
End Rank.

Lemma rows_col (C : numClosedFieldType) n n_ m l k (hn : (n <= n_)%N) (Y1 : 'M[C]_(n_, k)) (Y2 : 'M[C]_(m, k)) (Y3 : 'M[C]_(l, k)) :
  rows n (col_mx (col_mx Y1 Y2) Y3) = eye C n n_ *m Y1.
Proof.
rewrite -rows_eye //; apply/matrixP => i j; rewrite mxE [RHS]mxE.
have h : (i < n_)%N by apply: leq_trans hn.
have h' : (i < n_ + m + l)%N by apply: leq_trans h _; rewrite -addnA leq_addr.
rewrite (insubT (fun x => x < n_)%N h) (insubT (fun x => x < n_ + m + l)%N h').
have -> : Sub (i : nat) h' = lshift l (lshift m (Sub (i : nat) h)) :> 'I_(n_ + m + l) by apply: val_inj.
by rewrite !col_mxEu.
Qed.

Lemma drows_col (C : numClosedFieldType) n_ m l k (Y1 : 'M[C]_(n_, k)) (Y2 : 'M[C]_(m, k)) (Y3 : 'M[C]_(l, k)) :
  drows m n_ (col_mx (col_mx Y1 Y2) Y3) = Y2.
Proof.
apply/matrixP => i j; rewrite mxE.
have h' : (n_ + i < n_ + m + l)%N by rewrite -addnA ltn_add2l; apply: leq_trans (ltn_ord i) _; apply: leq_addr.
rewrite (insubT (fun x => x < n_ + m + l)%N h').
have -> : Sub (n_ + i)%N h' = lshift l (rshift n_ i) :> 'I_(n_ + m + l) by apply: val_inj.
by rewrite col_mxEu col_mxEd.
Qed.

Lemma iso_mul (C : numClosedFieldType) p q r s (P : 'M[C]_(p, q)) (Q : 'M[C]_(q, r)) (R : 'M[C]_(q, s)) :
  P^h *m P = 1%:M -> (P *m Q)^h *m (P *m R) = Q^h *m R.
Proof. by move=> h; rewrite ctrM -mulmxA (mulmxA P^h) h mul1mx. Qed.

Lemma conj_mul (C : numClosedFieldType) p (H T K : 'M[C]_p) : T^h *m T = 1%:M ->
  H *m (T *m K *m T^h) *m T = H *m T *m K.
Proof. by move=> h; rewrite -!mulmxA h mulmx1. Qed.

Lemma mul_e0 (C : numClosedFieldType) N p q r (X : 'M[C]_(N, p)) (W : 'M[C]_(p, q)) (H : 'M[C]_q) (T : 'M[C]_(q, r.+1)) (Y : 'cV[C]_q) c :
  T *m delta_mx 0 (0 : 'I_1) = Y ->
  X *m (W *m (H *m (c *: Y))) = c *: col 0 (X *m (W *m (H *m T))).
Proof. by move=> <-; rewrite colE -!scalemxAr !mulmxA. Qed.

Section Like.
Variable C : numClosedFieldType.
Variables (N : nat) (B : ipB C N).
Hypothesis hB : valid_ip B.
Local Notation vec := 'cV[C]_N.

Lemma innerNr m n (X : 'M[C]_(N, m)) (Y : 'M[C]_(N, n)) : inner B X (- Y) = - inner B X Y.
Proof. by rewrite !(inner_gram hB) mulmxN. Qed.
Lemma innerNl m n (X : 'M[C]_(N, m)) (Y : 'M[C]_(N, n)) : inner B (- X) Y = - inner B X Y.
Proof. by rewrite (innerC hB Y) innerNr -scaleN1r ctrZ rmorphN1 scaleN1r -(innerC hB). Qed.
Lemma innerDl m n (X Z : 'M[C]_(N, m)) (Y : 'M[C]_(N, n)) : inner B (X + Z) Y = inner B X Y + inner B Z Y.
Proof. by rewrite (innerC hB Y) innerDr // ctrD -!(innerC hB). Qed.

Lemma arnoldi_like_intro (PA : vec -> vec) (S : vec -> Prop) r (Vh : 'M[C]_(N, r)) (Hh : 'M[C]_r)
    p (Z : 'M[C]_(N, p)) (Rh : 'M[C]_(p, r)) (F : vec -> vec) :
  inner B Vh Vh = 1%:M -> (forall x, (exists c, x = Vh *m c) <-> S x) -> hessenberg Hh ->
  inner B Z Z = 1%:M -> inner B Vh Z = 0 -> imcols PA Vh = Vh *m Hh + Z *m Rh ->
  (forall x, F x = - (Z *m (Rh *m inner B Vh x) + Vh *m (Rh^h *m inner B Z x))) ->
  arnoldi_like B PA S Vh Hh Z Rh F.
Proof.
move=> h1 h2 h3 h4 h5 h6 h7; have ZV : inner B Z Vh = 0 by rewrite (innerC hB Vh) h5 ctr0.
split=> // [x|x y|]; first by rewrite h7 opprD.
  rewrite /ip1 !h7 innerNl innerNr innerDl innerDr // !innerMl // !innerMr // !ctrM ctrK; congr (fun M : 'M_1 => (- M) 0 0).
  by rewrite -!(innerC hB) !mulmxA addrC.
have Fc j : F (col j Vh) = - col j (Z *m Rh).
  have -> : col j Vh = Vh *m col j 1%:M by rewrite colE mul1mx -colE.
  rewrite h7 !innerMr // h1 ZV mul0mx mul1mx !mulmx0 addr0; congr (- _).
  by rewrite mulmxA (colE j 1%:M) mul1mx -colE.
apply/matrixP => i j; rewrite mxE Fc.
have := congr1 (fun K : 'M_(_, _) => K i j) h6; rewrite mxE [X in _ = X]mxE => e.
rewrite mxE e; move: ((Vh *m Hh) i j) (Z *m Rh) => c K.
by rewrite !mxE addrK.
Qed.
End Like.

Section Main.
Variable C : numClosedFieldType.
Variable N : nat.
Local Notation vec := 'cV[C]_N.
Variable sqr : forall n k, 'M[C]_(n, k) -> 'M[C]_(n, k) * 'M[C]_k.
Variable fqr : forall n k, 'M[C]_(n, k) -> 'M[C]_n.
Variable pqr : forall n k, 'M[C]_(n, k) -> 'M[C]_(n, minn n k) * 'M[C]_(minn n k, k) * {perm 'I_k}.
Variable hess : forall n, 'M[C]_n -> 'M[C]_n * 'M[C]_n.
Variables nrm2 smin : forall n, 'M[C]_n -> C.
Hypothesis hsqr : qr_spec sqr.
Variables (l : lsys C N) (Minv : option (vec -> vec)) (m : nat) (ob : obl C N m) (n_ n : nat).
Variables (b : byprod C N n_ n m) (hn : (n <= n_)%N) (Bm : ipB C N).
Hypothesis eBm : get_ip_Minv_B l Minv = Ok Bm.
Local Notation A := (lMlAMr l).
Local Notation M := (lMop l).
Local Notation U := (o_U ob).
Local Notation V := (bp_V b).
Local Notation E := (d_E ob).
Local Notation B_ := (bp_B b).
Local Notation X := (row_mx (firstn hn V) U).
Local Notation MA := (fun x => M (A x)).
Local Notation MAU := (imcols M (imcols A U)).
Local Notation VA := (row_mx V MAU).
Hypothesis hr : defl_rel (lB l) Bm A M hn V U (bp_H b) E (bp_C b) B_ 0.
Hypothesis hAU : o_AU ob = imcols A U.
Let hB := dr_B hr.
Let hBm := dr_Bm hr.
Let hq : (n + (n_ - n) = n_)%N. Proof. by rewrite subnKC. Qed.
Local Notation EC := (invmx E *m bp_C b).
Local Notation S := (padeye C (n_ - n) n_ n).
Local Notation L := (dL b EC).
Local Notation J := (aJ ob b).

Lemma aJE : J = inner Bm X VA.
Proof. by rewrite (gramXQ hr) /aJ (rows_eye hn). Qed.

Lemma VAL : VA *m L = imcols MA X.
Proof. by rewrite (MAXE hr) row_mx0 addr0 /dL eye1. Qed.

Lemma aJL : J *m L = inner Bm X (imcols MA X).
Proof. by rewrite aJE -innerMr // VAL. Qed.

Lemma aprojE : aproj l ob b = MAU - U *m E - V *m B_.
Proof. by rewrite /aproj /o_MAU hAU. Qed.

Lemma V_aproj : inner Bm V (aproj l ob b) = 0.
Proof.
rewrite aprojE !innerBr // !innerMr // (adjm hr) -(dr_B_ hr) (dr_VV hr) mul1mx (innerC hBm U V) (dr_UV hr) ctr0.
by rewrite mul0mx subr0 subrr.
Qed.
Lemma U_aproj : inner Bm U (aproj l ob b) = 0.
Proof.
rewrite aprojE !innerBr // !innerMr // (adjm hr) -(dr_E hr) (dr_UU hr) mul1mx (dr_UV hr).
by rewrite mul0mx subr0 subrr.
Qed.

Local Notation arnf := (arnf C N m n_ n).

Record arnf_ok (a : arnf) (Q1 : 'M[C]_(N, af_l a)) : Prop := ArnfOk {
  ao_X : af_X a = EC;
  ao_Z : af_Z a = row_mx (V *m S^h) Q1;
  ao_QQ : inner Bm Q1 Q1 = 1%:M; ao_VQ : inner Bm V Q1 = 0; ao_UQ : inner Bm U Q1 = 0;
  ao_R : aproj l ob b = Q1 *m af_R12 a;
  ao_N : af_N a = block_mx S (S *m B_) 0 (af_R12 a) }.

(** The rank decision is right: every diagonal entry of R is 0 or above the threshold. *)
Definition rank_args : Prop :=
  m <> 0%N ->
  let '(Q, R, s) := pqr (aproj l ob b) in let t := nrm2 (dM ob b EC) in
  [/\ pqr_ok (aproj l ob b) Q R s, 0 <= t,
      forall i, R i (widen_ord (geq_minr N m) i) = 0 \/ eps14 C * t < `|R i (widen_ord (geq_minr N m) i)|
    & separated (ip1 Bm) (eps15 C) (cols (arank t R) Q)].

Lemma mk_arnfE : (0 < n + m)%N -> rank_args ->
  exists2 a, mk_arnf sqr pqr nrm2 l Minv ob b = Ok a & exists Q1, arnf_ok (a := a) Q1.
Proof.
move=> nm ra; rewrite /mk_arnf (EinvCE hr) /= gtn_eqF //.
case: eqP => [m0|m0].
  eexists; first by []; have mz p (Y Y' : 'M[C]_(p, m)) : Y = Y'.
    by apply/matrixP => i [j hj]; exfalso; move: hj; rewrite m0.
  exists 0; split=> //=.
  - by rewrite (dcolsE hq).
  - by apply/matrixP => -[].
  - by apply/matrixP => ? [].
  - by apply/matrixP => ? [].
  apply/matrixP => i j; rewrite -[i]splitK; case: (split i) => [i'|[]//]; rewrite -[j]splitK.
  case: (split j) => [j'|[j' hj]]; last by exfalso; move: hj; rewrite m0.
  by rewrite /= block_mxEul !mxE.
have := ra m0; case: (pqr _) => [[Q R] s] /= [h1 h2 h3 h4].
set t := nrm2 _ in h2 h3 h4 *.
have [Q1 [Rt [e [u1 u2] _ g1 g2]]] := mgs_thm (cols (arank t R) Q) 1 hBm.
have [eQ QQ] := g1 (g2 h4).
have u3 : Rt \in unitmx.
  rewrite upper_unit //; apply/forallP => i; rewrite gt_eqF //; apply: lt_le_trans (g2 h4 i).
  by rewrite invr_gt0 exprn_gt0 // ltr0n.
rewrite eBm /= e /=; eexists; first by []; exists Q1; split=> //=.
- by rewrite (dcolsE hq).
- have h := rank_orth h1 h2 hBm V_aproj; rewrite eQ innerMr // in h.
  by rewrite -[LHS](mulmxK u3) h mul0mx.
- have h := rank_orth h1 h2 hBm U_aproj; rewrite eQ innerMr // in h.
  by rewrite -[LHS](mulmxK u3) h mul0mx.
- by rewrite mulmxA -eQ; apply: (rank_fac h1 h3).
rewrite (drowsE hq) (pad_block _ hq) eye_col.
rewrite mul_row_block !mulmx0 mulmx1 add0r addr0 mul_col_mx mul1mx mul0mx.
by rewrite -block_mxEh.
Qed.

Section Ok.
Variables (a : arnf) (Q1 : 'M[C]_(N, af_l a)).
Hypothesis ha : arnf_ok Q1.
Local Notation Z := (af_Z a).
Local Notation Nm := (af_N a).

Lemma arnf_VA : VA = X *m J + Z *m Nm.
Proof.
rewrite (ao_Z ha) (ao_N ha) /aJ (rows_eye hn) !mul_row_block !mulmx0 !addr0 add_row_mx firstn_eye.
rewrite -!mulmxA -!mulmxDr eye_pad1 // mulmx1; congr row_mx.
rewrite addrACA !mulmxA -!mulmxDl -!mulmxA -mulmxDr eye_pad1 // mulmx1 -(ao_R ha) aprojE.
by rewrite addrA addrC -[_ - _ - _]addrA -opprD [U *m E + _]addrC subrK.
Qed.

Lemma arnf_Z : inner Bm Z Z = 1%:M /\ inner Bm X Z = 0.
Proof.
have QV : inner Bm Q1 V = 0 by rewrite (innerC hBm V) (ao_VQ ha) ctr0.
rewrite (ao_Z ha) firstn_eye !(inner_row hBm); split.
  rewrite !innerMl // !innerMr // (ao_QQ ha) (ao_VQ ha) QV (dr_VV hr) ctrK mul1mx padSS // mulmx0 mul0mx.
  by rewrite -scalar_mx_block.
rewrite !innerMl // !innerMr // (ao_VQ ha) (ao_UQ ha) (dr_VV hr) (dr_UV hr) mul1mx eye_ctr eye_pad //.
by rewrite mulmx0 mul0mx block_mx0.
Qed.

(** get, for an orthonormal basis Wt and an orthonormal basis Wto of the complement. *)
Section Aget.
Variables (k r : nat) (Wt : 'M[C]_(n + m, k)) (Wto : 'M[C]_(n + m, r.+1)).
Hypothesis w1 : Wt^h *m Wt = 1%:M.
Hypothesis w2 : Wt^h *m Wto = 0.
Hypothesis w3 : Wto^h *m Wto = 1%:M.
Hypothesis w4 : Wt *m Wt^h + Wto *m Wto^h = 1%:M.
Hypothesis hD : inner Bm (X *m Wt) (imcols MA (X *m Wt)) \in unitmx.
Hypothesis hkr : (k + r.+1 = n + m)%N.
Let hk : (k <= n + m)%N. Proof. by rewrite -hkr leq_addr. Qed.
Hypothesis hhess : forall A : 'M[C]_r.+1, hess_ok A (hess A).1 (hess A).2.
Hypothesis hsmin : (0 < k)%N -> forall G : 'M[C]_k, smin_ok G (smin G).
Variables (r0norm : C) (UMlr : 'cV[C]_m).
Hypothesis n_0 : (0 < n_)%N.
Local Notation Pw := (defl_P Bm MA (X *m Wt)).
Local Notation D := (Wt^h *m (J *m (L *m Wt))).
Local Notation PtM := (1%:M - L *m Wt *m invmx D *m (Wt^h *m J)).
Let hMA := MA_lin hr.

Lemma MAXm j (c : 'M[C]_(n + m, j)) : imcols MA (X *m c) = VA *m (L *m c).
Proof. by rewrite mulmxA VAL !(imcolsE hMA) mulmxA. Qed.

Lemma WVA j (y : 'M[C]_(n_ + m, j)) : inner Bm (X *m Wt) (VA *m y) = Wt^h *m (J *m y).
Proof. by rewrite innerMl // innerMr // -aJE. Qed.

Lemma DE : inner Bm (X *m Wt) (imcols MA (X *m Wt)) = D.
Proof. by rewrite MAXm WVA. Qed.

Lemma uD : D \in unitmx. Proof. by rewrite -DE. Qed.

Lemma Pw_VA (y : 'cV[C]_(n_ + m)) : Pw (VA *m y) = VA *m (PtM *m y).
Proof.
rewrite /defl_P DE MAXm WVA mulmxBl mul1mx mulmxBr; congr (_ - _).
by rewrite !mulmxA.
Qed.

Lemma Wt_J_Pt j (y : 'M[C]_(n_ + m, j)) : Wt^h *m (J *m (PtM *m y)) = 0.
Proof.
rewrite mulmxBl mul1mx !mulmxBr; apply/eqP; rewrite subr_eq0; apply/eqP.
have -> : Wt^h *m (J *m (L *m Wt *m invmx D *m (Wt^h *m J) *m y)) = D *m (invmx D *m (Wt^h *m (J *m y))).
  by rewrite !mulmxA.
by rewrite mulKVmx // uD.
Qed.

Lemma J_Pt j (y : 'M[C]_(n_ + m, j)) : J *m (PtM *m y) = Wto *m (Wto^h *m (J *m (PtM *m y))).
Proof.
have := Wt_J_Pt y; move: (J *m _) => Y h.
by rewrite -[LHS]mul1mx -w4 mulmxDl -!mulmxA h mulmx0 add0r.
Qed.

Lemma imcols_eq (f : vec -> vec) j (Y K : 'M[C]_(N, j)) : (forall i, f (col i Y) = col i K) -> imcols f Y = K.
Proof. by move=> h; apply/matrixP => i i'; rewrite mxE h mxE. Qed.

Lemma PwMA j (c : 'M[C]_(n + m, j)) : imcols (fun x => Pw (MA x)) (X *m c) = VA *m (PtM *m (L *m c)).
Proof.
apply: imcols_eq => i; rewrite colE -mulmxA -colE.
have -> : MA (X *m col i c) = VA *m (L *m col i c) by rewrite -(imcols_vec hMA) -VAL mulmxA.
by rewrite Pw_VA !colE !mulmxA.
Qed.

Lemma PtE : exists2 pt, mk_proj sqr (L *m Wt) (Some (tconj J *m Wt)) None true 2 = Ok pt &
  forall j y, (p_operator_compl pt j).1 y = Ok (PtM *m y).
Proof.
have [pt ep] := mk_proj_total hsqr (N := n_ + m) (B := None) I (L *m Wt) (Some (tconj J *m Wt)) true (its := 2) isT.
exists pt => // j y.
have uD' : inner (ip_arg None) (tconj J *m Wt) (L *m Wt) \in unitmx.
  by rewrite /= tconjE tconjE ctrM ctrK -mulmxA uD.
have kk : (true -> None = None :> option (ipB C (n_ + m)) -> (k <= n_ + m)%N).
  by move=> _ _; apply: leq_trans hk _; rewrite leq_add2r.
have := complE hsqr (B := None) I kk ep uD' _ y; rewrite /p_operator_compl.
case: ifP => [/eqP k0|_] /= h.
  have z : Wt = 0 by apply/matrixP => i [t ht]; exfalso; move: ht; rewrite k0.
  by rewrite z mulmx0 !mul0mx subr0 mul1mx.
rewrite h //; congr Ok; rewrite /Pmx /= mulmxBl mul1mx !tconjE ctrM ctrK.
by rewrite !mulmxA.
Qed.

Definition tstart : 'cV[C]_(n_ + m) := col_mx (\col_i (if i == 0%N :> nat then r0norm else 0)) (invmx E *m UMlr).

Lemma astartE : astart ob n_ r0norm UMlr = Ok tstart.
Proof.
rewrite /astart gtn_eqF // (dr_unit hr); case: ifP => //= /eqP m0; congr (Ok (col_mx _ _)).
by apply/matrixP => -[i hi]; exfalso; move: hi; rewrite m0.
Qed.

Local Notation t0 := tstart.
Local Notation q := (Wto^h *m (J *m (PtM *m t0))).
Local Notation H := (house_matrix (mk_house q)).
Let HH : H *m H = 1%:M. Proof. by have [] := house_unitary q. Qed.
Let Hh : H^h = H. Proof. by have [] := house_unitary q. Qed.
Local Notation Am := (H *m (Wto^h *m J *m (PtM *m (L *m (Wto *m H))))).
Local Notation T := (hess Am).2.
Local Notation Y := (X *m (Wto *m (H *m T))).

Let ho := hhess Am.

Lemma T1 : T *m T^h = 1%:M. Proof. exact: mulmx1C (hk_T ho). Qed.

Lemma Y_on : inner Bm Y Y = 1%:M.
Proof.
rewrite innerMl // innerMr // (gramX hr) mul1mx iso_mul // iso_mul ?(hk_T ho) //.
by rewrite Hh HH.
Qed.

Lemma Y_W : inner Bm (X *m Wt) Y = 0.
Proof. by rewrite innerMl // innerMr // (gramX hr) mul1mx mulmxA w2 mul0mx. Qed.

Lemma Y_span x : (exists c, x = Y *m c) <-> in_cols (firstn hn V) U x /\ inner Bm (X *m Wt) x = 0.
Proof.
split=> [[c ->]|[[c [d ->]]]].
  split; last by rewrite innerMr // Y_W mul0mx.
  by rewrite -mulmxA; set z := _ *m c; exists (usubmx z), (dsubmx z); rewrite -mul_row_col vsubmxK.
rewrite -mul_row_col; move: (col_mx c d) => z h; exists (T^h *m (H *m (Wto^h *m z))).
have wz : Wt^h *m z = 0 by move: h; rewrite innerMl // innerMr // (gramX hr) mul1mx.
have -> : Y *m (T^h *m (H *m (Wto^h *m z))) = X *m (Wto *m (H *m (T *m T^h) *m (H *m (Wto^h *m z)))) by rewrite !mulmxA.
rewrite T1 mulmx1 (mulmxA H) HH mul1mx; congr (_ *m _).
by rewrite -{1}[z]mul1mx -w4 mulmxDl -!mulmxA wz mulmx0 add0r.
Qed.

Lemma Y_rel : imcols (fun x => Pw (MA x)) Y = Y *m (hess Am).1 + Z *m (Nm *m (PtM *m (L *m (Wto *m (H *m T))))).
Proof.
rewrite PwMA arnf_VA mulmxDl -!(mulmxA Z) -!(mulmxA X); congr (_ + _); congr (X *m _).
rewrite J_Pt -!(mulmxA Wto); congr (Wto *m _).
have e : Wto^h *m J *m (PtM *m (L *m (Wto *m H))) = H *m (T *m (hess Am).1 *m T^h).
  have gen (G K : 'M[C]_r.+1) : H *m G = K -> G = H *m K by move=> <-; rewrite mulmxA HH mul1mx.
  exact: gen (hk_A ho).
have -> : Wto^h *m (J *m (PtM *m (L *m (Wto *m (H *m T))))) = Wto^h *m J *m (PtM *m (L *m (Wto *m H))) *m T.
  by rewrite !mulmxA.
apply: etrans (congr1 (fun G => G *m T) e) _.
apply: conj_mul; exact: hk_T ho.
Qed.

Lemma start_rel : Pw (VA *m t0) = (halpha (mk_house q) * hxnorm (mk_house q)) *: col 0 Y + Z *m (Nm *m (PtM *m t0)).
Proof.
rewrite Pw_VA arnf_VA mulmxDl -!(mulmxA Z) -(mulmxA X); congr (_ + _).
rewrite [in LHS]J_Pt; have [_ _ _ e] := mk_house_spec q.
have eq : q = H *m ((halpha (mk_house q) * hxnorm (mk_house q)) *: delta_mx 0 0).
  have gen (y z : 'cV[C]_r.+1) : H *m y = z -> y = H *m z by move=> <-; rewrite mulmxA HH mul1mx.
  exact: gen e.
have e1 : T *m delta_mx 0 0 = delta_mx 0 0 :> 'cV_(r.+1).
  by apply/matrixP => i j; rewrite -colE !mxE (hk_1 ho) // !ord1 eqxx andbT.
apply: etrans (congr1 (fun z => X *m (Wto *m z)) eq) _.
exact: mul_e0.
Qed.

Lemma kN : (k < N)%N.
Proof.
have : (n + m <= N)%N by have := gramX hr; rewrite (inner_gram hBm) => /mulmx1_min.
by rewrite -hkr addnS; apply: leq_trans; rewrite ltnS leq_addr.
Qed.

Section Norm.
Hypothesis k0 : (0 < k)%N.
Local Notation O := (row_mx (row_mx V U) Q1).
Local Notation Yc := (col_mx (block_mx 1%:M B_ 0 E) (row_mx 0 (af_R12 a))).
Local Notation F := (sqr (Yc *m (L *m Wt))).
Local Notation WX := (Wt^h *m col_mx (rows n F.1) (drows m n_ F.1)).

Lemma O_VA : O *m Yc = VA.
Proof.
rewrite mul_row_col mul_row_block !mulmx0 mulmx1 addr0 mul_mx_row mulmx0 add_row_mx addr0; congr row_mx.
by rewrite -(ao_R ha) aprojE addrC -[_ - _ - _]addrA -opprD [U *m E + _]addrC subrK.
Qed.

Lemma O_on : inner Bm O O = 1%:M.
Proof.
have VU : inner Bm V U = 0 by rewrite (innerC hBm U) (dr_UV hr) ctr0.
have QV : inner Bm Q1 V = 0 by rewrite (innerC hBm V) (ao_VQ ha) ctr0.
have QU : inner Bm Q1 U = 0 by rewrite (innerC hBm U) (ao_UQ ha) ctr0.
rewrite !(inner_row hBm) (inner_row_l hBm) (inner_row_r hBm) (ao_QQ ha) (ao_VQ ha) (ao_UQ ha) QV QU VU (dr_UV hr) (dr_VV hr) (dr_UU hr).
by rewrite -scalar_mx_block col_mx0 row_mx0 -scalar_mx_block.
Qed.

Lemma XO (Y' : 'M[C]_(n_ + m + af_l a, k)) : inner Bm X O *m Y' = col_mx (rows n Y') (drows m n_ Y').
Proof.
have VU : inner Bm V U = 0 by rewrite (innerC hBm U) (dr_UV hr) ctr0.
rewrite -[Y'](vsubmxK) -[usubmx Y'](vsubmxK) (rows_col hn) drows_col (inner_row hBm) !(inner_row_r hBm) firstn_eye.
rewrite !innerMl // (dr_VV hr) VU (ao_VQ ha) (ao_UQ ha) (dr_UV hr) (dr_UU hr) mulmx1 eye_ctr !mulmx0.
by rewrite mul_block_col !mul0mx !addr0 !mul_row_col !mul0mx mul1mx addr0 add0r.
Qed.

Lemma PWAW : op_norm (ip1 Bm) Pw (smin WX)^-1.
Proof.
have kk : (k <= n_ + m + af_l a)%N.
  by apply: leq_trans hk _; rewrite -addnA; apply: leq_add => //; apply: leq_addr.
have [eF onF _] := hsqr (Yc *m (L *m Wt)) kk.
have XX : inner Bm (O *m F.1) (O *m F.1) = 1%:M by rewrite innerMl // innerMr // O_on mul1mx onF.
have WXE : inner Bm (X *m Wt) (O *m F.1) = WX by rewrite innerMl // innerMr // XO.
have WW : inner Bm (X *m Wt) (X *m Wt) = 1%:M by rewrite innerMl // innerMr // (gramX hr) mul1mx w1.
have eMA : imcols MA (X *m Wt) = O *m F.1 *m F.2 by rewrite MAXm -O_VA -!mulmxA -eF.
have eD : inner Bm (X *m Wt) (imcols MA (X *m Wt)) = WX *m F.2 by rewrite eMA [in LHS]innerMr // WXE.
have := hD; rewrite eD unitmx_mul => /andP[uW uF].
have uG : inner Bm (X *m Wt) (O *m F.1) \in unitmx by rewrite WXE.
have hG : smin_ok (inner Bm (X *m Wt) (O *m F.1)) (smin WX) by rewrite WXE; apply: (hsmin k0).
have PE y : Pw y = y - oblQ Bm (X *m Wt) (O *m F.1) y.
  rewrite /defl_P eD eMA /oblQ WXE (inv_mul uW uF); congr (_ - _).
  by rewrite -(mulmxA _ F.2) (mulmxA F.2) mulmxV // mul1mx -mulmxA.
have [h1 [x x0 h2]] := compl_norm hBm WW XX uG hG k0 kN.
by split=> [y|]; [rewrite PE|exists x => //; rewrite PE].
Qed.
End Norm.

Lemma agetE : exists2 g, aget sqr hess smin l Minv ob b a r0norm UMlr Wt Wto = Ok g &
  [/\ arnoldi_like Bm (fun x => Pw (MA x)) (fun x => in_cols (firstn hn V) U x /\ inner Bm (X *m Wt) x = 0)
        (ag_Vh g) (ag_Hh g) Z (ag_Rh g) (ag_F g),
      exists al d, [/\ `|al| = 1, 0 <= ag_q g, Pw (VA *m t0) = (al * ag_q g) *: col 0 (ag_Vh g) + Z *m d
                      & ag_vdiff g = ipnorm (ip1 Bm) (Z *m d)]
    & op_norm (ip1 Bm) Pw (ag_PWAW g)].
Proof.
rewrite /aget (ao_X ha) astartE.
have [pt ep hpt] := PtE; rewrite ep /= !hpt /= !tconjE !house_applyE ctrM ctrK Hh hpt /= house_applyE.
case eh: (hess Am) => [Hs Ts] /=; rewrite hpt /= house_applyE eBm /=.
have [ZZ XZ] := arnf_Z.
have eT : Ts = T by rewrite eh.
have eHs : Hs = (hess Am).1 by rewrite eh.
eexists; first by []; split=> /=.
- rewrite (dbasisE ob b hn) eT eHs; apply: arnoldi_like_intro => //.
  + exact: Y_on.
  + exact: Y_span.
  + exact: hk_H ho.
  + by rewrite innerMl // XZ mulmx0.
  + exact: Y_rel.
- exists (halpha (mk_house q)), (Nm *m (PtM *m t0)).
  have [h1 h2 _ _] := mk_house_spec q; split=> //.
  + rewrite h2 sqrtC_ge0; have := ip_ge0' (valid_is_ip (B := @IpNone C r.+1) I) q.
    by rewrite /ip1 /= tconjE.
  + by rewrite (dbasisE ob b hn) eT; apply: start_rel.
  rewrite /ipnorm /ip1 innerMl // innerMr // ZZ mul1mx.
  have -> y : (y^h *m y) 0 0 = \sum_(i < n_ - n + af_l a) `|y i 0| ^+ 2.
    by rewrite mxE; apply: eq_bigr => i _; rewrite ctrE normCK mulrC.
  case: eqP => // e; rewrite big1 ?sqrtC0 // => -[i hi]; exfalso; move: hi; rewrite e //.
case: ifP => [k0|/negbT]; first exact: PWAW.
rewrite -leqNgt leqn0 => /eqP k0.
have W0 y : Pw y = y.
  have -> : Wt = 0 by apply/matrixP => i [t ht]; exfalso; move: ht; rewrite k0.
  by rewrite /defl_P mulmx0 (imcolsE hMA) mulmx0 !mul0mx subr0.
split=> [y|]; first by rewrite W0 mul1r.
exists (const_mx 1); last by rewrite W0 mul1r.
apply/eqP => /matrixP /(_ (Ordinal (leq_ltn_trans (leq0n k) kN)) 0); rewrite !mxE => /eqP.
by rewrite oner_eq0.
Qed.

Lemma aget_empty : n_ = 0%N -> (0 < m)%N -> aget sqr hess smin l Minv ob b a r0norm UMlr Wt Wto = Err ValueError.
Proof.
move=> /eqP e m0; have eT : astart ob n_ r0norm UMlr = Err ValueError by rewrite /astart e gtn_eqF.
by rewrite /aget (ao_X ha); have [pt -> _] := PtE; rewrite /= eT.
Qed.
End Aget.

(** get, for the deflation vectors W = [V_n, U] Wt. *)
Section Get.
Variables (k r : nat) (Wt : 'M[C]_(n + m, k)).
Hypothesis hD : inner Bm (X *m Wt) (imcols MA (X *m Wt)) \in unitmx.
Hypothesis hkr : (k + r.+1 = n + m)%N.
Hypothesis hfqr : fqr_ok Wt (fqr Wt).
Hypothesis hhess : forall A : 'M[C]_r.+1, hess_ok A (hess A).1 (hess A).2.
Hypothesis hsmin : (0 < k)%N -> forall G : 'M[C]_k, smin_ok G (smin G).
Variables (r0norm : C) (UMlr : 'cV[C]_m).
Local Notation Pw := (defl_P Bm MA (X *m Wt)).
Let hMA := MA_lin hr.

Lemma defl_P_base (W' : 'M[C]_(N, k)) (R : 'M[C]_k) x : inner Bm (W' *m R) (imcols MA (W' *m R)) \in unitmx ->
  [/\ inner Bm W' (imcols MA W') \in unitmx, defl_P Bm MA (W' *m R) x = defl_P Bm MA W' x
    & inner Bm (W' *m R) x = 0 <-> inner Bm W' x = 0].
Proof.
have e : imcols MA (W' *m R) = imcols MA W' *m R by rewrite !(imcolsE hMA) mulmxA.
rewrite e innerMl // innerMr // !unitmx_mul unitmx_ctr => /andP[uR /andP[u _]]; split=> //.
  rewrite /defl_P e innerMl // innerMr // !inv_mul ?unitmx_mul ?unitmx_ctr ?u ?uR // innerMl //.
  congr (_ - _); rewrite !mulmxA mulmxK // -!mulmxA; congr (_ *m (_ *m _)).
  by rewrite mulmxA mulVmx ?mul1mx // unitmx_ctr.
have uRh : R^h \in unitmx by rewrite unitmx_ctr.
by rewrite innerMl //; split=> [h|->]; rewrite ?mulmx0 // -[LHS](mulKmx uRh) h mulmx0.
Qed.

Lemma get_base : (0 < k)%N -> let Q := fqr Wt in let W' := cols k Q in let Wo := dcols r.+1 k Q in
  [/\ [/\ W'^h *m W' = 1%:M, W'^h *m Wo = 0, Wo^h *m Wo = 1%:M & W' *m W'^h + Wo *m Wo^h = 1%:M],
      inner Bm (X *m W') (imcols MA (X *m W')) \in unitmx
    & forall x, Pw x = defl_P Bm MA (X *m W') x /\ (inner Bm (X *m Wt) x = 0 <-> inner Bm (X *m W') x = 0)].
Proof.
move=> k0; have hk : (k <= n + m)%N by rewrite -hkr leq_addr.
have [uQ [R hR eW]] := hfqr; set Q := fqr Wt in uQ eW *; cbv zeta.
have e1 : cols k Q = Q *m eye C (n + m) k by rewrite (cols_firstn hk) firstn_eye.
have e2 : dcols r.+1 k Q = Q *m (padeye C r.+1 (n + m) k)^h by rewrite (dcolsE hkr).
have uQ' : Q *m Q^h = 1%:M by apply: mulmx1C.
have eR : R = eye C (n + m) k *m rows k R.
  rewrite (rows_eye hk); apply: etrans (esym (mul1mx R)) _; rewrite -(eye_pad1 _ hkr) mulmxDl -!mulmxA.
  rewrite -(drowsE hkr) (_ : drows _ _ _ = 0) ?mulmx0 ?addr0 //; apply/matrixP => i j; rewrite !mxE.
  case: insubP => // i' _ ei; apply: hR; rewrite ei; apply: leq_trans (ltn_ord j) _; exact: leq_addr.
have eX : X *m Wt = X *m cols k Q *m rows k R by rewrite e1 -!mulmxA -eR -eW.
have hb x := @defl_P_base (X *m cols k Q) (rows k R) x; rewrite -eX in hb.
split; [split|by have [] := hb 0 hD|by move=> x; have [_] := hb x hD].
- by rewrite e1 iso_mul // eye_ctr eye_mul.
- by rewrite e1 e2 iso_mul // eye_ctr eye_pad.
- by rewrite e2 iso_mul // ctrK padSS.
rewrite e1 e2 !ctrM ctrK eye_ctr !mulmxA -mulmxDl -!(mulmxA Q) -mulmxDr.
by rewrite eye_pad1 // mulmx1.
Qed.

Lemma base0 : k = 0%N -> let Wo := eye C (n + m) r.+1 in
  [/\ Wt^h *m Wt = 1%:M, Wt^h *m Wo = 0, Wo^h *m Wo = 1%:M & Wt *m Wt^h + Wo *m Wo^h = 1%:M].
Proof.
move=> k0; have mz p (Y Y' : 'M[C]_(p, k)) : Y = Y' by apply/matrixP => i [j hj]; exfalso; move: hj; rewrite k0.
have mz' p (Y Y' : 'M[C]_(k, p)) : Y = Y' by apply/matrixP => -[j hj]; exfalso; move: hj; rewrite k0.
have rE : (r.+1 = n + m)%N by rewrite -hkr k0.
split=> //; first by rewrite eye_ctr eye_mul // rE.
rewrite (mz _ Wt 0) mul0mx add0r eye_ctr; case: _ / rE.
by rewrite eye1 mulmx1.
Qed.

(** The start vector needs a row of H. *)
Lemma arnf_get_empty : n_ = 0%N -> arnf_get sqr fqr hess smin l Minv ob b a r0norm UMlr Wt r = Err ValueError.
Proof.
move=> e; have n0 : n = 0%N by apply/eqP; rewrite -leqn0 -e.
have m0 : (0 < m)%N.
  by have := hkr; rewrite n0 add0n => <-; rewrite addnS.
rewrite /arnf_get; case: ifP => [k0|/negbT].
  have [[w1 w2 w3 w4] uD' _] := get_base k0; exact: aget_empty.
rewrite -leqNgt leqn0 => /eqP k0; have [w1 w2 w3 w4] := base0 k0; exact: aget_empty.
Qed.

Hypothesis n_0 : (0 < n_)%N.

Lemma arnf_getE : exists2 g, arnf_get sqr fqr hess smin l Minv ob b a r0norm UMlr Wt r = Ok g &
  [/\ arnoldi_like Bm (fun x => Pw (MA x)) (fun x => in_cols (firstn hn V) U x /\ inner Bm (X *m Wt) x = 0)
        (ag_Vh g) (ag_Hh g) Z (ag_Rh g) (ag_F g),
      exists al d, [/\ `|al| = 1, 0 <= ag_q g,
          Pw (VA *m tstart r0norm UMlr) = (al * ag_q g) *: col 0 (ag_Vh g) + Z *m d
        & ag_vdiff g = ipnorm (ip1 Bm) (Z *m d)]
    & op_norm (ip1 Bm) Pw (ag_PWAW g)].
Proof.
rewrite /arnf_get; case: ifP => [k0|/negbT]; last first.
  by rewrite -leqNgt leqn0 => /eqP k0; have [w1 w2 w3 w4] := base0 k0; apply: agetE.
have [[w1 w2 w3 w4] uD' hb] := get_base k0; set Q := fqr Wt in w1 w2 w3 w4 uD' hb *.
have [g eg [g1 g2 g3]] := agetE w1 w2 w3 w4 uD' hkr hhess hsmin r0norm UMlr n_0.
exists g => //; split.
- have h1 x : Pw (MA x) = defl_P Bm MA (X *m cols k Q) (MA x) by have [] := hb (MA x).
  case: g1 => l1 l2 l3 l4 l5 l6 l7 l8 l9; split=> //.
  + move=> x; rewrite l2; have [_ hi] := hb x.
    by split=> -[? h]; split=> //; apply/hi.
  + by rewrite -l6; apply/matrixP => i j; rewrite [LHS]mxE [RHS]mxE h1.
  by rewrite -l9; apply/matrixP => i j; rewrite [LHS]mxE [RHS]mxE h1.
- by case: g2 => al [d [d1 d2 d3 d4]]; exists al, d; split=> //; have [-> _] := hb (VA *m tstart r0norm UMlr).
have h1 x : Pw x = defl_P Bm MA (X *m cols k Q) x by have [] := hb x.
by case: g3 => o1 [x x0 o2]; split=> [y|]; [rewrite h1|exists x; rewrite ?h1].
Qed.
End Get.
End Ok.
End Main.
