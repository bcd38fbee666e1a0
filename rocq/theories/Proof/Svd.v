(** Existence of a singular value decomposition and uniqueness of the singular values. *)
From mathcomp Require Import all_ssreflect all_fingroup all_algebra.
From Verif Require Import Base Spec.LinAlg Spec.Projection Spec.Svd Model.Inner Spec.Inner.
From Verif Require Import Proof.Algebra Proof.Inner Proof.QrExist Proof.Spectral.

Set Implicit Arguments.
Unset Strict Implicit.
Unset Printing Implicit Defensive.
Import Order.TTheory GRing.Theory Num.Theory.
Local Open Scope ring_scope.

Section Svd.
Variable C : numClosedFieldType.

Lemma gram_psd m n (A : 'M[C]_(m, n)) (x : 'cV[C]_n) : 0 <= (x^h *m (A^h *m A) *m x) 0 0.
Proof.
rewrite -!mulmxA mulmxA -ctrM mxE; apply: sumr_ge0 => i _; rewrite ctrE.
by rewrite mulrC mul_conjC_ge0.
Qed.

Section Upper.
Variables (m n : nat) (R : 'M[C]_(m, n)) (d : 'rV[C]_n).
Hypotheses (uR : upper_tri R) (gR : R^h *m R = diag_mx d).
Hypothesis sd : forall i j : 'I_n, (i <= j)%N -> d 0 j <= d 0 i.
Hypothesis d0 : forall i, 0 <= d 0 i.

Lemma gramE i j : \sum_l (R l i)^* * R l j = d 0 i *+ (i == j).
Proof.
have /matrixP/(_ i j) := gR; rewrite !mxE => <-.
by apply: eq_bigr => l _; rewrite ctrE.
Qed.

Lemma col_zero j : d 0 j = 0 -> forall i, R i j = 0.
Proof.
move=> h i; have := gramE j j; rewrite h eqxx mulr1n => e.
have ge l : true -> 0 <= (R l j)^* * R l j by rewrite mulrC mul_conjC_ge0.
have /(_ i isT)/eqP := psumr_eq0P ge e.
by rewrite mulf_eq0 conjC_eq0 orbb => /eqP.
Qed.

Lemma upper_diag (i : 'I_m) (j : 'I_n) : i != j :> nat -> R i j = 0.
Proof.
suff H t : forall (i : 'I_m) (j : 'I_n), i = t :> nat -> i != j :> nat -> R i j = 0 by apply: H.
elim/ltn_ind: t => t IH {}i {}j it ij.
have [ji|ji] := ltnP j i; first exact: uR.
have lij : (i < j)%N by rewrite ltn_neqAle ij.
pose i' : 'I_n := Ordinal (ltn_trans lij (ltn_ord j)).
have z l : l != i -> R l i' = 0.
  move=> li; have [h|h] := ltnP l i; last by apply: uR; rewrite /= ltn_neqAle h eq_sym (inj_eq val_inj) li.
  by apply: (IH l _ l i' erefl); rewrite -?it // neq_ltn h.
have := gramE i' j; rewrite (bigD1 i) //= big1 => [|l li]; last by rewrite z // conjC0 mul0r.
have -> : (i' == j) = false by apply/eqP => h; move: ij; rewrite -h eqxx.
rewrite addr0 => /eqP; rewrite mulf_eq0 conjC_eq0 => /orP[/eqP h|/eqP//].
apply: col_zero; apply/eqP; rewrite eq_le d0 andbT (le_trans (sd (i := i') _)) //.
have := gramE i' i'; rewrite eqxx mulr1n => <-.
by rewrite (bigD1 i) //= h conjC0 mul0r add0r big1 // => l li; rewrite z // conjC0 mul0r.
Qed.

Lemma upper_abs (i : 'I_m) (j : 'I_n) : i = j :> nat -> `|R i j| = sqrtC (d 0 j).
Proof.
move=> ij; have := gramE j j; rewrite eqxx mulr1n (bigD1 i) //= big1 => [|l li].
  by rewrite addr0 mulrC -normCK => <-; rewrite sqrCK.
by rewrite upper_diag ?mulr0 // -ij (inj_eq val_inj).
Qed.
End Upper.

Theorem svd_exists m n (A : 'M[C]_(m, n)) : exists t, svd_ok A t.
Proof.
have hA : (A^h *m A)^h = A^h *m A by rewrite ctrM ctrK.
have [U [d [hU e d0 sd]]] := spectral_sorted hA (@gram_psd _ _ A).
have [V [hV uR]] := full_qr (A *m U^h); set R := V *m _ in uR.
have gR : R^h *m R = diag_mx d.
  rewrite /R !ctrM ctrK -!mulmxA (mulmxA V^h) (unitaryV hV) mul1mx (mulmxA A^h) e.
  by rewrite !mulmxA hU mul1mx -mulmxA hU mulmx1.
have AR : A = V^h *m R *m U.
  by rewrite /R !mulmxA (unitaryV hV) mul1mx -mulmxA (unitaryV hU) mulmx1.
clearbody R; pose sv (j : nat) : C := if insub j is Some j' then sqrtC (d 0 (j' : 'I_n)) else 0.
have svE (j : 'I_n) : sv j = sqrtC (d 0 j) by rewrite /sv valK.
pose s := mkseq sv (minn m n).
pose ph (i : 'I_m) : C := if insub (i : nat) is Some j then
   (if R i j == 0 then 1 else R i j / `|R i j|) else 1.
have ph1 i : ph i * (ph i)^* = 1.
  rewrite -normCK /ph; case: insubP => [j _ _|_]; last by rewrite normr1 expr1n.
  case: eqP => [_|/eqP h]; first by rewrite normr1 expr1n.
  by rewrite normrM normfV normr_id divff ?expr1n // normr_eq0.
exists (V^h *m diag_mx (\row_i ph i), s, U); split=> //.
- have Re : R = diag_mx (\row_i ph i) *m sdiag m n s.
    apply/matrixP => i j; rewrite mul_diag_mx !mxE; case: eqP => [ij|/eqP ij]; last first.
      by rewrite mulr0n mulr0; apply: (upper_diag uR gR sd d0).
    rewrite mulr1n nth_mkseq; last by rewrite leq_min ltn_ord ij ltn_ord.
    rewrite [in sv _]ij svE -(upper_abs uR gR sd d0 ij) /ph.
    have -> : insub (i : nat) = Some j by rewrite ij valK.
    by case: eqP => [->|/eqP h]; rewrite ?normr0 ?mulr0 // divfK // normr_eq0.
  by rewrite -[_ *m _ *m sdiag _ _ _]mulmxA -Re.
- apply: unitaryM; first exact: unitary_ctr.
  rewrite /unitary; apply/matrixP => i j; rewrite mul_diag_mx !mxE eq_sym.
  by case: eqP => [->|_]; rewrite ?mulr1n ?mulr0n ?conjC0 ?mulr0.
- split; first by rewrite size_mkseq.
  move=> x /mapP[j]; rewrite mem_iota add0n leq_min => /andP[_ /andP[_ hj]] ->.
  by rewrite -[j]/(nat_of_ord (Ordinal hj)) svE sqrtC_ge0.
- move=> i j; rewrite size_mkseq leq_min => /andP[ij /andP[jm jn]].
  have im := leq_ltn_trans ij jm; have ln := leq_ltn_trans ij jn.
  rewrite !nth_mkseq ?leq_min ?im ?jm ?ln ?jn //.
  rewrite -[i]/(nat_of_ord (Ordinal ln)) -[j]/(nat_of_ord (Ordinal jn)) !svE.
  by rewrite ler_sqrtC ?nnegrE ?d0 //; apply: sd.
Qed.

Lemma gram_sdiag m n (s : seq C) : size s = minn m n -> (forall x, x \in s -> 0 <= x) ->
  (sdiag m n s)^h *m sdiag m n s = diag_mx (\row_j s`_j ^+ 2).
Proof.
move=> zs s0; apply/matrixP => i j; rewrite !mxE.
have cj k : (s`_k)^* = s`_k.
  have [h|h] := ltnP k (size s); last by rewrite nth_default // conjC0.
  by rewrite conj_Creal // ger0_real // s0 // mem_nth.
have [lm|lm] := ltnP i m; last first.
  rewrite nth_default ?expr0n ?mul0rn; last by rewrite zs geq_min lm.
  rewrite big1 // => k _; rewrite ctrE !mxE; case: eqP => [h|]; last by rewrite mulr0n conjC0 mul0r.
  by move: lm; rewrite -h leqNgt ltn_ord.
rewrite (bigD1 (Ordinal lm)) //= big1 => [|k hk]; last first.
  rewrite ctrE !mxE; case: eqP => [h|]; last by rewrite mulr0n conjC0 mul0r.
  by move: hk; rewrite -(inj_eq val_inj) /= h eqxx.
by rewrite addr0 ctrE !mxE /= eqxx mulr1n cj (inj_eq val_inj) mulrnAr.
Qed.

Lemma svd_gram m n (A : 'M[C]_(m, n)) Y s Z : svd_ok A (Y, s, Z) ->
  A^h *m A = Z^h *m diag_mx (\row_j s`_j ^+ 2) *m Z.
Proof.
move=> [-> hY hZ [zs s0] _]; rewrite -(gram_sdiag zs s0) !ctrM -!mulmxA.
by rewrite (mulmxA Y^h) (unitaryV hY) mul1mx.
Qed.

(** The singular values are determined by A^* A. *)
Lemma svd_perm m n (A : 'M[C]_(m, n)) Y s Z (P : 'M[C]_n) d : svd_ok A (Y, s, Z) -> P \in unitmx ->
  A^h *m A *m P = P *m diag_mx d ->
  perm_eq [seq s`_(nat_of_ord i) ^+ 2 | i <- enum 'I_n] [seq d 0 i | i <- enum 'I_n].
Proof.
move=> h uP e; have [_ _ hZ _ _] := h; apply: prod_XsubC_perm; rewrite -(char_diag d).
rewrite -(similar_char uP e) (svd_gram h).
have uZ : Z^h \in unitmx by case: (mulmx1_unit (unitaryV hZ)).
rewrite (similar_char (B := diag_mx (\row_j s`_j ^+ 2)) uZ); last by rewrite -mulmxA hZ mulmx1.
by rewrite char_diag; congr (\prod_(x <- _) _); apply: eq_map => i; rewrite mxE.
Qed.

Lemma desc_eq (s t : seq C) : (forall x, x \in s -> 0 <= x) -> (forall x, x \in t -> 0 <= x) ->
  (forall i j : nat, (i <= j < size s)%N -> s`_j <= s`_i) ->
  (forall i j : nat, (i <= j < size t)%N -> t`_j <= t`_i) ->
  perm_eq [seq x ^+ 2 | x <- s] [seq x ^+ 2 | x <- t] -> s = t.
Proof.
move=> s0 t0 ss st p; pose ge (x y : C) := y <= x.
have so (r : seq C) : (forall x, x \in r -> 0 <= x) -> (forall i j : nat, (i <= j < size r)%N -> r`_j <= r`_i) ->
    sorted ge [seq x ^+ 2 | x <- r].
  move=> r0 sr; apply/(sortedP 0) => i; rewrite size_map => hi.
  rewrite /ge !(nth_map 0) ?(ltnW hi) // ler_expn2r ?nnegrE ?r0 ?mem_nth ?(ltnW hi) //.
  by apply: sr; rewrite leqnSn.
have e : [seq x ^+ 2 | x <- s] = [seq x ^+ 2 | x <- t].
  apply: (sorted_eq (leT := ge)); rewrite ?so //.
    by move=> x y z h1 h2; apply: le_trans h2 h1.
  by move=> x y h; apply/eqP; rewrite eq_le andbC.
have zt : size s = size t by rewrite -(size_map (fun x => x ^+ 2)) e size_map.
apply: (eq_from_nth (x0 := 0)) => // i hi.
have := congr1 (fun r => r`_i) e; rewrite !(nth_map 0) -?zt // => /eqP.
have hs : 0 <= s`_i by rewrite s0 // mem_nth.
have ht : 0 <= t`_i by rewrite t0 // mem_nth -?zt.
by rewrite eqr_expn2 // => /eqP.
Qed.
End Svd.

(** A function with the documented behaviour of scipy.linalg.svd exists. *)
Section Oracle.
Variable C : numClosedFieldType.

Definition svd_okb m n (A : 'M[C]_(m, n)) (t : 'M[C]_m * seq C * 'M[C]_n) : bool :=
  let '(Y, s, Z) := t in
  [&& A == Y *m sdiag m n s *m Z, Y *m Y^h == 1%:M, Z *m Z^h == 1%:M,
      (size s == minn m n) && all (fun x => 0 <= x) s
    & all (fun j => all (fun i => s`_j <= s`_i) (iota 0 j.+1)) (iota 0 (size s))].

Lemma svd_okP m n (A : 'M[C]_(m, n)) t : svd_okb A t <-> svd_ok A t.
Proof.
case: t => -[Y s] Z; split=> [/and5P[/eqP h1 /eqP h2 /eqP h3 /andP[/eqP h4 /allP h5] /allP h6]|].
  split=> // i j /andP[ij js]; have := h6 j; rewrite mem_iota add0n => /(_ js)/allP/(_ i).
  by rewrite mem_iota add0n ltnS; apply.
move=> [h1 h2 h3 [h4 h5] h6]; apply/and5P; split; try by apply/eqP.
  by rewrite h4 eqxx; apply/allP.
apply/allP => j; rewrite mem_iota add0n => js; apply/allP => i; rewrite mem_iota add0n ltnS => ij.
by apply: h6; move: ij => /= ->; rewrite js.
Qed.

Lemma svd_existsb m n (A : 'M[C]_(m, n)) : exists t, svd_okb A t.
Proof. by have [t h] := svd_exists A; exists t; apply/svd_okP. Qed.

Definition some_svd m n (A : 'M[C]_(m, n)) := xchoose (svd_existsb A).

Lemma some_svd_spec m n (A : 'M[C]_(m, n)) : svd_ok A (some_svd A).
Proof. by apply/svd_okP; apply: (xchooseP (svd_existsb A)). Qed.
End Oracle.
