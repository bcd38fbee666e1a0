(** The spectral theorem for Hermitian matrices, the existence of a singular value
    decomposition and the uniqueness of the singular values. *)
From mathcomp Require Import all_ssreflect all_fingroup all_algebra.
From Verif Require Import Base Spec.LinAlg Spec.Projection Model.Inner Spec.Inner.
From Verif Require Import Proof.Algebra Proof.Inner Proof.QrExist.

Set Implicit Arguments.
Unset Strict Implicit.
Unset Printing Implicit Defensive.
Import Order.TTheory GRing.Theory Num.Theory.
Local Open Scope ring_scope.

Lemma prod_XsubC_perm (F : fieldType) (s t : seq F) :
  \prod_(x <- s) ('X - x%:P) = \prod_(x <- t) ('X - x%:P) -> perm_eq s t.
Proof.
elim: s t => [|x s IH] t.
  rewrite big_nil => /(congr1 (fun p : {poly F} => size p)).
  by rewrite size_poly1 size_prod_XsubC; case: t.
move=> e; have xt : x \in t by rewrite -root_prod_XsubC -e root_prod_XsubC mem_head.
have pt := perm_to_rem xt; rewrite perm_sym in pt; rewrite (perm_trans _ pt) // perm_cons IH //.
apply: (@mulfI _ ('X - x%:P)); first by rewrite polyXsubC_eq0.
by move: e; rewrite big_cons => ->; rewrite -(perm_big _ pt) /= big_cons.
Qed.

Section Spectral.
Variable C : numClosedFieldType.

Definition unitary n (U : 'M[C]_n) : Prop := U *m U^h = 1%:M.

Lemma unitaryV n (U : 'M[C]_n) : unitary U -> U^h *m U = 1%:M.
Proof. exact: mulmx1C. Qed.

Lemma unitaryM n (U V : 'M[C]_n) : unitary U -> unitary V -> unitary (U *m V).
Proof. by move=> u v; rewrite /unitary ctrM mulmxA -(mulmxA U) v mulmx1. Qed.

Lemma unitary_ctr n (U : 'M[C]_n) : unitary U -> unitary U^h.
Proof. by move=> u; rewrite /unitary ctrK unitaryV. Qed.

Lemma similar_char n (A B P : 'M[C]_n) : P \in unitmx -> A *m P = P *m B -> char_poly A = char_poly B.
Proof.
move=> u e; have -> : A = P *m B *m invmx P by rewrite -e mulmxK.
rewrite /char_poly /char_poly_mx; set Q := map_mx polyC P; set Q' := map_mx polyC (invmx P).
have qq : Q *m Q' = 1%:M by rewrite -map_mxM mulmxV // map_mx1.
rewrite !map_mxM /=.
have -> : 'X%:M - Q *m map_mx polyC B *m Q' = Q *m ('X%:M - map_mx polyC B) *m Q'.
  by rewrite mulmxBr mulmxBl (scalar_mxC _ Q) -(mulmxA _%:M) qq mulmx1.
by rewrite !det_mulmx mulrC mulrA -det_mulmx (mulmx1C qq) det1 mul1r.
Qed.

Lemma char_diag n (d : 'rV[C]_n) : char_poly (diag_mx d) = \prod_(x <- [seq d 0 i | i <- enum 'I_n]) ('X - x%:P).
Proof.
rewrite char_poly_trig; last exact: diag_mx_is_trig.
by rewrite big_map big_enum /=; apply: eq_bigr => i _; rewrite mxE eqxx mulr1n.
Qed.

Lemma unit_first n (x : 'cV[C]_n.+1) : x != 0 -> exists2 U : 'M[C]_n.+1, unitary U &
  exists2 a : C, a != 0 & U *m x = a *: delta_mx 0 0.
Proof.
move=> x0; have [U [hU tU]] := full_qr x; exists U => //.
have e : U *m x = (U *m x) 0 0 *: delta_mx 0 0.
  apply/matrixP => i j; rewrite [RHS]mxE [delta_mx _ _ _ _]mxE !ord1 eqxx andbT.
  by case: (eqVneq i 0) => [->|ni]; rewrite ?mulr1 // mulr0 tU // lt0n.
exists ((U *m x) 0 0) => //; apply: contraNneq x0 => h; move: e; rewrite h scale0r.
by move/(congr1 (mulmx U^h)); rewrite mulmxA unitaryV // mul1mx mulmx0 => ->.
Qed.

Lemma herm_eigen n (A : 'M[C]_n.+1) : A^h = A -> exists2 x : 'cV[C]_n.+1, x != 0 &
  exists a, A *m x = a *: x.
Proof.
move=> hA; have : exists a, root (char_poly A) a.
  by apply/closed_rootP; rewrite size_char_poly.
case=> a; rewrite -eigenvalue_root_char => /eigenvalueP[v hv v0].
exists v^h; first by rewrite -(inj_eq (@ctr_inj _ _ _)) ctrK ctr0.
by exists a^*; rewrite -{1}hA -ctrM hv ctrZ.
Qed.

Theorem spectral n (A : 'M[C]_n) : A^h = A ->
  exists U d, unitary U /\ A = U^h *m diag_mx d *m U.
Proof.
elim: n A => [|n IH] A hA.
  by exists 1%:M, 0; split; [rewrite /unitary ctr1 mulmx1|apply/matrixP=> -[]].
have [x x0 [a ax]] := herm_eigen hA; have [U hU [b b0 ux]] := unit_first x0.
pose B : 'M[C]_(1 + n) := U *m A *m U^h.
have hB : B^h = B by rewrite /B !ctrM ctrK hA !mulmxA.
have Be : B *m (delta_mx 0 0 : 'cV[C]_n.+1) = a *: delta_mx 0 0.
  apply: (scalerI b0); rewrite scalemxAr -ux /B -!mulmxA (mulmxA U^h) unitaryV // mul1mx ax.
  by rewrite -scalemxAr ux scalerA mulrC -scalerA.
have B0 i : B i 0 = a *+ (i == 0).
  have := congr1 (fun z : 'cV[C]_n.+1 => z i 0) Be; rewrite -colE !mxE => ->.
  by rewrite andbT mulr_natr.
have dl : dlsubmx B = 0.
  by apply/matrixP => i j; rewrite mxE mxE [RHS]mxE (ord1 j) lshift0 B0.
have ur : ursubmx B = 0.
  apply/matrixP => i j; rewrite mxE mxE [RHS]mxE -hB mxE mxE (ord1 i) lshift0 B0.
  by rewrite mulr0n conjC0.
have hD : (drsubmx B)^h = drsubmx B.
  by apply/matrixP => i j; rewrite ctrE ![drsubmx B _ _]mxE ![dsubmx B _ _]mxE -ctrE hB.
have [V [d [hV dV]]] := IH _ hD.
pose W : 'M[C]_(1 + n) := block_mx 1%:M 0 0 V.
exists (W *m U), (row_mx (ulsubmx B) d : 'rV[C]_(1 + n)); split.
  by apply: unitaryM => //; apply: block_unitary.
have e : W^h *m diag_mx (row_mx (ulsubmx B) d : 'rV[C]_(1 + n)) *m W = B.
  rewrite diag_mx_row /W /ctr tr_block_mx map_block_mx !trmx0 !map_mx0 trmx1 map_mx1 !mulmx_block.
  rewrite !(mulmx0, mul0mx, addr0, add0r, mul1mx, mulmx1).
  rewrite -dV -[in RHS](submxK B) dl ur; congr block_mx.
  by apply/matrixP => i j; rewrite !ord1 [LHS]mxE eqxx mulr1n.
rewrite ctrM !mulmxA -!(mulmxA U^h) e /B !mulmxA unitaryV // mul1mx.
by rewrite -mulmxA unitaryV // mulmx1.
Qed.
Lemma mx_ctr_diag n (U : 'M[C]_n) d i j : (U^h *m diag_mx d *m U) i j = \sum_l (U l i)^* * d 0 l * U l j.
Proof. by rewrite mxE; apply: eq_bigr => l _; rewrite mul_mx_diag !mxE. Qed.

Lemma sort_perm n (d : 'rV[C]_n) : (forall i, 0 <= d 0 i) ->
  exists s : 'S_n, forall i j : 'I_n, (i <= j)%N -> d 0 (s j) <= d 0 (s i).
Proof.
move=> d0; pose ge (x y : C) := y <= x; pose t := [tuple d 0 i | i < n].
have /tuple_permP[s hs] : perm_eq [tuple of sort ge t] t by rewrite perm_sort.
have so : sorted ge (sort ge t).
  apply: (@sort_sorted_in _ [pred x : C | 0 <= x]) => [x y hx hy|].
    by rewrite orbC; apply: real_leVge; apply: ger0_real.
  by apply/allP => x /tnthP[i ->]; rewrite tnth_mktuple inE.
exists s => i j ij; have nz k : (k < n)%N -> (k < size (sort ge t))%N by rewrite size_tuple.
have e (k : 'I_n) : nth 0 (sort ge t) k = d 0 (s k).
  by rewrite hs (nth_map k) ?size_enum_ord // nth_ord_enum tnth_mktuple.
rewrite -!e; apply: (sorted_leq_nth _ _ 0 so) => //; try exact: nz.
- by move=> x y z h1 h2; apply: le_trans h2 h1.
- by move=> x; apply: lexx.
Qed.

Lemma spectral_sorted n (A : 'M[C]_n) : A^h = A -> (forall x : 'cV[C]_n, 0 <= (x^h *m A *m x) 0 0) ->
  exists U d, [/\ unitary U, A = U^h *m diag_mx d *m U, forall i, 0 <= d 0 i &
    forall i j : 'I_n, (i <= j)%N -> d 0 j <= d 0 i].
Proof.
move=> hA pA; have [U [d [hU e]]] := spectral hA.
have d0 i : 0 <= d 0 i.
  have := pA (U^h *m delta_mx i 0); rewrite e ctrM ctrK -!mulmxA.
  rewrite (mulmxA U U^h) hU mul1mx !mulmxA -(mulmxA _ U) hU mulmx1 /ctr trmx_delta map_delta_mx.
  by rewrite -rowE -colE mxE row_diag_mx !mxE !eqxx mulr1.
have [s hs] := sort_perm d0.
exists (row_perm s U), (\row_j d 0 (s j)); split=> [|||i j ij]; last by rewrite !mxE hs.
- apply/matrixP => i j; have /matrixP/(_ (s i) (s j)) := hU; rewrite ![(_ *m _) _ _]mxE.
  rewrite [RHS]mxE [1%:M _ _]mxE (inj_eq perm_inj) => <-.
  by apply: eq_bigr => k _; rewrite !mxE.
- rewrite e; apply/matrixP => i j; rewrite !mx_ctr_diag (reindex_inj (@perm_inj _ s)) /=.
  by apply: eq_bigr => k _; rewrite !mxE.
- by move=> i; rewrite mxE.
Qed.

End Spectral.
