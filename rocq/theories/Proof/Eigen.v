(** An orthonormal eigenbasis of a self-adjoint operator, for an arbitrary inner
    product. *)
From mathcomp Require Import all_ssreflect all_algebra.
From Verif Require Import Spec.LinAlg Proof.Algebra Proof.IpTheory Proof.Spectral.

Set Implicit Arguments.
Unset Strict Implicit.
Unset Printing Implicit Defensive.
Import Order.TTheory GRing.Theory Num.Theory.
Local Open Scope ring_scope.

Section Eigen.
Variable C : numClosedFieldType.
Variable N : nat.
Local Notation vec := 'cV[C]_N.

Lemma vec_sum (x : vec) : x = \sum_i x i 0 *: delta_mx i 0.
Proof. by rewrite {1}(matrix_sum_delta x); apply: eq_bigr => i _; rewrite big_ord1. Qed.

Lemma lin_matrix (T : vec -> vec) : is_linear T -> exists K : 'M[C]_N, forall x, T x = K *m x.
Proof.
move=> hT; exists (\matrix_(i, j) T (delta_mx j 0) i 0) => x; rewrite {1}(vec_sum x) (lin_sum hT).
apply/matrixP => i j; rewrite !mxE summxE; apply: eq_bigr => k _.
by rewrite (linZ hT) !mxE mulrC (ord1 j).
Qed.

Lemma ip_gram (ip : vec -> vec -> C) : is_ip ip ->
  exists2 G : 'M[C]_N, G^h = G & forall x y, ip x y = (x^h *m G *m y) 0 0.
Proof.
move=> h; exists (\matrix_(i, j) ip (delta_mx i 0) (delta_mx j 0)).
  by apply/matrixP => i j; rewrite ctrE !mxE -(ipC h).
move=> x y; rewrite {1}(vec_sum y) (ip_sumr h) mxE; apply: eq_bigr => j _.
rewrite (ipZr h) mulrC; congr (_ * _); rewrite {1}(vec_sum x) (ip_suml h) mxE.
by apply: eq_bigr => i _; rewrite (ipZl h) !mxE.
Qed.

Theorem eigenbasis (ip : vec -> vec -> C) (T : vec -> vec) : is_ip ip -> is_linear T -> self_adjoint ip T ->
  exists (v : nat -> vec) (d : nat -> C),
    [/\ orthonormal ip v N, forall j, (j < N)%N -> T (v j) = d j *: v j /\ d j \is Num.real
      & forall x, in_span v N x].
Proof.
move=> hip lT sa; have [K hK] := lin_matrix lT; have [G hG eG] := ip_gram hip.
have [U [g [hU eU]]] := spectral hG.
have g0 i : 0 < g 0 i.
  have nz : U^h *m delta_mx i 0 != 0 :> vec.
    apply/negP => /eqP/(congr1 (mulmx U)); rewrite mulmxA hU mul1mx mulmx0 => /matrixP/(_ i 0)/eqP.
    by rewrite !mxE !eqxx oner_eq0.
  have := ip_pos hip nz; rewrite eG eU ctrM ctrK !mulmxA -(mulmxA _ U U^h) hU mulmx1.
  rewrite -(mulmxA _ U U^h) hU mulmx1.
  have -> // : ((delta_mx i 0 : vec)^h *m diag_mx g *m (delta_mx i 0 : vec)) 0 0 = g 0 i.
  rewrite -mulmxA mxE (bigD1 i) //= big1 ?addr0 => [|k ki].
    by rewrite mul_diag_mx !mxE !eqxx /= conjC1 mul1r mulr1.
  by rewrite !mxE (negbTE ki) conjC0 mul0r.
pose q : 'rV[C]_N := \row_i sqrtC (g 0 i); pose q' : 'rV[C]_N := \row_i (sqrtC (g 0 i))^-1.
have qq' : diag_mx q *m diag_mx q' = 1%:M.
  apply/matrixP => i j; rewrite mul_diag_mx !mxE; case: eqP => [->|]; rewrite ?mulr0 //.
  by rewrite mulr1n divff // sqrtC_eq0 gt_eqF.
have q'q : diag_mx q' *m diag_mx q = 1%:M.
  apply/matrixP => i j; rewrite mul_diag_mx !mxE; case: eqP => [->|]; rewrite ?mulr0 //.
  by rewrite mulr1n mulVf // sqrtC_eq0 gt_eqF.
have qh : (diag_mx q)^h = diag_mx q.
  apply/matrixP => i j; rewrite ctrE !mxE [j == i]eq_sym; case: eqP => [->|]; rewrite ?conjC0 //.
  by rewrite mulr1n ge0_conj // sqrtC_ge0 ltW.
pose S := diag_mx q *m U; pose S' := U^h *m diag_mx q'.
have SS' : S *m S' = 1%:M by rewrite /S /S' mulmxA -(mulmxA _ U) hU mulmx1.
have S'S : S' *m S = 1%:M by rewrite /S /S' mulmxA -(mulmxA _ (diag_mx q')) q'q mulmx1 unitaryV.
have GS : G = S^h *m S.
  rewrite eU /S ctrM qh !mulmxA -(mulmxA U^h (diag_mx q)); congr (_ *m _ *m _).
  apply/matrixP => i j; rewrite mul_diag_mx !mxE; case: eqP => [->|]; rewrite ?mulr0 //.
  by rewrite !mulr1n -expr2 sqrtCK.
clearbody S S'.
have KG : K^h *m G = G *m K.
  apply/matrixP => i j; have := sa (delta_mx i 0) (delta_mx j 0); rewrite !eG !hK ctrM.
  have e (B : 'M[C]_N) : ((delta_mx i 0 : vec)^h *m B *m (delta_mx j 0 : vec)) 0 0 = B i j.
    rewrite mxE (bigD1 j) //= big1 ?addr0 => [|k kj]; last by rewrite [delta_mx _ _ _ _]mxE (negbTE kj) mulr0.
    rewrite [delta_mx _ _ _ _]mxE !eqxx mulr1 mxE (bigD1 i) //= big1 ?addr0 => [|k ki].
      by rewrite ctrE mxE !eqxx conjC1 mul1r.
    by rewrite ctrE mxE (negbTE ki) conjC0 mul0r.
  by rewrite -(mulmxA _ K^h) -(mulmxA _ G) !mulmxA -(mulmxA _ K^h) -(mulmxA _ G) !e.
pose H := S *m K *m S'.
have SG : S'^h *m S^h = 1%:M by rewrite -ctrM SS' ctr1.
have hH : H^h = H.
  have -> : H^h = S'^h *m (K^h *m G) *m S'.
    have c3 (X Y Z : 'M[C]_N) : (X *m Y *m Z)^h = Z^h *m (Y^h *m X^h) by rewrite !ctrM.
    by rewrite GS /H c3 !mulmxA -(mulmxA _ S S') SS' mulmx1.
  by rewrite KG GS !mulmxA SG mul1mx.
have [W [e [hW eW]]] := spectral hH.
have er i : e 0 i \is Num.real.
  have : diag_mx e = (diag_mx e)^h.
    have -> : diag_mx e = W *m H *m W^h.
      by rewrite eW !mulmxA hW mul1mx -mulmxA hW mulmx1.
    by rewrite ctrM (ctrM W H) ctrK hH mulmxA.
  move/matrixP/(_ i i); rewrite ctrE !mxE eqxx mulr1n => h.
  by rewrite CrealE -h.
pose V := S' *m W^h; pose V' := W *m S.
have VV' : V *m V' = 1%:M by rewrite /V /V' mulmxA -(mulmxA _ W^h) unitaryV // mulmx1.
have VG : V^h *m G *m V = 1%:M.
  rewrite GS /V ctrM ctrK !mulmxA -(mulmxA _ S'^h) SG mulmx1 -(mulmxA _ S) SS' mulmx1.
  exact: hW.
have KV : K *m V = V *m diag_mx e.
  have -> : K *m V = S' *m H *m W^h by rewrite /H !mulmxA S'S mul1mx.
  by rewrite eW /V !mulmxA -(mulmxA _ W W^h) hW mulmx1.
clearbody V V'.
pose v j : vec := if insub j is Some i then col i V else 0.
pose d j := if insub j is Some i then e 0 i else 0.
have vE (i : 'I_N) : v i = V *m delta_mx i 0 by rewrite /v valK colE.
exists v, d; split.
- move=> i j hi hj; rewrite -[v i]/(v (Ordinal hi)) -[v j]/(v (Ordinal hj)) !vE eG ctrM !mulmxA.
  rewrite -(mulmxA _ V^h) -(mulmxA _ (V^h *m G)) VG mulmx1 mxE (bigD1 (Ordinal hj)) //= big1 ?addr0 => [|k kj].
    by rewrite ctrE !mxE !eqxx mulr1 andbT -val_eqE /= eq_sym; case: eqP; rewrite ?conjC1 ?conjC0.
  by rewrite [X in _ * X]mxE (negbTE kj) mulr0.
- move=> j hj; rewrite -[j]/(nat_of_ord (Ordinal hj)) vE hK mulmxA KV /d valK; split; last exact: er.
  rewrite -mulmxA scalemxAr; congr (_ *m _); apply/matrixP => i k; rewrite mul_diag_mx !mxE.
  by case: eqP => [->|_] /=; rewrite ?mulr0.
- move=> x; exists (fun j => if insub j is Some i then (V' *m x) i 0 else 0).
  rewrite -[LHS]mul1mx -VV' -mulmxA {1}(vec_sum (V' *m x)) mulmx_sumr; apply: eq_bigr => i _.
  by rewrite valK vE scalemxAr.
Qed.
End Eigen.
