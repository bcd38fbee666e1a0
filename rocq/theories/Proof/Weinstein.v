(** The Krylov-Weinstein inclusion: near an approximate eigenvalue of a self-adjoint operator
    there is an eigenvalue. *)
From mathcomp Require Import all_ssreflect all_algebra ring.
From Verif Require Import Spec.LinAlg Spec.Rates Proof.Algebra Proof.IpTheory Proof.Eigen.

Set Implicit Arguments.
Unset Strict Implicit.
Unset Printing Implicit Defensive.
Import Order.TTheory GRing.Theory Num.Theory.
Local Open Scope ring_scope.

Section Weinstein.
Variable C : numClosedFieldType.
Variable N : nat.
Local Notation vec := 'cV[C]_N.
Variables (ip : vec -> vec -> C) (T : vec -> vec).
Hypothesis hip : is_ip ip.
Hypothesis hT : is_linear T.
Hypothesis sa : self_adjoint ip T.

Lemma weinstein (x : vec) (t : C) : ipnorm ip x = 1 ->
  exists mu, [/\ eigenvalue_of T mu, mu \is Num.real & `|t - mu| <= ipnorm ip (T x - t *: x)].
Proof.
move=> nx; have [v [d [ov ev sp]]] := eigenbasis hip hT sa; have [c xE] := sp x.
set r := ipnorm ip _; have r0 : 0 <= r by apply: ipnorm_ge0.
have [/existsP[j hj]|/existsPn hn] := boolP [exists j : 'I_N, `|t - d j| <= r].
  exists (d j); split=> //; last by case: (ev j (ltn_ord j)).
  exists (v j); last by case: (ev j (ltn_ord j)).
  apply/negP => /eqP e; have := ov j j (ltn_ord j) (ltn_ord j).
  by rewrite e (ipr0 hip) eqxx => /esym/eqP; rewrite oner_eq0.
have xx : \sum_(j < N) `|c j| ^+ 2 = 1.
  have := ipnorm_sq ip x; rewrite nx expr1n xE (ortho_ip hip _ _ ov) => ->.
  by apply: eq_bigr => j _; rewrite -normCKC.
have rr : r ^+ 2 = \sum_(j < N) `|c j| ^+ 2 * `|t - d j| ^+ 2.
  have e : T x - t *: x = \sum_(j < N) (c j * (d j - t)) *: v j.
    rewrite xE (lin_sum hT) scaler_sumr -sumrB; apply: eq_bigr => j _.
    rewrite (linZ hT) (ev j (ltn_ord j)).1 !scalerA -scalerBl; congr (_ *: _); ring.
  pose q j := c j * (d j - t); rewrite /r ipnorm_sq e (ortho_ip hip q q ov); apply: eq_bigr => j _.
  by rewrite -normCKC normrM exprMn [`|d j - t|]distrC.
have z0 : \sum_(j < N) `|c j| ^+ 2 * (`|t - d j| ^+ 2 - r ^+ 2) = 0.
  under eq_bigr do rewrite mulrBr.
  by rewrite sumrB -rr -mulr_suml xx mul1r subrr.
have lt (j : 'I_N) : r ^+ 2 < `|t - d (nat_of_ord j)| ^+ 2.
  by rewrite (@ltr_pexpn2r _ 2) ?nnegrE // real_ltNge ?ger0_real // (hn j).
have cz (j : 'I_N) : `|c (nat_of_ord j)| ^+ 2 = 0.
  have /eqP := z0; rewrite psumr_eq0 => [/allP/(_ j (mem_index_enum _))/=|i _].
    by rewrite mulf_eq0 => /orP[/eqP //|]; rewrite subr_eq0 gt_eqF.
  by rewrite mulr_ge0 ?exprn_ge0 // subr_ge0 ltW.
by move/eqP: xx; rewrite big1 // eq_sym oner_eq0.
Qed.
End Weinstein.
