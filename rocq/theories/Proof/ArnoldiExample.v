(** A concrete run: A = [[0,1],[1,0]], v = e_0, every orthogonalisation. *)
From mathcomp Require Import all_ssreflect all_algebra.
From Verif Require Import Base Spec.LinAlg Proof.Algebra Model.Inner Spec.Inner Proof.Inner
  Proof.IpTheory Model.Arnoldi Spec.Arnoldi Proof.ArnoldiRel Proof.Arnoldi Proof.HouseArnoldi
  Proof.ArnoldiAll.

Set Implicit Arguments.
Unset Strict Implicit.
Unset Printing Implicit Defensive.
Import Order.TTheory GRing.Theory Num.Theory.
Local Open Scope ring_scope.

Section Ex.
Variable C : numClosedFieldType.

Definition swap_mx : 'M[C]_2 := \matrix_(i, j) (i != j)%:R.
Definition swap_op (x : 'cV[C]_2) : 'cV[C]_2 := swap_mx *m x.
Definition e0 : 'cV[C]_2 := \col_i (i == 0)%:R.
Definition e1 : 'cV[C]_2 := \col_i (i == 1)%:R.
Definition swap_cfg (o : ortho_t) (m : nat) : acfg C 2 := ACfg swap_op None IpNone o m.

Lemma swap_e0 : swap_op e0 = e1.
Proof.
apply/matrixP => i j; rewrite !mxE big_ord_recl big_ord1 !mxE.
by case: i => -[|[|//]] hi; rewrite !(mul0r, mulr0, mulr1, addr0, add0r).
Qed.
Lemma swap_e1 : swap_op e1 = e0.
Proof.
apply/matrixP => i j; rewrite !mxE big_ord_recl big_ord1 !mxE.
by case: i => -[|[|//]] hi; rewrite !(mul0r, mulr0, mulr1, addr0, add0r).
Qed.
Lemma e0_nz : e0 != 0.
Proof. by apply/eqP => /matrixP/(_ 0 0)/eqP; rewrite !mxE /= oner_eq0. Qed.
Lemma e1_nz : e1 != 0.
Proof. by apply/eqP => /matrixP/(_ 1 0)/eqP; rewrite !mxE /= oner_eq0. Qed.

Lemma swap_herm : swap_mx^h = swap_mx.
Proof. by apply/matrixP => i j; rewrite !mxE eq_sym conjC_nat. Qed.

Lemma swap_lin : is_linear swap_op.
Proof. by move=> a x y; rewrite /swap_op mulmxDr -scalemxAr. Qed.

Lemma swap_sa : self_adjoint (ip1 (@IpNone C 2)) swap_op.
Proof.
by move=> x y; rewrite /ip1 /= !tconjE /swap_op ctrM swap_herm mulmxA.
Qed.

(** any function that computes the same *)
Variable f : 'cV[C]_2 -> 'cV[C]_2.
Hypothesis fE : f =1 swap_op.
Definition f_cfg (o : ortho_t) (m : nat) : acfg C 2 := ACfg f None IpNone o m.

Lemma f_cfg_ok o m : o <> OrthoOther -> arn_cfg (f_cfg o m).
Proof.
have fl : is_linear f by move=> a x y; rewrite !fE swap_lin.
have fs : self_adjoint (ip1 (@IpNone C 2)) f by move=> x y; rewrite !fE swap_sa.
move=> ho; have h : gs_cfg (f_cfg o m) \/ o = Householder.
  case: o ho => // _; try by right.
  1-3: left; split=> //=.
  1-3: by move=> x x0; apply: (ip_pos (valid_is_ip (B := @IpNone C 2) _)).
case: h => [h|->]; [by left|right; split=> //; split=> //].
Qed.

Lemma f_args o m : init_args (f_cfg o m) e0 None None. Proof. by []. Qed.

Lemma swap_ip00 : ip1 (@IpNone C 2) e0 e1 = 0 /\ ip1 (@IpNone C 2) e0 e0 = 1 /\
  ip1 (@IpNone C 2) e1 e1 = 1.
Proof.
by split; [|split]; rewrite /ip1 /= tconjE mxE big_ord_recl big_ord1 !mxE /= ?conjC0 ?conjC1
   !(mul0r, mulr0, mulr1, addr0, add0r).
Qed.

Lemma f_run o m : o <> OrthoOther -> (0 < m)%N ->
  exists a0 a, [/\ arn_init (f_cfg o m) e0 None None = Ok a0,
    arn_advance_n (@frob C) (f_cfg o m) 1 a0 = Ok a & a_inv a = false].
Proof.
move=> ho hm; have hc := f_cfg_ok m ho; set c := f_cfg o m in hc *.
have [a0 [E0 h1 h2 h3 h4]] := arn_init_ok hc (f_args o m).
have AV : cA c (Mop c e0) != 0 by rewrite /= fE swap_e0 e1_nz.
have i0 : ~~ a_inv a0 by rewrite h3 e0_nz.
have lt : (a_iter a0 < cmaxiter c)%N by rewrite h2.
have [a E] := arn_total hc h1 (@frob_bounds C) e0_nz AV i0 lt.
exists a0, a; split=> //.
have [[g1 _] _ _ g4 [_ g6]] := arn_step hc h1 E; rewrite h2 in g4 g6.
have R := g1; rewrite /arn_ok in R.
have [hip hM] := (cfg_ip hc, cfg_M hc); have [hMs hMp] := (cfg_Msa hc, cfg_Mpd hc).
have n0 : (0 < ncols a)%N by rewrite /ncols g4.
have it : (0 < a_iter a)%N by rewrite g4.
have [s1 [s2 s3]] := swap_ip00.
have nv : ipnorm (cmip c) e0 = 1 by rewrite /ipnorm [cmip _ _ _]s2 sqrtC1.
have eV : a_V a 0%N = e0.
  by rewrite (ar_V R n0); have := ar_first R n0; rewrite -/(cmip c) nv scale1r => <-.
have H00 : a_H a 0%N 0%N = 0.
  by rewrite (rel_entry hip hM hMs hMp R) // eV /= fE swap_e0.
have [w [w1 _ w3 _]] := ar_step R it.
move: w1; rewrite big_ord1 H00 scale0r add0r eV /= fE swap_e0 => w1.
have H10 : a_H a 1%N 0%N = 1 by rewrite w3 -w1 /ipnorm [mip _ _ _ _]s3 sqrtC1.
rewrite g6 H10 /frob big_ord_recl !big_ord1 /= H00 H10 normr0 normr1 expr0n add0r expr1n sqrtC1 divr1.
apply/negbTE; rewrite -real_ltNge ?rpred1 ?ger0_real ?invr_ge0 ?exprn_ge0 ?ler0n //.
by rewrite invf_lt1 ?exprn_gt0 ?ltr0n // exprn_egt1 // ltr1n.
Qed.
End Ex.

Section Swap.
Variable C : numClosedFieldType.
Lemma swap_cfg_ok o m : o <> OrthoOther -> arn_cfg (swap_cfg C o m).
Proof. exact: f_cfg_ok. Qed.
Lemma swap_run o m : o <> OrthoOther -> (0 < m)%N ->
  exists a0 a, [/\ arn_init (swap_cfg C o m) (e0 C) None None = Ok a0,
    arn_advance_n (@frob C) (swap_cfg C o m) 1 a0 = Ok a & a_inv a = false].
Proof. exact: f_run. Qed.
End Swap.
