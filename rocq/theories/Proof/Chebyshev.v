(** Chebyshev polynomials, and polynomials that are small on intervals and 1 at 0. *)
From mathcomp Require Import all_ssreflect all_algebra ring.
From Verif Require Import Proof.Algebra.

Set Implicit Arguments.
Unset Strict Implicit.
Unset Printing Implicit Defensive.
Import Order.TTheory GRing.Theory Num.Theory.
Local Open Scope ring_scope.

Section Chebyshev.
Variable C : numClosedFieldType.
Implicit Types (x z t : C) (p : {poly C}).

(** T_n and T_{n+1} *)
Fixpoint chebs n : {poly C} * {poly C} :=
  if n is n'.+1 then let '(p, q) := chebs n' in (q, 2%:R *: ('X * q) - p) else (1, 'X).
Definition cheb n := (chebs n).1.

Lemma chebSS n : cheb n.+2 = 2%:R *: ('X * cheb n.+1) - cheb n.
Proof. by rewrite /cheb /=; case: (chebs n). Qed.

Lemma cheb_ind (P : nat -> Prop) : P 0%N -> P 1%N -> (forall n, P n -> P n.+1 -> P n.+2) -> forall n, P n.
Proof. by move=> h0 h1 h n; suff [] : P n /\ P n.+1 by []; elim: n => // n [a b]; split=> //; apply: h. Qed.

Lemma size_cheb n : (size (cheb n) <= n.+1)%N.
Proof.
elim/cheb_ind: n => [||n h1 h2]; [by rewrite size_poly1|by rewrite size_polyX|].
rewrite chebSS; apply: leq_trans (size_add _ _) _; rewrite geq_max size_opp; apply/andP; split.
  apply: leq_trans (size_scale_leq _ _) _; apply: leq_trans (size_mul_leq _ _) _.
  by rewrite size_polyX.
by apply: leq_trans h1 _; do 2!apply: leqW.
Qed.

Lemma cheb_param n z : z != 0 -> (cheb n).[(z + z^-1) / 2%:R] = (z ^+ n + z ^- n) / 2%:R.
Proof.
move=> z0; have n2 : 2%:R != 0 :> C by rewrite pnatr_eq0.
elim/cheb_ind: n => [||n h1 h2].
- by rewrite hornerC !expr0 invr1 -mulr2n divff.
- by rewrite hornerX !expr1.
have zn : z ^+ n != 0 by rewrite expf_neq0.
rewrite chebSS hornerD hornerN hornerZ hornerM hornerX h1 h2 !exprS; set a := z ^+ n in zn *.
by field; rewrite ?zn ?z0 ?n2.
Qed.

Lemma cheb_le1 n t : t \is Num.real -> `|t| <= 1 -> `|(cheb n).[t]| <= 1.
Proof.
move=> tr t1; pose s := sqrtC (1 - t ^+ 2).
have n2 : 2%:R != 0 :> C by rewrite pnatr_eq0.
have t2 : t ^+ 2 <= 1 by rewrite -real_normK // expr_le1.
have s0 : 0 <= s by rewrite sqrtC_ge0 subr_ge0.
pose z := t + 'i * s.
have zz : (t - 'i * s) * z = 1.
  have -> : (t - 'i * s) * z = t ^+ 2 - 'i ^+ 2 * s ^+ 2 by rewrite /z; ring.
  by rewrite sqrCi mulN1r opprK sqrtCK addrC subrK.
have z0 : z != 0 by apply: contra_eq_neq zz => ->; rewrite mulr0 eq_sym oner_neq0.
have zV : z^-1 = t - 'i * s by apply: (mulIf z0); rewrite mulVf // zz.
have nz : `|z| = 1.
  apply/eqP; rewrite -(eqr_expn2 (n := 2)) ?normr_ge0 ?ler01 // expr1n normCK2.
  rewrite rmorphD rmorphM /= conjCi (ge0_conj s0) (CrealP tr) mulNr zz //.
have -> : t = (z + z^-1) / 2%:R by rewrite zV /z; field.
rewrite cheb_param // normrM normfV [`|2%:R|]normr_nat ler_pdivr_mulr ?ltr0n // mul1r.
by rewrite (le_trans (ler_norm_add _ _)) // normfV !normrX nz expr1n invr1.
Qed.

(** The polynomial of degree n for the interval [m,l] *)
Lemma cheb_interval (m l : C) n : 0 < m -> m <= l ->
  exists p, [/\ (size p <= n.+1)%N, p.[0] = 1 & forall x, m <= x -> x <= l ->
    `|p.[x]| <= 2%:R * ((sqrtC (l / m) - 1) / (sqrtC (l / m) + 1)) ^+ n].
Proof.
move=> m0 ml; have l0 : 0 < l by apply: lt_le_trans ml.
have mn : m != 0 by rewrite gt_eqF.
have n2 : 2%:R != 0 :> C by rewrite pnatr_eq0.
have [e|lm] := eqVneq l m.
  exists ((1 - l^-1 *: 'X) ^+ n); split.
  - apply: leq_trans (size_exp_leq _ _) _; rewrite ltnS -[X in (_ <= X)%N]mul1n leq_mul2r; apply/orP; right.
    rewrite -subn1 leq_subLR (leq_trans (size_add _ _)) // geq_max size_poly1 size_opp.
    by rewrite (leq_trans (size_scale_leq _ _)) // size_polyX.
  - by rewrite horner_exp hornerD hornerN hornerZ hornerX hornerC mulr0 subr0 expr1n.
  move=> x mx xl; have -> : x = l by apply/le_anti; rewrite xl e mx.
  rewrite horner_exp hornerD hornerN hornerZ hornerX hornerC mulVf ?gt_eqF // subrr e divff // sqrtC1 subrr mul0r.
  by rewrite normrX normr0; case: n => [|n]; rewrite ?expr0 ?mulr1 ?ler1n // !exprS !mul0r mulr0.
have {}lm : m < l by rewrite lt_neqAle eq_sym lm.
set k := sqrtC (l / m).
have k1 : 1 < k.
  rewrite -(@ltr_pexpn2r _ 2) ?nnegrE ?ler01 ?sqrtC_ge0 ?divr_ge0 ?ltW // expr1n sqrtCK.
  by rewrite ltr_pdivl_mulr // mul1r.
have k0 : 0 < k by apply: lt_trans k1; exact: ltr01.
have kk : k ^+ 2 = l / m by rewrite sqrtCK.
set b := (k - 1) / (k + 1); have b0 : 0 < b by rewrite divr_gt0 ?subr_gt0 ?addr_gt0 ?ltr01.
pose w := (l + m) / (l - m).
have lm0 : l - m != 0 by rewrite subr_eq0 gt_eqF.
have kn1 : k - 1 != 0 by rewrite subr_eq0 gt_eqF.
have kp1 : k + 1 != 0 by rewrite gt_eqF // addr_gt0 ?ltr01.
have lE : l = k ^+ 2 * m by rewrite kk divfK.
have wE : w = (b^-1 + b^-1^-1) / 2%:R.
  by rewrite /w /b lE; field; rewrite kn1 kp1 -lE lm0.
have cw : (cheb n).[w] = (b ^- n + b ^+ n) / 2%:R.
  by rewrite wE cheb_param ?invr_eq0 ?gt_eqF // exprVn invrK.
have cw0 : 0 < (cheb n).[w] by rewrite cw divr_gt0 ?ltr0n // addr_gt0 ?invr_gt0 ?exprn_gt0.
pose phi : {poly C} := w%:P - (2%:R / (l - m)) *: 'X.
exists ((cheb n).[w]^-1 *: (cheb n \Po phi)); split.
- rewrite (leq_trans (size_scale_leq _ _)) // (leq_trans (size_comp_poly_leq _ _)) // ltnS.
  apply: leq_trans (_ : (size (cheb n)).-1 * 1 <= _)%N; last by rewrite muln1 -subn1 leq_subLR size_cheb.
  rewrite leq_mul2l; apply/orP; right; rewrite -subn1 leq_subLR (leq_trans (size_add _ _)) // geq_max size_opp.
  by rewrite (leq_trans (size_polyC_leq1 _)) // (leq_trans (size_scale_leq _ _)) // size_polyX.
- by rewrite hornerZ horner_comp hornerD hornerN hornerZ hornerX hornerC mulr0 subr0 mulVf // gt_eqF.
move=> x mx xl; rewrite hornerZ horner_comp normrM normfV (gtr0_norm cw0).
have px : phi.[x] = (l + m - 2%:R * x) / (l - m) by rewrite hornerD hornerN hornerZ hornerX hornerC /w; field.
have lmp : 0 < l - m by rewrite subr_gt0.
have xr : x \is Num.real by rewrite ger0_real // (le_trans (ltW m0)).
have nr : l + m - 2%:R * x \is Num.real.
  by apply: realB; [apply: realD; apply: gtr0_real|apply: realM => //; apply: realn].
have rr : phi.[x] \is Num.real by rewrite px; apply: realM => //; rewrite realV; apply: gtr0_real.
have h1 : `|(cheb n).[phi.[x]]| <= 1.
  apply: cheb_le1 => //; rewrite px normrM normfV (gtr0_norm lmp) ler_pdivr_mulr // mul1r.
  rewrite real_ler_norml //; apply/andP; split; rewrite -subr_ge0.
    have -> : l + m - 2%:R * x - - (l - m) = 2%:R * (l - x) by ring.
    by rewrite mulr_ge0 ?ler0n ?subr_ge0.
  have -> : l - m - (l + m - 2%:R * x) = 2%:R * (x - m) by ring.
  by rewrite mulr_ge0 ?ler0n ?subr_ge0.
apply: le_trans (_ : (cheb n).[w]^-1 <= _).
  by rewrite -[X in _ <= X]mulr1 ler_pmul2l // invr_gt0.
rewrite -[X in _ <= X]invrK lef_pinv ?posrE ?invr_gt0 ?mulr_gt0 ?ltr0n ?exprn_gt0 //.
rewrite invfM cw mulrC ler_pmul2r ?invr_gt0 ?ltr0n // ler_addl exprn_ge0 //; exact: ltW.
Qed.

(** The polynomial for two intervals of the same length on both sides of 0 *)
Lemma cheb_intervals (l1 ls lt lN : C) n : l1 <= ls -> ls < 0 -> 0 < lt -> lt <= lN -> lN - lt = ls - l1 ->
  exists p, [/\ (size p <= n.+1)%N, p.[0] = 1 & forall x, (l1 <= x <= ls) || (lt <= x <= lN) ->
    `|p.[x]| <= 2%:R * ((sqrtC `|l1 * lN| - sqrtC `|ls * lt|) / (sqrtC `|l1 * lN| + sqrtC `|ls * lt|)) ^+ n./2].
Proof.
move=> h1 s0 t0 hN hl.
have l10 : l1 < 0 by apply: le_lt_trans s0.
have lN0 : 0 < lN by apply: lt_le_trans hN.
have eB : `|ls * lt| = - (ls * lt) by rewrite ltr0_norm // nmulr_rlt0.
have eA : `|l1 * lN| = - (l1 * lN) by rewrite ltr0_norm // nmulr_rlt0.
set A := `|l1 * lN|; set B := `|ls * lt|.
have B0 : 0 < B by rewrite /B eB oppr_gt0 nmulr_rlt0.
have l1E : l1 = ls + lt - lN by rewrite -[lN](subrK lt) hl; ring.
have AB : B <= A.
  rewrite /A /B eA eB ler_oppl opprK.
  rewrite -subr_ge0 l1E; have -> : ls * lt - (ls + lt - lN) * lN = (lN - lt) * (lN - ls) by ring.
  by rewrite mulr_ge0 ?subr_ge0 // (le_trans (ltW s0)) // ltW.
have A0 : 0 < A by apply: lt_le_trans AB.
have [p [sp p0 hp]] := cheb_interval n./2 B0 AB.
pose g : {poly C} := 'X * ('X - (ls + lt)%:P).
have sg : (size g <= 3)%N by rewrite (leq_trans (size_mul_leq _ _)) // size_polyX size_XsubC.
exists (p \Po g); split.
- rewrite (leq_trans (size_comp_poly_leq _ _)) // ltnS.
  apply: leq_trans (_ : n./2 * 2 <= _)%N; first by apply: leq_mul; rewrite -subn1 leq_subLR.
  by rewrite muln2 -[X in (_ <= X)%N]odd_double_half leq_addl.
- by rewrite horner_comp hornerM hornerX mul0r.
move=> x hx; rewrite horner_comp.
have -> : (sqrtC A - sqrtC B) / (sqrtC A + sqrtC B) = (sqrtC (A / B) - 1) / (sqrtC (A / B) + 1).
  have b0 : sqrtC B != 0 by rewrite sqrtC_eq0 gt_eqF.
  have n0 : sqrtC A + sqrtC B != 0 by rewrite gt_eqF // addr_gt0 ?sqrtC_gt0.
  have -> : sqrtC (A / B) = sqrtC A / sqrtC B.
    by rewrite (rootCMl _ _ (ltW A0)) // (rootCV _ (ltW B0)).
  by field; rewrite b0 n0.
have gx : g.[x] = (x - ls) * (x - lt) + B by rewrite hornerM hornerXsubC hornerX /B eB; ring.
have gA : g.[x] = A - (lN - x) * (x - l1) by rewrite hornerM hornerXsubC hornerX /A eA l1E; ring.
apply: hp.
- rewrite gx ler_addr; case/orP: hx => /andP[a1 a2].
    by rewrite mulr_le0 ?subr_le0 // (le_trans a2) // ltW // (lt_trans s0).
  by rewrite mulr_ge0 ?subr_ge0 // (le_trans _ a1) // ltW // (lt_trans s0).
- rewrite gA ler_subl_addr ler_addl; case/orP: hx => /andP[a1 a2]; rewrite mulr_ge0 ?subr_ge0 //.
    by rewrite (le_trans a2) // ltW // (lt_trans s0).
  by rewrite (le_trans _ a1) // ltW // (lt_trans l10).
Qed.
End Chebyshev.
