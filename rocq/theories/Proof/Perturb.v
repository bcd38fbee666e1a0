(** Deflation for a perturbed operator and a perturbed right hand side. *)
From mathcomp Require Import all_ssreflect all_algebra ring.
From Verif Require Import Base Spec.LinAlg Proof.Algebra Model.Inner Spec.Inner Proof.Inner Proof.IpTheory.
From Verif Require Import Model.Projection Spec.Projection Proof.Qr Spec.Arnoldifyer Spec.Deflation Proof.Deflation Proof.ObliqueNorm Proof.Measures.

Set Implicit Arguments.
Unset Strict Implicit.
Unset Printing Implicit Defensive.
Import Order.TTheory GRing.Theory Num.Theory.
Local Open Scope ring_scope.

Section Triangle.
Variables (C : numClosedFieldType) (N : nat) (ip : 'cV[C]_N -> 'cV[C]_N -> C).
Hypothesis hip : is_ip ip.

Lemma triangle x y : ipnorm ip (x + y) <= ipnorm ip x + ipnorm ip y.
Proof.
rewrite -(@ler_pexpn2r _ 2) ?nnegrE ?addr_ge0 ?(ipnorm_ge0 hip) // sqrrD !ipnorm_sq (ipDl hip) !(ipDr hip).
rewrite -addrA -addrA ler_add2l addrA ler_add2r [ip y x](ipC hip).
apply: le_trans (_ : `|ip x y + (ip x y)^*| <= _).
  by apply: real_ler_norm; rewrite CrealE rmorphD conjCK addrC.
apply: le_trans (ler_norm_add _ _) _; rewrite norm_conjC -mulr2n ler_muln2r; exact: cauchy_schwarz.
Qed.
Lemma triangleB x y : ipnorm ip (x - y) <= ipnorm ip x + ipnorm ip y.
Proof. by rewrite -[ipnorm ip y](ipnormN hip); apply: triangle. Qed.
End Triangle.

Section Perturb.
Variable C : numClosedFieldType.
Variables (N k : nat) (B : ipB C N).
Hypothesis hB : valid_ip B.
Local Notation vec := 'cV[C]_N.
Variables (T G : vec -> vec) (W : 'M[C]_(N, k)).
Hypothesis hT : is_linear T.
Hypothesis hG : is_linear G.
Hypothesis hW : inner B W W = 1%:M.
Local Notation D := (inner B W (imcols T W)).
Hypothesis hD : D \in unitmx.
Local Notation ip := (ip1 B).
Local Notation nm := (ipnorm ip).
Local Notation nE := (ipnorm (@ipE C k)).
Let hip := valid_is_ip hB.
Let hE : is_ip (@ipE C k) := valid_is_ip (B := @IpNone C k) I.
Local Notation TG := (fun x => T x + G x).
Local Notation E := (inner B W (imcols TG W)).
Local Notation P := (defl_P B T W).
Local Notation PG := (defl_P B TG W).
Variables (sigma wgw gw Gn pw : C).
Hypothesis h1 : (0 < k)%N -> forall c : 'cV[C]_k, sigma * nE c <= nE (D *m c).
Hypothesis h2 : forall c : 'cV[C]_k, nE (inner B W (imcols G W) *m c) <= wgw * nE c.
Hypothesis h3 : (0 < k)%N -> wgw < sigma.
Hypothesis h4 : forall c : 'cV[C]_k, nm (G (W *m c)) <= gw * nm (W *m c).
Hypothesis h5 : forall x, nm (G x) <= Gn * nm x.
Hypothesis h6 : forall x, nm (P x) <= pw * nm x.
Hypothesis g0 : 0 <= gw.
Hypothesis p0 : 0 <= pw.
Definition eta : C := if (0 < k)%N then gw / (sigma - wgw) else 0.

Lemma eta_ge0 : 0 <= eta.
Proof. by rewrite /eta; case: ifP => // k0; rewrite divr_ge0 // subr_ge0 ltW // h3. Qed.

Lemma imcolsD (f g : vec -> vec) (X : 'M[C]_(N, k)) : imcols (fun x => f x + g x) X = imcols f X + imcols g X.
Proof. by apply/matrixP => i j; rewrite !mxE. Qed.
Lemma EE : E = D + inner B W (imcols G W).
Proof. by rewrite imcolsD innerDr. Qed.

Lemma E_low c : (0 < k)%N -> (sigma - wgw) * nE c <= nE (E *m c).
Proof.
move=> k0; rewrite mulrBl ler_subl_addr.
apply: le_trans (h1 k0 c) _; have -> : D *m c = E *m c - inner B W (imcols G W) *m c by rewrite EE mulmxDl addrK.
by apply: le_trans (triangleB hE _ _) _; rewrite ler_add2l.
Qed.

Lemma E_unit : E \in unitmx.
Proof.
apply: (@full_rank_fac C k k E 1%:M); last by rewrite mul1mx.
move=> c e; apply/eqP; rewrite -(ipnorm_eq0 hE).
case: (posnP k) => [k0|k0]; first by rewrite (ipnorm_eq0 hE); apply/eqP/matrixP => i; have := ltn_ord i; rewrite {2}k0.
have := E_low c k0; rewrite e (ipnorm0 hE) pmulr_rle0 ?subr_gt0 ?h3 // => h; by rewrite eq_le h (ipnorm_ge0 hE).
Qed.

Lemma TGlin : is_linear TG.
Proof. by move=> c x y; rewrite hT hG scalerDr addrACA. Qed.

Lemma PGE x : PG x = P (x - G (W *m (invmx E *m inner B W x))).
Proof.
set c := invmx E *m inner B W x.
have e : inner B W x = D *m c + inner B W (G (W *m c)).
  rewrite -(imcols_vec hG) (innerMr hB) -mulmxDl -EE /c mulKVmx //; exact: E_unit.
rewrite /defl_P -!mulmxA -/c (innerBr hB) e addrK mulKmx // (imcols_vec TGlin) (imcols_vec hT).
by rewrite opprD addrA addrAC.
Qed.

Lemma P_add x y : P (x + y) = P x + P y.
Proof. by rewrite /defl_P (innerDr hB) mulmxDr opprD addrACA. Qed.
Lemma P_opp x : P (- x) = - P x.
Proof. by rewrite /defl_P -[- x]sub0r (innerBr hB) (inner0r hB) !sub0r mulmxN opprK opprB addrC. Qed.

Lemma P_lin c x y : P (c *: x + y) = c *: P x + P y.
Proof. by rewrite P_add; congr (_ + _); rewrite /defl_P (innerZr hB) -scalemxAr scalerBr. Qed.

Lemma bessel_le x : nE (inner B W x) <= nm x.
Proof.
rewrite -(@ler_pexpn2r _ 2) ?nnegrE ?(ipnorm_ge0 hE) ?(ipnorm_ge0 hip) // !ipnorm_sq.
by rewrite (bessel hB hW x) ler_addl (ip_ge0' hip).
Qed.

Lemma corr_le x : nm (G (W *m (invmx E *m inner B W x))) <= eta * nE (inner B W x).
Proof.
set c := invmx E *m inner B W x; apply: le_trans (h4 c) _; rewrite (on_nrm hB) // /eta; case: (posnP k) => k0.
  have -> : c = 0 by apply/matrixP => i; have := ltn_ord i; rewrite {2}k0.
  by rewrite (ipnorm0 hE) mulr0 mul0r.
have s0 : 0 < sigma - wgw by rewrite subr_gt0 h3.
rewrite -mulrA ler_wpmul2l // -(ler_pmul2l s0) mulVKf ?lt0r_neq0 //.
by apply: le_trans (E_low c k0) _; rewrite /c mulKVmx // E_unit.
Qed.

Lemma start_le v g bn gn : nm v <= bn -> nm g <= gn -> nm (PG (v + g) - P v) <= pw * (eta * (bn + gn) + gn).
Proof.
move=> hv hg; rewrite PGE -addrA P_add addrC addKr; apply: le_trans (h6 _) _; rewrite ler_wpmul2l //.
apply: le_trans (triangleB hip _ _) _; rewrite addrC ler_add //; apply: le_trans (corr_le _) _.
rewrite ler_wpmul2l ?eta_ge0 //; apply: le_trans (bessel_le _) _; apply: le_trans (triangle hip _ _) _; exact: ler_add.
Qed.

Lemma op_le x c : nE (inner B W (T x)) <= c * nm x -> nm (PG (TG x) - P (T x)) <= pw * (eta * (c + Gn) + Gn) * nm x.
Proof.
move=> hc; rewrite PGE -addrA P_add addrC addKr; apply: le_trans (h6 _) _; rewrite -mulrA ler_wpmul2l //.
apply: le_trans (triangleB hip _ _) _; rewrite mulrDl addrC ler_add ?h5 //; apply: le_trans (corr_le _) _.
rewrite -mulrA ler_wpmul2l ?eta_ge0 // (innerDr hB); apply: le_trans (triangle hE _ _) _; rewrite mulrDl ler_add //.
by apply: le_trans (bessel_le _) _; apply: h5.
Qed.
End Perturb.
