(** The norms of an oblique projection and of its complement. *)
From mathcomp Require Import all_ssreflect all_algebra ring.
From Verif Require Import Base Spec.LinAlg Proof.Algebra Model.Inner Spec.Inner Proof.Inner Proof.IpTheory.
From Verif Require Import Model.Projection Spec.Projection Proof.Qr Spec.Arnoldifyer.

Set Implicit Arguments.
Unset Strict Implicit.
Unset Printing Implicit Defensive.
Import Order.TTheory GRing.Theory Num.Theory.
Local Open Scope ring_scope.

Section Oblique.
Variable C : numClosedFieldType.
Variables (N k : nat) (B : ipB C N).
Hypothesis hB : valid_ip B.
Local Notation vec := 'cV[C]_N.
Variables (W X : 'M[C]_(N, k)) (s : C).
Hypothesis hW : inner B W W = 1%:M.
Hypothesis hX : inner B X X = 1%:M.
Local Notation G := (inner B W X).
Hypothesis uG : G \in unitmx.
Hypothesis hs : smin_ok G s.
Local Notation ip := (ip1 B).
Local Notation nE := (ipnorm (@ipE C k)).
Local Notation iE := (@ipE C k).
Let hip := valid_is_ip hB.
Let hE : is_ip iE := valid_is_ip (B := @IpNone C k) I.

Definition oblQ (y : vec) : vec := X *m (invmx G *m inner B W y).

Lemma on_ip (Y : 'M[C]_(N, k)) c d : inner B Y Y = 1%:M -> ip (Y *m c) (Y *m d) = iE c d.
Proof.
move=> h; rewrite /ip1 innerMl // innerMr // h mul1mx.
by rewrite /ipE /ip1 /= ?tconjE.
Qed.
Lemma on_nrm (Y : 'M[C]_(N, k)) c : inner B Y Y = 1%:M -> ipnorm ip (Y *m c) = nE c.
Proof. by move=> h; rewrite /ipnorm on_ip. Qed.

Lemma ip_coef (Y : 'M[C]_(N, k)) c (y : vec) : ip (Y *m c) y = iE c (inner B Y y).
Proof. by rewrite /ip1 innerMl // /ipE /ip1 /= ?tconjE. Qed.

Lemma oblQ_X c : oblQ (X *m c) = X *m c.
Proof. by rewrite /oblQ innerMr // mulKmx. Qed.
Lemma oblQ_W y : inner B W y = 0 -> oblQ y = 0.
Proof. by move=> h; rewrite /oblQ h !mulmx0. Qed.
Lemma W_compl y : inner B W (y - oblQ y) = 0.
Proof. by rewrite innerBr // /oblQ innerMr // mulKVmx // subrr. Qed.
Lemma oblQD y z : oblQ (y + z) = oblQ y + oblQ z.
Proof. by rewrite /oblQ innerDr // !mulmxDr. Qed.

Lemma bessel y : ip y y = iE (inner B W y) (inner B W y) + ip (y - W *m inner B W y) (y - W *m inner B W y).
Proof.
set c := inner B W y; set z := y - _; have -> : y = W *m c + z by rewrite /z addrC subrK.
rewrite (pythagoras hip) ?on_ip //.
by rewrite ip_coef innerBr // innerMr // hW mul1mx subrr (ipr0 hE).
Qed.

Lemma smin_gt0 : (0 < k)%N -> 0 < s.
Proof.
move=> k0; rewrite lt_neqAle (sm_0 hs) andbT eq_sym; apply/eqP => s0.
have [c c0 e] := sm_vec hs; move: e; rewrite s0 expr0n scale0r => e; move/negP: c0; apply; apply/eqP.
have uGh : G^h \in unitmx by rewrite unitmx_ctr.
by rewrite -[c](mulKmx uG) -[G *m c](mulKmx uGh) e !mulmx0.
Qed.

Lemma oblQ_le (k0 : (0 < k)%N) y : ipnorm ip (oblQ y) <= s^-1 * ipnorm ip y.
Proof.
have s0 := smin_gt0 k0; rewrite on_nrm // -(ler_pmul2l s0) mulrA mulfV ?mul1r ?gt_eqF //.
apply: le_trans (sm_min hs _) _; rewrite mulKVmx //.
rewrite -(@ler_pexpn2r _ 2) ?nnegrE ?(ipnorm_ge0 hE) ?(ipnorm_ge0 hip) // (ipnorm_sq) (ipnorm_sq).
by rewrite bessel ler_addl (ip_ge0' hip).
Qed.

Lemma oblQ_norm : (0 < k)%N -> op_norm ip oblQ s^-1.
Proof.
move=> k0; split; first exact: oblQ_le.
have s0 := smin_gt0 k0; have [c c0 e] := sm_vec hs.
have nG : nE (G *m c) = s * nE c.
  apply/eqP; rewrite -(@eqr_expn2 _ 2) // ?mulr_ge0 ?(ipnorm_ge0 hE) ?(ipnorm_ge0 hip) ?(ltW s0) // exprMn !(ipnorm_sq).
  have -> : iE (G *m c) (G *m c) = iE c (G^h *m (G *m c)).
    by rewrite /ipE /ip1 /= ?tconjE ctrM !mulmxA.
  by rewrite e (ipZr hE).
exists (W *m (G *m c)).
  rewrite -(ipnorm_eq0 hip) on_nrm // nG mulf_eq0 negb_or (ipnorm_eq0 hE) c0 andbT.
  by rewrite gt_eqF.
rewrite /oblQ innerMr // hW mul1mx mulKmx // !on_nrm // nG mulrA mulVf ?mul1r // gt_eqF //.
Qed.

(** The distance of W^perp to the range of X. *)
Lemma angle_le p : inner B W p = 0 -> iE (inner B X p) (inner B X p) <= (1 - s ^+ 2) * ip p p.
Proof.
move=> hp; set c := inner B X p; set z := X *m c - W *m (G *m c).
have zp : ip z p = iE c c by rewrite /z ipBl // !ip_coef hp (ipr0 hE) subr0.
have pz : ip p z = iE c c by rewrite (ipC hip) zp -(ipC hE).
have cs : s ^+ 2 * iE c c <= iE (G *m c) (G *m c).
  have h := sm_min hs c; rewrite -!(ipnorm_sq) -exprMn ler_pexpn2r // nnegrE ?(ipnorm_ge0 hE) ?(ipnorm_ge0 hip) //.
  by rewrite mulr_ge0 ?(sm_0 hs) ?(ipnorm_ge0 hE) ?(ipnorm_ge0 hip).
have zz : ip z z = iE c c - iE (G *m c) (G *m c).
  have := bessel (X *m c); rewrite innerMr // -/z on_ip // => ->; rewrite addrC addKr //.
have zle : ip z z <= (1 - s ^+ 2) * iE c c by rewrite zz mulrBl mul1r ler_add2l ler_opp2.
have z0 := ip_ge0' hip z; have c0 := ip_ge0' hE c; have p0 := ip_ge0' hip p.
have [cz|cn] := eqVneq (iE c c) 0.
  rewrite cz in zle *; rewrite mulr0 in zle.
  have [c00|] := eqVneq p 0; first by rewrite c00 (ipr0 hip) mulr0.
  rewrite -(ip_eq0 hip) => pn; rewrite pmulr_lge0 ?lt_neqAle ?p0 1?eq_sym ?pn //.
  have [e e0 ee] := sm_vec hs; have := sm_min hs e.
  rewrite -(@ler_pexpn2r _ 2) ?nnegrE ?(ipnorm_ge0 hE) ?(ipnorm_ge0 hip) ?mulr_ge0 ?(sm_0 hs) ?(ipnorm_ge0 hE) ?(ipnorm_ge0 hip) // exprMn !(ipnorm_sq).
  have b := bessel (X *m e); rewrite on_ip // innerMr // in b; move=> h.
  have ge : iE (G *m e) (G *m e) <= iE e e by rewrite b ler_addl (ip_ge0' hip).
  have eg : 0 < iE e e by rewrite lt_neqAle (ip_ge0' hE) andbT eq_sym (ip_eq0 hE).
  by have := le_trans h ge; rewrite subr_ge0 -{2}[iE e e]mul1r ler_pmul2r.
have cp : 0 < iE c c by rewrite lt_neqAle c0 andbT eq_sym.
have t0 : 0 <= 1 - s ^+ 2 by have := le_trans z0 zle; rewrite pmulr_lge0.
have [tz|tn] := eqVneq (1 - s ^+ 2) 0.
  move: zle; rewrite tz mul0r => zle.
  have ez : z = 0 by apply/eqP; rewrite -(ip_eq0 hip) eq_le zle z0.
  by move: zp; rewrite ez (ipl0 hip) => /esym/eqP; rewrite (negbTE cn).
set t := 1 - s ^+ 2 in zle t0 tn *.
have tp : 0 < t by rewrite lt_neqAle t0 eq_sym tn.
have tr : t^* = t by apply: CrealP; apply: ger0_real.
have := ip_ge0' hip (t *: p - z).
clearbody z; rewrite (ipBr hip) !(ipBl hip) !(ipZl hip) !(ipZr hip) tr zp pz => h.
have h2 : 0 <= t * (t * ip p p - iE c c).
  apply: le_trans h _; rewrite -subr_ge0.
  have -> : t * (t * ip p p - iE c c) - (t * (t * ip p p) - t * iE c c - (t * iE c c - ip z z)) =
    t * iE c c - ip z z by ring.
  by rewrite subr_ge0.
by move: h2; rewrite pmulr_rge0 // subr_ge0.
Qed.

Lemma compl_le (k0 : (0 < k)%N) y : ipnorm ip (y - oblQ y) <= s^-1 * ipnorm ip y.
Proof.
have s0 := smin_gt0 k0; set p := y - oblQ y; have hp : inner B W p = 0 by apply: W_compl.
rewrite -(ler_pmul2l s0) mulrA mulfV ?mul1r ?gt_eqF //.
rewrite -(@ler_pexpn2r _ 2) ?nnegrE ?mulr_ge0 ?(ltW s0) ?(ipnorm_ge0 hE) ?(ipnorm_ge0 hip) // exprMn !(ipnorm_sq).
have [u ->] : exists u, y = p - X *m u.
  exists (- (invmx G *m inner B W y)); rewrite mulmxN opprK /p /oblQ subrK //.
clearbody p; set c := inner B X p.
have -> : ip (p - X *m u) (p - X *m u) = (ip p p - iE c c) + iE (c - u) (c - u).
  rewrite (ipBr hip) !(ipBl hip) on_ip // (ip_coef X u p) -/c.
  have -> : ip p (X *m u) = iE c u by rewrite (ipC hip) ip_coef -(ipC hE).
  rewrite (ipBr hE) !(ipBl hE); ring.
have := angle_le hp; rewrite -/c => h; rewrite -[X in X <= _]addr0; apply: ler_add; last exact: ip_ge0' hE _.
by rewrite ler_subr_addr addrC -ler_subr_addr; move: h; rewrite mulrBl mul1r.
Qed.

Lemma compl_norm : (0 < k)%N -> (k < N)%N -> op_norm ip (fun y => y - oblQ y) s^-1.
Proof.
move=> k0 kN; split; first exact: compl_le.
have s0 := smin_gt0 k0.
have [s1|sn] := eqVneq (s ^+ 2) 1.
  have e1 : s = 1 by apply/eqP; rewrite -(@eqr_expn2 _ 2) ?ler01 ?(ltW s0) // s1 expr1n.
  have [p p0 hp] : exists2 p : vec, p != 0 & inner B W p = 0.
    have nz : kermx (inner B W 1%:M)^T != 0.
      rewrite -mxrank_eq0 mxrank_ker -lt0n subn_gt0; apply: leq_ltn_trans kN; exact: rank_leq_col.
    have /rowV0Pn[v /sub_kermxP hv v0] := nz.
    exists v^T; first by rewrite -trmx0 (inj_eq (@trmx_inj _ _ _)).
    by rewrite -[v^T]mul1mx innerMr // -[LHS]trmxK trmx_mul trmxK hv trmx0.
  by exists p => //; rewrite oblQ_W // subr0 e1 invr1 mul1r.
have [c c0 e] := sm_vec hs; set p := X *m c - W *m (G *m c).
have hp : inner B W p = 0 by rewrite /p innerBr // !innerMr // hW mul1mx subrr.
have Xp : inner B X p = (1 - s ^+ 2) *: c.
  by rewrite /p innerBr // innerMr // hX mul1mx innerMr // (innerC hB W X) e scalerBl scale1r.
have GG : iE (G *m c) (G *m c) = s ^+ 2 * iE c c.
  have -> : iE (G *m c) (G *m c) = iE c (G^h *m (G *m c)) by rewrite /ipE /ip1 /= ?tconjE ctrM !mulmxA.
  by rewrite e (ipZr hE).
have pp : ip p p = (1 - s ^+ 2) * iE c c.
  have := bessel (X *m c); rewrite innerMr // -/p on_ip // GG => e'.
  by rewrite mulrBl mul1r {1}e'; ring.
have sr : (s ^+ 2)^* = s ^+ 2 by apply: CrealP; rewrite ger0_real // exprn_ge0 // (ltW s0).
have c0' : iE c c != 0 by rewrite (ip_eq0 hE).
have t0 : 1 - s ^+ 2 != 0 by rewrite subr_eq0 eq_sym.
exists (p - X *m ((1 - s ^+ 2) *: c)).
  apply: contraNneq c0' => h; have : p = X *m ((1 - s ^+ 2) *: c) by apply/eqP; rewrite -subr_eq0 h.
  move=> ep; move: hp; rewrite ep innerMr // => h2.
  have h3 : (1 - s ^+ 2) *: c = 0 by rewrite -[LHS](mulKmx uG) h2 mulmx0.
  by move/eqP: h3; rewrite scaler_eq0 (negbTE t0) => /eqP->; rewrite (ipr0 hE).
have -> : p - X *m ((1 - s ^+ 2) *: c) - oblQ (p - X *m ((1 - s ^+ 2) *: c)) = p.
  by rewrite oblQD (oblQ_W hp) add0r -mulmxN oblQ_X mulmxN opprK subrK.
clearbody p; apply/eqP; rewrite -(@eqr_expn2 _ 2) // ?mulr_ge0 ?invr_ge0 ?(ltW s0) ?(ipnorm_ge0 hE) ?(ipnorm_ge0 hip) //.
rewrite exprMn !(ipnorm_sq) (ipBr hip) !(ipBl hip) on_ip // !ip_coef Xp.
have -> : ip p (X *m ((1 - s ^+ 2) *: c)) = iE ((1 - s ^+ 2) *: c) ((1 - s ^+ 2) *: c).
  by rewrite (ipC hip) ip_coef Xp -(ipC hE).
rewrite pp !(ipZr hE) !(ipZl hE) rmorphB rmorph1 sr.
by apply/eqP; field; rewrite gt_eqF.
Qed.
End Oblique.
