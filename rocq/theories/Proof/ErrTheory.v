(** The errors of CG and of the minimal residual methods for positive definite systems. *)
From mathcomp Require Import all_ssreflect all_algebra.
From mathcomp Require Import ring.
From Verif Require Import Base Spec.LinAlg Model.Inner Spec.Inner Proof.Algebra Proof.Inner Proof.IpTheory.
From Verif Require Import Model.Arnoldi Spec.Arnoldi Proof.Arnoldi Proof.ArnoldiAll.
From Verif Require Import Model.Solver Spec.Solver Model.LinearSystem Model.Krylov Spec.Krylov.
From Verif Require Import Proof.ArnoldiRel Proof.CgTheory Proof.Agree.

Set Implicit Arguments.
Unset Strict Implicit.
Unset Printing Implicit Defensive.
Import Order.TTheory GRing.Theory Num.Theory.
Local Open Scope ring_scope.

Section Convex.
Variable C : numClosedFieldType.
Variable N : nat.
Local Notation vec := 'cV[C]_N.
Variable h : vec -> vec -> C.
Hypothesis hh : is_ip h.

Lemma ip_convex s t a b : 0 <= s -> 0 <= t -> s + t = 1 ->
  h (s *: a + t *: b) (s *: a + t *: b) <= s * h a a + t * h b b.
Proof.
move=> s0 t0 st; have -> : s = 1 - t by rewrite -st addrK.
have tc : t^* = t := geC0_conj t0; have sc : (1 - t)^* = 1 - t by rewrite -st addrK geC0_conj.
have st0 : 0 <= t * (1 - t) by rewrite -st addrK mulr_ge0.
rewrite -subr_ge0; suff -> : (1 - t) * h a a + t * h b b - h ((1 - t) *: a + t *: b) ((1 - t) *: a + t *: b)
  = t * (1 - t) * h (a - b) (a - b) by rewrite mulr_ge0 ?(ip_ge0' hh).
by rewrite !(ipDl hh) !(ipDr hh) !(ipNl hh) !(ipNr hh) !(ipZl hh) !(ipZr hh) tc sc; ring.
Qed.

Lemma ip_convex_le s t a b : 0 <= s -> 0 <= t -> s + t = 1 -> h b b <= h a a ->
  h (s *: a + t *: b) (s *: a + t *: b) <= h a a.
Proof.
move=> s0 t0 st ba; apply: le_trans (ip_convex a b s0 t0 st) _.
by rewrite -[X in _ <= X]mul1r -st mulrDl ler_add2l ler_wpmul2l.
Qed.
End Convex.

Section Mono.
Variable C : numClosedFieldType.
Variable N : nat.
Local Notation vec := 'cV[C]_N.
Variables (ip : vec -> vec -> C) (A M : vec -> vec) (r0 : vec).
Hypothesis hip : is_ip ip.
Hypothesis hA : is_linear A.
Hypothesis hM : is_linear M.
Hypothesis hMsa : self_adjoint ip M.
Hypothesis hMpd : pos_def ip M.
Hypothesis hs : cg_spd ip A r0.
Local Notation mp := (mip ip M).
Local Notation cr := (cr ip A M r0).
Local Notation cy := (cy ip A M r0).
Local Notation cp := (cp ip A M r0).
Local Notation al := (al ip A M r0).
Local Notation rho := (rho ip A M r0).
Local Notation kry := (krylov (fun x => M (A x)) (M r0)).
Let al_ge0 i : 0 <= al i := al_ge0 hip hM hMsa hMpd hs i.

Variable ys : vec.
Local Notation e k := (ys - cy k).

Section Norm.
Variable h : vec -> vec -> C.
Hypothesis hh : is_ip h.
Variable n : nat.
Hypothesis he : forall k i, (i < k)%N -> (k <= n)%N -> 0 <= h (e k) (cp i).

Lemma comb_le k (c : nat -> C) : (k <= n)%N -> (forall i, 0 <= c i) ->
  h (e k) (e k) <= h (e k + \sum_(i < k) c i *: cp i) (e k + \sum_(i < k) c i *: cp i).
Proof.
move=> hk c0; set D := \sum_(i < k) _.
have p : 0 <= h (e k) D.
  rewrite (ip_sumr hh); apply: sumr_ge0 => i _; rewrite (ipZr hh) mulr_ge0 //; exact: he.
have p' : h D (e k) = h (e k) D by rewrite (ipC hh) geC0_conj.
move: (e k) p p' => E p p'; rewrite (ipDl hh) !(ipDr hh) p' -addrA ler_addl !addr_ge0 //; exact: (ip_ge0' hh).
Qed.

Lemma cy_diff j k : (j <= k)%N -> cy k - cy j = \sum_(i < k) (if (j <= i)%N then al i else 0) *: cp i.
Proof.
move=> hjk; rewrite /CgTheory.cy (big_ord_widen k (fun i => al i *: cp i) hjk) (bigID (fun i : 'I_k => (i < j)%N)) /=.
rewrite addrAC subrr add0r [RHS](bigID (fun i : 'I_k => (i < j)%N)) /= [X in _ = X + _]big1 => [|i hi]; last first.
  by rewrite leqNgt hi /= scale0r.
by rewrite add0r; apply: eq_bigr => i; rewrite -leqNgt => ->.
Qed.

Lemma avg_le m k (w : nat -> C) : (m <= k)%N -> (k <= n)%N -> (forall j, (j <= m)%N -> 0 <= w j) -> \sum_(j < m.+1) w j = 1 ->
  h (e k) (e k) <= h (ys - \sum_(j < m.+1) w j *: cy j) (ys - \sum_(j < m.+1) w j *: cy j).
Proof.
move=> hm hk w0 w1.
pose c i := \sum_(j < m.+1) w j * (if (j <= i)%N then al i else 0).
have -> : ys - \sum_(j < m.+1) w j *: cy j = e k + \sum_(i < k) c i *: cp i; last first.
  apply: comb_le => // i; apply: sumr_ge0 => j _; rewrite mulr_ge0 ?w0 -1?ltnS //.
  by case: ifP => // _; exact: al_ge0.
rewrite -addrA; congr (_ + _); apply/eqP; rewrite -subr_eq0; apply/eqP.
have -> : \sum_(i < k) c i *: cp i = \sum_(j < m.+1) w j *: (cy k - cy j).
  transitivity (\sum_(i < k) \sum_(j < m.+1) (w j * (if (j <= i)%N then al i else 0)) *: cp i).
    by apply: eq_bigr => i _; rewrite scaler_suml.
  rewrite exchange_big /=; apply: eq_bigr => j _; rewrite cy_diff; last first.
    by apply: leq_trans hm; rewrite -ltnS.
  by rewrite scaler_sumr; apply: eq_bigr => i _; rewrite scalerA.
have -> : \sum_(j < m.+1) w j *: (cy k - cy j) = cy k - \sum_(j < m.+1) w j *: cy j.
  transitivity (\sum_(j < m.+1) (w j *: cy k - w j *: cy j)).
    by apply: eq_bigr => j _; rewrite scalerBr.
  by rewrite sumrB -scaler_suml w1 scale1r.
by rewrite addKr subrr.
Qed.

Lemma cg_mono j k : (j <= k)%N -> (k <= n)%N -> h (e k) (e k) <= h (e j) (e j).
Proof.
move=> hjk hk; pose w i : C := (i == j)%:R.
have -> : e j = ys - \sum_(i < j.+1) w i *: cy i.
  rewrite big_ord_recr /= /w eqxx scale1r big1 ?add0r // => i _.
  by rewrite ltn_eqF ?scale0r //; exact: ltn_ord.
apply: avg_le => //; first by move=> i _; rewrite ler0n.
rewrite big_ord_recr /= /w eqxx big1 ?add0r // => i _.
by rewrite ltn_eqF //; exact: ltn_ord.
Qed.

(** The minimal residual approximations are averages of those of CG. *)
Let S m := \sum_(j < m.+1) (rho j)^-1.
Definition wmr m j := (rho j)^-1 / S m.
Definition zmr m := \sum_(j < m.+1) wmr m j *: cy j.

Section Nz.
Variable m : nat.
Hypothesis nz : forall j, (j <= m)%N -> cr j != 0.

Let rho_gt0 j : (j <= m)%N -> 0 < rho j.
Proof. by move=> /nz hj; rewrite lt_def (rho_ge0 _ _ hip hM hMsa hMpd) andbT (rho_eq0 _ _ hip hM hMsa hMpd). Qed.
Let S_gt0 k : (k <= m)%N -> 0 < S k.
Proof.
move=> hk; rewrite /S big_ord_recl ltr_paddr ?invr_gt0 ?rho_gt0 //.
by apply: sumr_ge0 => i _; rewrite invr_ge0 ltW // rho_gt0 // (leq_trans _ hk) //; exact: (ltn_ord i).
Qed.

Lemma wmr_ge0 k j : (k <= m)%N -> (j <= k)%N -> 0 <= wmr k j.
Proof. by move=> hk hj; rewrite divr_ge0 ?(ltW (S_gt0 hk)) // invr_ge0 ltW // rho_gt0 // (leq_trans hj). Qed.
Lemma wmr_sum k : (k <= m)%N -> \sum_(j < k.+1) wmr k j = 1.
Proof. by move=> hk; rewrite -mulr_suml divff // gt_eqF // S_gt0. Qed.

Lemma cg_le_mr j k : (j <= m)%N -> (j <= k)%N -> (k <= n)%N -> h (e k) (e k) <= h (ys - zmr j) (ys - zmr j).
Proof. by move=> hj hjk hk; apply: avg_le => // [i hi|]; [exact: wmr_ge0|exact: wmr_sum]. Qed.

Lemma mr_step k : (k < m)%N -> (k < n)%N -> h (ys - zmr k.+1) (ys - zmr k.+1) <= h (ys - zmr k) (ys - zmr k).
Proof.
move=> hk hkn; pose s := S k / S k.+1; pose t := (rho k.+1)^-1 / S k.+1.
have S1 := S_gt0 hk; have S0 := S_gt0 (ltnW hk).
have st : s + t = 1.
  rewrite -mulrDl; have -> : S k + (rho k.+1)^-1 = S k.+1 by rewrite [RHS]big_ord_recr.
  by rewrite divff // gt_eqF.
have -> : ys - zmr k.+1 = s *: (ys - zmr k) + t *: (e k.+1).
  rewrite !scalerBr addrACA -scalerDl st scale1r -opprD; congr (_ - _).
  rewrite /zmr big_ord_recr /=; congr (_ + _); rewrite scaler_sumr; apply: eq_bigr => i _.
  by rewrite scalerA; congr (_ *: _); rewrite /wmr /s [RHS]mulrC mulrA divfK // gt_eqF.
apply: (ip_convex_le hh _ _ st).
- by rewrite divr_ge0 ?ltW.
- by rewrite divr_ge0 ?(ltW S1) // invr_ge0 ltW // rho_gt0.
- by apply: cg_le_mr => //; exact: ltnW.
Qed.
End Nz.
End Norm.

(** The energy inner product. *)
Section Energy.
Hypothesis hys : A ys = r0.
Variable n : nat.
Hypothesis nz : forall j, (j < n)%N -> cr j != 0.

Let Ae k : A (e k) = cr k.
Proof. by rewrite (linB hA) hys (cr_res ip M r0 hA). Qed.
Let sa : self_adjoint ip A := cs_sa hs.

Lemma energy_he k i : (i < k)%N -> (k <= n)%N -> 0 <= ip (e k) (A (cp i)).
Proof.
move=> hi hk; rewrite -sa Ae (ipC hip); have [o _ _ _] := cg_inv hip hA hM hMsa hMpd hs nz hk.
by rewrite (o _ hi) conjC0.
Qed.

(** cp i = M (q i) *)
Fixpoint cq (k : nat) : vec := if k is k'.+1 then cr k + be ip A M r0 k' *: cq k' else r0.

Lemma cqE k : cp k = M (cq k).
Proof. by elim: k => [//|k IH]; rewrite cpS IH /= (linD hM) (linZ hM). Qed.

Lemma e_cr j k : (j <= k)%N -> (k <= n)%N -> ip (e k) (cr j) = ip (e k) (A (e k)).
Proof.
move=> hj hk; rewrite -Ae -!sa !Ae.
have -> : e j = e k + (cy k - cy j) by rewrite addrA subrK.
rewrite (ipDr hip) [ip _ (cy k - _)](ipC hip) (cg_galerkin hip hA hM hMsa hMpd hs nz hk) ?conjC0 ?addr0 //.
apply: spanB; first exact: (cy_span ip r0 hA hM).
by apply: (span_widen hj); exact: (cy_span ip r0 hA hM).
Qed.

Lemma e_cq i k : (i <= k)%N -> (k <= n)%N -> 0 <= ip (e k) (cq i).
Proof.
move=> hi hk; elim: i hi => [|i IH] hi /=; first by rewrite -[r0]/(cr 0) e_cr // (cs_pos hs).
rewrite (ipDr hip) (ipZr hip) e_cr // addr_ge0 ?(cs_pos hs) //.
by rewrite mulr_ge0 ?(be_ge0 _ _ hip hM hMsa hMpd) // IH // ltnW.
Qed.

Lemma Minv_he (Minv : vec -> vec) : (forall v, Minv (M v) = v) ->
  forall k i, (i < k)%N -> (k <= n)%N -> 0 <= ip (e k) (Minv (cp i)).
Proof. by move=> hi k i hik hk; rewrite cqE hi; apply: e_cq => //; exact: ltnW. Qed.
End Energy.
End Mono.

Section Minv.
Variable C : numClosedFieldType.
Variable N : nat.
Local Notation vec := 'cV[C]_N.
Variables (ip : vec -> vec -> C) (M Minv : vec -> vec).
Hypothesis hip : is_ip ip.
Hypothesis hM : is_linear M.
Hypothesis hMsa : self_adjoint ip M.
Hypothesis hMpd : pos_def ip M.
Hypothesis h1 : forall v, M (Minv v) = v.
Let hmp := ArnoldiRel.hmp hip hM hMsa hMpd.

Lemma Minv_l v : Minv (M v) = v.
Proof.
apply/eqP; rewrite -subr_eq0 -(ip_eq0 hmp); apply/eqP.
by rewrite /mip (linB hM) h1 subrr (ipr0 hip).
Qed.

Lemma Minv_ip : is_ip (mip ip Minv).
Proof.
have lin : is_linear Minv.
  by move=> a x y; rewrite -[RHS]Minv_l (linD hM) (linZ hM) !h1.
apply: (ArnoldiRel.hmp hip lin) => [x y|x nx].
  by rewrite -[X in ip _ X]h1 -hMsa h1.
by rewrite -[X in ip X _]h1 hMsa; apply: hMpd; apply: contraNneq nx => e; rewrite -[x]h1 e (lin0 hM).
Qed.
End Minv.
