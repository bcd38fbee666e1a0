(** C32: Ritz pairs from a Hessenberg matrix. *)
From mathcomp Require Import all_ssreflect all_algebra.
From Verif Require Import Base Spec.LinAlg Spec.Ritz Proof.Algebra Proof.IpTheory Model.Inner Spec.Inner
  Model.Arnoldi Spec.Arnoldi Proof.ArnoldiRel Proof.Arnoldi Proof.ArnoldiAll Model.Ritz Proof.Ritz.
From Verif Require Properties.Arnoldi.

Set Implicit Arguments.
Unset Strict Implicit.
Unset Printing Implicit Defensive.
Import Order.TTheory GRing.Theory Num.Theory.
Local Open Scope ring_scope.

Section C32.
Variable C : numClosedFieldType.
Variable N : nat.
Local Notation vec := 'cV[C]_N.
Variables eig eigh : forall n, 'M[C]_n -> ('I_n -> C) * 'M[C]_n.
Variables geig geigh : forall n, 'M[C]_n -> 'M[C]_n -> ('I_n -> C) * 'M[C]_n.
Local Notation ritz := (ritz eig eigh geig geigh).

(** Wrong shapes and unknown types are rejected. *)
Theorem C32_rejected n_ n H (V : option (nat * (nat -> vec))) h type :
  (exists mV W, V = Some (mV, W) /\ mV <> n_) \/ (n_ <> n /\ n_ <> n.+1) \/ (type = RtOther /\ (0 < n)%N) ->
  ritz n_ n H V h type = Err ArgumentError.
Proof.
rewrite /Model.Ritz.ritz => -[[mV [W [-> /eqP->]]] //|[[/eqP/negbTE-> /eqP/negbTE->]|[-> n0]]]; first by case: ifP.
by case: ifP => // _; case: ifP => // _; rewrite eqn0Ngt n0.
Qed.

(** Without V the same values, coefficients and residual norms are returned. *)
Theorem C32_without_V n_ n H (V : nat -> vec) h type out :
  ritz n_ n H (Some (n_, V)) h type = Ok out ->
  exists out', [/\ ritz n_ n H None h type = Ok out', ro_Z (out' : ritz_out C N n) = None,
    ro_theta out' = ro_theta out, ro_U out' = ro_U out & ro_resnorm out' = ro_resnorm out].
Proof.
rewrite /Model.Ritz.ritz eqxx /=; case: ifP => // _; case: ifP => // _ E.
have [[[theta U] rn] E1 [<-]] := bind_ok E; rewrite E1 /=.
by exists (RitzOut theta U rn None).
Qed.

Section Rel.
Variables (ip : vec -> vec -> C) (A : vec -> vec) (n_ n : nat) (V : nat -> vec) (H : nat -> nat -> C).
Hypotheses (hip : is_ip ip) (hA : is_linear A) (n0 : (0 < n)%N) (hr : hess_rel ip A n_ n V H).
Variable hermitian : bool.
Local Notation run := (ritz n_ n H (Some (n_, V)) hermitian).
Let Hn : 'M[C]_n := \matrix_(i, j) H i j.
Let Hb : 'M[C]_(n_, n) := \matrix_(i, j) H i j.
(** the result of the routine for the standard and the generalised problem *)
Let ev := (if hermitian then @eigh n else @eig n) Hn.
Let gev := (if hermitian then @geigh n else @geig n) Hn^h (Hb^h *m Hb).

Let tconjE m k (X : 'M[C]_(m, k)) : tconj X = X^h.
Proof. by apply/matrixP => i j; rewrite ctrE mxE. Qed.

Let colZ (U : 'M[C]_n) i :
  col i (\matrix_(r, i) \sum_(k < n) U k i * V k r 0) = comb V (U^~ i).
Proof.
apply/colP => r; rewrite !mxE /comb summxE; apply: eq_bigr => k _; by rewrite !mxE.
Qed.

Let comb_span (u : 'I_n -> C) : in_span V n (comb V u).
Proof. by exists (emb u); apply: eq_bigr => k _; rewrite embE. Qed.
Let span_comb x : in_span V n x -> exists u : 'I_n -> C, x = comb V u.
Proof. by case=> c ->; exists (fun k : 'I_n => c k). Qed.

Let norm1 (U : 'M[C]_n) i : ipnorm (@ipE C n) (col i U) = 1 -> ipnorm ip (comb V (U^~ i)) = 1.
Proof.
move=> <-; rewrite (comb_norm hip hr) -nrm2_col /nrm2; congr sqrtC; apply: eq_bigr => k _.
by rewrite !embE mxE.
Qed.
Let norm1_neq0 x : ipnorm ip x = 1 -> x != 0.
Proof. by move=> h; rewrite -(ipnorm_eq0 hip) h oner_eq0. Qed.

Let sizes_ok : (n_ == n) || (n_ == n.+1).
Proof. by case: (hr_size hr) => ->; rewrite eqxx ?orbT. Qed.

(** type='ritz': the values and vectors of unit norm are Ritz pairs with respect to
    span(V_n), and the residual norms are exact. *)
Theorem C32_ritz : eig_ok Hn ev ->
  exists out Z, [/\ run RtRitz = Ok out, ro_Z out = Some Z &
    forall i, exists t, [/\ ro_theta out i = Ok t,
      ritz_pair A ip (in_span V n) (in_span V n) t (col i Z),
      ipnorm ip (col i Z) = 1 &
      ro_resnorm out i = Ok (ipnorm ip (A (col i Z) - t *: col i Z))]].
Proof.
move=> he; rewrite /Model.Ritz.ritz eqxx sizes_ok eqn0Ngt n0 /= -/ev.
case eev: ev he => [th U] /= he; do 2 eexists; split=> //= i; exists (th i).
have [h1 h2] := he i; rewrite colZ.
have h1' (j : 'I_n) : \sum_(k < n) H j k * U k i = th i * U j i.
  by move/colP: h1 => /(_ j); rewrite !mxE => <-; apply: eq_bigr => k _; rewrite !mxE.
have z1 := norm1 h2; split=> //.
  split=> //; first exact: norm1_neq0.
  move=> y; apply: (span_orth hip) => j hj.
  exact: (@ritz_orth _ _ _ _ _ _ _ _ hip hA hr (U^~ i) (th i) (Ordinal hj)).
rewrite (ritz_resnorm hip hA hr h1'); congr (Ok `|_ * _|).
by case: (hr_size hr) => ->; rewrite ?eqxx // (gtn_eqF (ltnSn n)).
Qed.

(** type='harmonic': harmonic Ritz pairs, i.e. the residual is orthogonal to A span(V_n),
    with exact residual norms; a generalised eigenvalue 0 belongs to the value infinity. *)
Theorem C32_harmonic : geig_ok Hn^h (Hb^h *m Hb) gev ->
  exists out Z, [/\ run RtHarmonic = Ok out, ro_Z out = Some Z &
    forall i, ipnorm ip (col i Z) = 1 /\
      if gev.1 i == 0 then ro_theta out i = Err DivZero else
      exists t, [/\ t != 0, ro_theta out i = Ok t,
        ritz_pair A ip (in_span V n) (fun y => exists2 x, in_span V n x & y = A x) t (col i Z) &
        ro_resnorm out i = Ok (ipnorm ip (A (col i Z) - t *: col i Z))]].
Proof.
move=> he; rewrite /Model.Ritz.ritz eqxx sizes_ok eqn0Ngt n0 /= !tconjE -/Hn -/Hb -/gev.
case eev: gev he => [th U] /= he; do 2 eexists; split=> //= i.
have [h1 h2] := he i; rewrite colZ; set u := _^~ i.
have z1 : ipnorm ip (comb V u) = 1 by apply: norm1; exact: normalise_unit.
split=> //; case: eqP => // /eqP th0; exists (th i)^-1; split=> //; first by rewrite invr_eq0.
  split=> //; first exact: norm1_neq0.
  move=> y [x /span_comb[w ->] ->]; apply: (harm_orth hip hA hr) => j.
  have h3 : Hb^h *m Hb *m col i (normalise U) = (th i)^-1 *: (Hn^h *m col i (normalise U)).
    rewrite normaliseE -!scalemxAr h1 !scalerA; congr (_ *: _).
    by rewrite /= mulrAC mulVf ?mul1r.
  move/colP: h3 => /(_ j); rewrite -mulmxA !mxE => h3.
  transitivity (\sum_j0 Hb^h j j0 * (Hb *m col i (normalise U)) j0 0).
    apply: eq_bigr => k _; rewrite ctrE !mxE; congr (_ * _); apply: eq_bigr => l _; by rewrite /u !mxE.
  by rewrite h3; congr (_ * _); apply: eq_bigr => k _; rewrite ctrE /u !mxE.
by rewrite (resid_normE hip hA hr).
Qed.

(** type='harmonic_improved': the same vectors, values with the smallest possible residual
    for these vectors, exact residual norms. *)
Theorem C32_improved : geig_ok Hn^h (Hb^h *m Hb) gev ->
  exists out Z, [/\ run RtImproved = Ok out, ro_Z out = Some Z,
    (forall outh, run RtHarmonic = Ok outh -> ro_Z outh = Some Z) &
    forall i, exists t, [/\ ro_theta out i = Ok t, in_span V n (col i Z), ipnorm ip (col i Z) = 1,
      ro_resnorm out i = Ok (ipnorm ip (A (col i Z) - t *: col i Z)) &
      forall s, ipnorm ip (A (col i Z) - t *: col i Z) <= ipnorm ip (A (col i Z) - s *: col i Z)]].
Proof.
move=> he; rewrite /Model.Ritz.ritz eqxx sizes_ok eqn0Ngt n0 /= !tconjE -/Hn -/Hb -/gev.
case eev: gev he => [th U] /= he; do 2 eexists; split=> //= [outh [<-] //|i].
have [h1 h2] := he i; rewrite colZ; set u := _^~ i.
have z1 : ipnorm ip (comb V u) = 1 by apply: norm1; exact: normalise_unit.
eexists; split=> //; first by rewrite (resid_normE hip hA hr).
by move=> s; apply: (rayleigh_best hip hA hr).
Qed.

(** Improved harmonic values never have a larger residual than the harmonic ones. *)
Theorem C32_improved_le_harmonic outi outh i ri rh : geig_ok Hn^h (Hb^h *m Hb) gev ->
  run RtImproved = Ok outi -> run RtHarmonic = Ok outh ->
  ro_resnorm outi i = Ok ri -> ro_resnorm outh i = Ok rh -> ri <= rh.
Proof.
move=> he Ei Eh Ri Rh.
have [o1 [Z1 [e1 _ ez h1]]] := C32_improved he; have [o2 [Z2 [e2 z2 h2]]] := C32_harmonic he.
move: Ei Eh; rewrite e1 e2 => -[eo] [eo']; subst o1 o2.
have [t [_ _ _ hn le]] := h1 i; move: hn; rewrite Ri => -[->].
have [_] := h2 i; case: ifP => [_ hd|_ [s [_ _ _]]].
  move: e2 Rh hd; rewrite /Model.Ritz.ritz eqxx sizes_ok eqn0Ngt n0 /=; case: (if hermitian then _ else _) => th U /= [<-] /=.
  by case: (th i == 0).
by have := ez _ e2; rewrite z2 Rh => -[->] [->]; exact: le.
Qed.

(** For a Hermitian H_n the Ritz values are real. *)
Theorem C32_hermitian_real out i t : eig_ok Hn ev -> Hn^h = Hn ->
  run RtRitz = Ok out -> ro_theta out i = Ok t -> t \is Num.real.
Proof.
move=> he hh; rewrite /Model.Ritz.ritz eqxx sizes_ok eqn0Ngt n0 /= -/ev.
case eev: ev he => [th U] /= he [<-] [<-]; have [h1 h2] := he i; rewrite /= in h1 h2.
set u := col i U in h1 h2.
have uu : ipE u u = 1 by rewrite -(ipnorm_sq (@ipE C n)) h2 expr1n.
have e : th i = ipE u (Hn *m u) by rewrite h1 (ipZr (ipE_ip C n)) uu mulr1.
rewrite CrealE e -(ip_conj (ipE_ip C n)) /ipE ctrM hh mulmxA; by [].
Qed.
End Rel.

(** H and V of n steps of arnoldi() without preconditioner that did not find an invariant
    subspace: the Ritz pairs belong to the Krylov space K_n(A, v). *)
Theorem C32_arnoldi snorm (c : acfg C N) v Mv nv n a0 a hermitian :
  arn_cfg c -> cM c = None -> init_args c v Mv nv -> arn_init c v Mv nv = Ok a0 ->
  arn_advance_n snorm c n a0 = Ok a -> a_inv a = false -> v != 0 -> (0 < n)%N ->
  let Hn := \matrix_(i < n, j < n) a_H a i j in
  let K := in_span (krylov (cA c) v) n in
  eig_ok Hn ((if hermitian then @eigh n else @eig n) Hn) ->
  exists out Z, [/\ ritz n.+1 n (a_H a) (Some (n.+1, a_V a)) hermitian RtRitz = Ok out, ro_Z out = Some Z &
    forall i, exists t, [/\ ro_theta out i = Ok t, ritz_pair (cA c) (cip c) K K t (col i Z) &
      ro_resnorm out i = Ok (ipnorm (cip c) (cA c (col i Z) - t *: col i Z))]].
Proof.
move=> hc hM hi h0 h1 hinv v0 n0 Hn K he.
have [m1 m2 _ m4] := Properties.Arnoldi.C13_matrix_form hc hi h0 h1 hinv.
have [o1 _] := Properties.Arnoldi.C14_orthonormal hc hi h0 h1; rewrite hinv addn1 in o1.
have eM x : Mop c x = x by rewrite /Mop hM.
have ePV j : (j <= n)%N -> Pb c a j = a_V a j by move=> hj; rewrite m2.
have hr : hess_rel (cip c) (cA c) n.+1 n (a_V a) (a_H a).
  split; first by right.
  - by move=> i j hi' hj; rewrite -o1 // ePV.
  - by move=> j hj; rewrite m1 //; apply: eq_bigr => i _; rewrite ePV // -ltnS.
  - by move=> j hj; apply: m4.
have [out [Z [e1 e2 e3]]] := C32_ritz (cfg_ip hc) (cfg_A hc) n0 hr he.
have sp := Properties.Arnoldi.C18_krylov_span hc hi h0 h1 v0 (k := n).
rewrite hinv addn1 in sp; have {}sp x : in_span (a_V a) n x <-> K x.
  have [|s1 s2] := sp _ x; first exact: leqnSn.
  have eK i : krylov (fun y => Mop c (cA c y)) (Mop c v) i = krylov (cA c) v i.
    by elim: i => [|i IH] /=; rewrite eM // IH.
  split=> [/s1|hx]; first by apply: span_ext => i _.
  by apply: s2; apply: (span_ext _ hx) => i _; rewrite eK.
exists out, Z; split=> // i; have [t [f1 [g1 g2 g3] f3 f4]] := e3 i; exists t; split=> //.
by split=> //; [apply/sp | move=> y /sp; exact: g3].
Qed.
End C32.

(** A concrete case: A = [[0,1,0],[1,0,1],[0,1,0]] on C^3 with V the unit vectors, H the
    first two columns of A. *)
Section Example.
Variable C : numClosedFieldType.
Let s2 : C := sqrtC 2%:R.
Let s2_neq0 : s2 != 0. Proof. by rewrite sqrtC_eq0 pnatr_eq0. Qed.
Let s2s : s2 * s2 = 2%:R. Proof. by rewrite -expr2 sqrtC_sq. Qed.
Let A3 : 'M[C]_3 := \matrix_(i, j) ((i == j.+1 :> nat) || (j == i.+1 :> nat))%:R.
Let H3 (i j : nat) : C := ((i == j.+1 :> nat) || (j == i.+1 :> nat))%:R.
Let V3 (k : nat) : 'cV[C]_3 := \col_i (i == k :> nat)%:R.
Let th2 (n : nat) (i : 'I_n) : C := if i == 0%N :> nat then 1 else -1.
Let U2 (n : nat) : 'M[C]_n := \matrix_(k, i) (if k == 0%N :> nat then s2^-1 else th2 i / s2).
Let G2 (n : nat) : 'M[C]_n := \matrix_(k, i) (if k == 0%N :> nat then s2 else th2 i).

Example C32_example_rel : hess_rel (@ipE C 3) (fun x => A3 *m x) 3 2 V3 H3.
Proof.
split; first by right.
- move=> i j hi hj; rewrite /ipE !mxE (bigD1 (Ordinal hi)) //= big1 => [|k ne]; last first.
    rewrite ctrE !mxE (_ : (k == i :> nat) = false) ?conjC0 ?mul0r //.
    by apply: contraNF ne => /eqP e; apply/eqP/val_inj.
  by rewrite ctrE !mxE eqxx conjC1 mul1r addr0.
- move=> j hj; apply/colP => k; rewrite summxE !mxE.
  have hj3 : (j < 3)%N by apply: leq_trans hj _.
  rewrite (bigD1 (Ordinal hj3)) //= big1 => [|l ne]; last first.
    rewrite !mxE (_ : (l == j :> nat) = false) ?mulr0 //.
    by apply: contraNF ne => /eqP e; apply/eqP/val_inj.
  rewrite (bigD1 k) //= big1 => [|l ne]; last first.
    rewrite !mxE (_ : (k == l :> nat) = false) ?mulr0 //.
    by apply: contraNF ne => /eqP e; apply/eqP/val_inj.
  by rewrite !addr0 !mxE !eqxx /= !mulr1.
- by move=> [|j] // _.
Qed.

Example C32_example_eig : eig_ok (\matrix_(i < 2, j < 2) H3 i j) (@th2 2, U2 2).
Proof.
move=> i; split=> /=.
  apply/colP => k; rewrite !mxE !big_ord_recl big_ord0 !mxE /=; case: k => -[|[|]] //= hk;
  by case: i => -[|[|]] //= hi; rewrite /th2 /H3 /= ?mul1r ?mul0r ?add0r ?addr0 ?mulN1r ?mulrNN ?mul1r ?opprK //.
rewrite /ipnorm /ipE !mxE !big_ord_recl big_ord0 !ctrE !mxE /=.
have hs : (s2^-1)^* = s2^-1 by apply: ge0_conj; rewrite invr_ge0 sqrtC_ge0 ler0n.
rewrite hs; suff -> : s2^-1 / s2 + ((th2 i / s2)^* * (th2 i / s2) + 0) = 1 by rewrite sqrtC1.
have -> : (th2 i / s2)^* * (th2 i / s2) = s2^-1 / s2.
  by rewrite rmorphM hs /th2; case: ifP => _; rewrite ?rmorphN conjC1 ?mul1r ?mulN1r ?mulrNN.
by rewrite addr0 -invfM s2s -mulr2n -mulr_natr mulVf // pnatr_eq0.
Qed.

Example C32_example_geig : geig_ok (\matrix_(i < 2, j < 2) H3 i j)^h
  ((\matrix_(i < 3, j < 2) H3 i j)^h *m \matrix_(i < 3, j < 2) H3 i j) (fun i => @th2 2 i / s2, G2 2).
Proof.
move=> i; split=> /=; last first.
  by apply/eqP => /colP /(_ ord0); rewrite !mxE /= => /eqP; rewrite (negbTE s2_neq0).
rewrite -mulmxA; apply/colP => k; rewrite !mxE !big_ord_recl big_ord0 !mxE !big_ord_recl !big_ord0 !mxE /=.
have e2 : th2 i * th2 i = 1 by rewrite /th2; case: ifP => _; rewrite ?mulrNN mul1r.
case: k => -[|[|]] //= hk; rewrite /H3 /= ?conjC1 ?conjC0 ?mul1r ?mul0r ?add0r ?addr0 ?mulr1 ?mulr0.
  by rewrite mulfVK.
by rewrite mulrAC mulrDr e2 -[1 + 1]/(2%:R) -s2s mulfK.
Qed.
End Example.
