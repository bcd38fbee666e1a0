(** Principal angles and vectors (C53, C55). *)
From mathcomp Require Import all_ssreflect all_algebra ring.
From Verif Require Import Base Spec.LinAlg Model.Inner Spec.Inner Model.Projection Spec.Projection.
From Verif Require Import Spec.Svd Model.Angles Spec.Angles.
From Verif Require Import Proof.Algebra Proof.Inner Proof.IpTheory Proof.Qr Proof.QrExist Proof.Spectral Proof.Svd Proof.Angles.

Set Implicit Arguments.
Unset Strict Implicit.
Unset Printing Implicit Defensive.
Import Order.TTheory GRing.Theory Num.Theory.
Local Open Scope ring_scope.

Section Angles.
Variable C : numClosedFieldType.
Variable sqr : forall n k, 'M[C]_(n, k) -> 'M[C]_(n, k) * 'M[C]_k.
Variable svd : forall m n, 'M[C]_(m, n) -> 'M[C]_m * seq C * 'M[C]_n.
Variables (arccos arcsin : C -> C) (pi2 : C).
Hypothesis hsqr : qr_spec sqr.
Hypothesis hsvd : forall m n (A : 'M[C]_(m, n)), svd_ok A (svd A).
Hypothesis htr : trig_ok arccos arcsin pi2.
Variable N : nat.
Variable B : option (ipB C N).
Hypothesis hB : valid_ip (ip_arg B).
Local Notation ip := (inner (ip_arg B)).
Local Notation angles := (angles sqr svd arccos arcsin pi2).

(** Linearly independent columns (separated by 1e-15 for Gram-Schmidt). *)
Definition basis_arg k (F : 'M[C]_(N, k)) : Prop := full_rank F /\ qr_hyp B F.

(** angles(F, G) returns the arccosines of the cosines of the principal angles, filled up
    with pi/2. *)
Theorem C53_angles k l (F : 'M[C]_(N, k)) (G : 'M[C]_(N, l)) : basis_arg F -> basis_arg G ->
  exists U V Uc Vc s, angles F G B = Ok (map arccos s ++ nseq (maxn k l - minn k l) pi2, U, V) /\
    principal (ip_arg B) F G Uc Vc s.
Proof.
move=> [f1 f2] [g1 g2]; rewrite /Angles.angles; have [kl|lk] := ltnP k l.
  have [U [V [Uc [Vc [s [-> h _]]]]]] := angles_geE hsqr hsvd htr hB (ltnW kl) g1 f1 g2 f2.
  by exists V, U, Vc, Uc, s; split=> //; apply: principal_sym.
have [U [V [Uc [Vc [s [-> h _]]]]]] := angles_geE hsqr hsvd htr hB lk f1 g1 f2 g2.
by exists U, V, Uc, Vc, s.
Qed.

(** The result does not depend on the choice of the principal vectors. *)
Theorem C53_value k l (F : 'M[C]_(N, k)) (G : 'M[C]_(N, l)) Uc Vc s : basis_arg F -> basis_arg G ->
  principal (ip_arg B) F G Uc Vc s ->
  exists U V, angles F G B = Ok (map arccos s ++ nseq (maxn k l - minn k l) pi2, U, V).
Proof.
move=> hF hG h; have [U [V [Uc' [Vc' [s' [-> h']]]]]] := C53_angles hF hG.
by exists U, V; rewrite (principal_uniq hB h h').
Qed.

Lemma arccos_range x : 0 <= x <= 1 -> 0 <= arccos x <= pi2.
Proof.
case/andP=> a b; rewrite -(tr_1 htr) -(tr_0 htr); apply/andP; split.
  by case: (eqVneq x 1) => [->//|ne]; apply/ltW/(tr_lt htr) => //; rewrite lt_neqAle ne.
by case: (eqVneq x 0) => [->//|ne]; apply/ltW/(tr_lt htr) => //; rewrite lt_neqAle eq_sym ne.
Qed.

Lemma arccos_mono x y : 0 <= x -> x <= y -> y <= 1 -> arccos y <= arccos x.
Proof.
move=> a b c; case: (eqVneq x y) => [->//|ne]; apply/ltW/(tr_lt htr) => //.
by rewrite lt_neqAle ne.
Qed.

(** max(k, l) angles in [0, pi/2] in non-decreasing order; the last ones are pi/2. *)
Theorem C53_order k l (F : 'M[C]_(N, k)) (G : 'M[C]_(N, l)) theta U V : basis_arg F -> basis_arg G ->
  angles F G B = Ok (theta, U, V) ->
  [/\ size theta = maxn k l, forall t, t \in theta -> 0 <= t <= pi2,
      forall i j, (i <= j < size theta)%N -> theta`_i <= theta`_j
    & forall i, (minn k l <= i < maxn k l)%N -> theta`_i = pi2].
Proof.
move=> hF hG; have [U' [V' [Uc [Vc [s [-> h]]]]]] := C53_angles hF hG; case=> <- _ _.
have [_ _ _ [zs s0] ss] := h.
have zt : size ([seq arccos i | i <- s] ++ nseq (maxn k l - minn k l) pi2) = maxn k l.
  by rewrite size_cat size_map size_nseq zs subnKC // geq_min leq_maxl.
have p0 : 0 <= pi2.
  have /andP[] : 0 <= arccos 0 <= pi2 by apply: arccos_range; rewrite lexx ler01.
  by rewrite (tr_0 htr).
have rg t : t \in [seq arccos i | i <- s] ++ nseq (maxn k l - minn k l) pi2 -> 0 <= t <= pi2.
  rewrite mem_cat => /orP[/mapP[x xs ->]|]; first exact: arccos_range (principal_le1 hB h xs).
  by rewrite mem_nseq => /andP[_ /eqP->]; rewrite p0 lexx.
have tl i : (minn k l <= i < maxn k l)%N -> ([seq arccos i | i <- s] ++ nseq (maxn k l - minn k l) pi2)`_i = pi2.
  move=> /andP[a b]; rewrite nth_cat size_map zs ltnNge a /= nth_nseq ltn_sub2r // (leq_ltn_trans a b) //.
split=> // i j; rewrite zt => /andP[ij jz].
have [jm|jm] := ltnP j (minn k l); last first.
  rewrite [X in _ <= X]tl ?jm //.
  by have /rg/andP[] : _ := mem_nth 0 (etrans (congr1 (leq i.+1) zt) (leq_ltn_trans ij jz)).
have im := leq_ltn_trans ij jm.
rewrite !nth_cat size_map zs jm im !(nth_map 0) ?zs //.
have sb q : (q < minn k l)%N -> 0 <= s`_q <= 1.
  by move=> hq; apply: (principal_le1 hB h); rewrite mem_nth // zs.
have /andP[a _] := sb j jm; have /andP[_ b] := sb i im.
by apply: arccos_mono => //; apply: ss; rewrite ij zs.
Qed.

(** The angles are symmetric in F and G. *)
Theorem C53_symmetric k l (F : 'M[C]_(N, k)) (G : 'M[C]_(N, l)) : basis_arg F -> basis_arg G ->
  exists theta U V U' V', angles F G B = Ok (theta, U, V) /\ angles G F B = Ok (theta, U', V').
Proof.
move=> hF hG; have [U [V [Uc [Vc [s [e h]]]]]] := C53_angles hF hG.
have [U' [V' e']] := C53_value hG hF (principal_sym hB h).
by do 5 eexists; split; [exact: e|rewrite e' maxnC minnC].
Qed.

(** The angles depend on the spaces only. *)
Theorem C53_spaces k l (F : 'M[C]_(N, k)) (G : 'M[C]_(N, l)) (W : 'M[C]_k) (W' : 'M[C]_l) :
  W \in unitmx -> W' \in unitmx -> basis_arg F -> basis_arg G -> basis_arg (F *m W) -> basis_arg (G *m W') ->
  exists theta U V U' V', angles F G B = Ok (theta, U, V) /\ angles (F *m W) (G *m W') B = Ok (theta, U', V').
Proof.
move=> u u' hF hG hF' hG'; have [U [V [Uc [Vc [s [e h]]]]]] := C53_angles hF hG.
have [U' [V' e']] := C53_value hF' hG' (principal_ext u u' h).
by do 5 eexists; split; [exact: e|exact: e'].
Qed.

Lemma basis_on k (F : 'M[C]_(N, k)) : basis_arg F -> exists Q, on_basis (ip_arg B) F Q.
Proof.
move=> hF; have [U [V [Uc [Vc [s [_ [h _ _ _ _]]]]]]] := C53_angles hF hF.
by exists Uc.
Qed.

(** The angles between a space and itself are zero. *)
Theorem C53_same k (F : 'M[C]_(N, k)) : basis_arg F ->
  exists U V, angles F F B = Ok (nseq k 0, U, V).
Proof.
move=> hF; have [Q hQ] := basis_on hF.
have h : principal (ip_arg B) F F Q Q (nseq k 1).
  split=> //; first last.
  - by move=> i j; rewrite size_nseq => /andP[ij jk]; rewrite !nth_nseq jk (leq_ltn_trans ij jk).
  - by rewrite size_nseq minnn; split=> // x; rewrite mem_nseq => /andP[_ /eqP->]; rewrite ler01.
  have [-> _] := hQ; apply/matrixP => i j; rewrite !mxE nth_nseq ltn_ord.
  by rewrite (inj_eq val_inj).
have [U [V ->]] := C53_value hF hF h; exists U, V.
by rewrite maxnn minnn subnn cats0 map_nseq (tr_1 htr).
Qed.

(** The angles between orthogonal spaces are pi/2, and conversely. *)
Theorem C53_orthogonal k l (F : 'M[C]_(N, k)) (G : 'M[C]_(N, l)) : basis_arg F -> basis_arg G ->
  (exists U V, angles F G B = Ok (nseq (maxn k l) pi2, U, V)) <-> ip F G = 0.
Proof.
move=> hF hG; split=> [[U [V]]|fg0].
  have [U' [V' [Uc [Vc [s [-> h]]]]]] := C53_angles hF hG; case=> e _ _.
  have [[_ [W _ ->]] [_ [W' _ ->]] uv [zs s0] _] := h.
  rewrite innerMl // innerMr // uv; have -> : sdiag k l s = 0; last by rewrite mul0mx mulmx0.
  apply/matrixP => i j; rewrite !mxE; case: eqP => //= ij.
  have iz : (i < size s)%N by rewrite zs leq_min ltn_ord ij ltn_ord.
  have := congr1 (fun t => t`_i) e; rewrite nth_cat size_map iz (nth_map 0) // nth_nseq.
  have -> : (i < maxn k l)%N by rewrite leq_max ltn_ord.
  have /andP[x0 x1] := principal_le1 hB h (mem_nth 0 iz).
  rewrite -(tr_0 htr) => ea; case: (eqVneq s`_i 0) => // ne.
  by have := tr_lt htr (lexx 0) (_ : 0 < s`_i) x1; rewrite lt_neqAle eq_sym ne x0 ea ltxx => /(_ isT).
have [Q [q1 [W u ef]]] := basis_on hF; have [Q' [q2 [W' u' eg]]] := basis_on hG.
have qq : ip Q Q' = 0.
  have -> : Q = F *m invmx W by rewrite ef mulmxK.
  have -> : Q' = G *m invmx W' by rewrite eg mulmxK.
  by rewrite innerMl // innerMr // fg0 mul0mx mulmx0.
have h : principal (ip_arg B) F G Q Q' (nseq (minn k l) 0).
  split; first by split=> //; exists W.
  - by split=> //; exists W'.
  - by rewrite qq; apply/matrixP => i j; rewrite !mxE nth_nseq if_same mul0rn.
  - by rewrite size_nseq; split=> // x; rewrite mem_nseq => /andP[_ /eqP->].
  by move=> i j _; rewrite !nth_nseq !if_same.
have [U [V ->]] := C53_value hF hG h; exists U, V.
rewrite map_nseq (tr_0 htr); congr (Ok (_, _, _)).
by rewrite -nseqD subnKC // geq_min leq_maxl.
Qed.

(** The smallest angle is zero iff the spaces have a common nonzero vector. *)
Theorem C53_intersection k l (F : 'M[C]_(N, k)) (G : 'M[C]_(N, l)) theta U V :
  (0 < k)%N -> (0 < l)%N -> basis_arg F -> basis_arg G ->
  angles F G B = Ok (theta, U, V) ->
  theta`_0 = 0 <-> exists a b, F *m a = G *m b /\ (F *m a : 'cV[C]_N) != 0.
Proof.
move=> k0 l0 hF hG; have [U' [V' [Uc [Vc [s [-> h]]]]]] := C53_angles hF hG; case=> <- _ _.
have [[uu [W u ef]] [vv [W' u' eg]] uv [zs s0] ss] := h.
have z0 : (0 < size s)%N by rewrite zs leq_min k0.
have /andP[x0 x1] := principal_le1 hB h (mem_nth 0 z0).
rewrite nth_cat size_map z0 (nth_map 0) //.
have e1 : arccos s`_0 = 0 <-> s`_0 = 1.
  split=> [e|->]; last exact: (tr_1 htr).
  case: (eqVneq s`_0 1) => // ne; have := tr_lt htr x0 (_ : s`_0 < 1) (lexx 1).
  by rewrite lt_neqAle ne x1 (tr_1 htr) e ltxx => /(_ isT).
rewrite e1; split=> [s1|[a [b [ab nz]]]].
  pose i := Ordinal k0; pose j := Ordinal l0; have hip := valid_is_ip hB.
  have u1 : ip1 (ip_arg B) (col i Uc) (col i Uc) = 1 by rewrite -(inner_entry hB) uu mxE eqxx.
  have v1 : ip1 (ip_arg B) (col j Vc) (col j Vc) = 1 by rewrite -(inner_entry hB) vv mxE eqxx.
  have uv1 : ip1 (ip_arg B) (col i Uc) (col j Vc) = 1 by rewrite -(inner_entry hB) uv mxE /= s1.
  have vu1 : ip1 (ip_arg B) (col j Vc) (col i Uc) = 1 by rewrite (ipC hip) uv1 conjC1.
  have : col i Uc - col j Vc == 0.
    by rewrite -(ip_eq0 hip) (ipBr hip) !(ipBl hip) u1 v1 uv1 vu1 !subrr.
  rewrite subr_eq0 => /eqP e; exists (invmx W *m delta_mx i 0), (invmx W' *m delta_mx j 0).
  rewrite ef eg !mulmxA !mulmxK // -!colE e; split=> //.
  by apply: contra_neq (oner_neq0 C) => z; rewrite -v1 z (ipr0 hip).
pose a' := W *m a; pose b' := W' *m b.
have ab' : Uc *m a' = Vc *m b' by rewrite /a' /b' !mulmxA -ef -eg.
have ae : a' = sdiag k l s *m b'.
  by have := congr1 (ip Uc) ab'; rewrite !innerMr // uu mul1mx uv.
have nn : a'^h *m a' = b'^h *m b'.
  have := congr1 (fun z => ip z z) ab'; rewrite !innerMr // !innerMl // uu vv.
  by rewrite !mulmx1.
have b0 : b' != 0.
  by apply: contra_neq nz => z; rewrite ab eg -mulmxA -/b' z mulmx0.
have [j bj] : exists j, b' j 0 != 0.
  apply/existsP; apply: contraTT b0; rewrite negb_exists negbK => /forallP z.
  by apply/eqP/matrixP => i q; rewrite (ord1 q) [RHS]mxE; apply/eqP; apply: (negbNE (z i)).
have sum0 : \sum_i (1 - s`_(nat_of_ord i) ^+ 2) * ((b' i 0)^* * b' i 0) = 0.
  have /matrixP/(_ 0 0) := nn; rewrite {1 2}ae ctrM -mulmxA (mulmxA (sdiag k l s)^h) gram_sdiag //.
  rewrite mul_diag_mx mxE [RHS]mxE => e.
  under eq_bigr do rewrite mulrBl mul1r; rewrite sumrB; apply/eqP; rewrite subr_eq0; apply/eqP.
  transitivity (\sum_i b'^h 0 i * b' i 0); first by apply: eq_bigr => i _; rewrite ctrE.
  by rewrite -e; apply: eq_bigr => i _; rewrite !mxE; ring.
have sr i : 0 <= s`_i <= 1.
  have [hi|hi] := ltnP i (size s); last by rewrite nth_default // lexx ler01.
  by apply: (principal_le1 hB h); rewrite mem_nth.
have ge0 (i : 'I_l) : true -> 0 <= (1 - s`_(nat_of_ord i) ^+ 2) * ((b' i 0)^* * b' i 0).
  move=> _; rewrite mulr_ge0 //; last by rewrite mulrC mul_conjC_ge0.
  by have /andP[a1 a2] := sr i; rewrite subr_ge0 -[X in _ <= X](expr1n _ 2) ler_pexpn2r ?nnegrE ?ler01.
have /(_ j isT)/eqP := psumr_eq0P ge0 sum0.
rewrite mulf_eq0 mulf_eq0 conjC_eq0 orbb (negbTE bj) orbF subr_eq0 eq_sym sqrf_eq1 => sj.
have sj1 : s`_j = 1.
  case/orP: sj => /eqP // e; have /andP[] := sr j; rewrite e oppr_ge0 => h10.
  by have := le_lt_trans h10 ltr01; rewrite ltxx.
apply/eqP; rewrite eq_le x1 -{1}sj1 ss //.
by have [//|hi] := ltnP j (size s); move: sj1; rewrite nth_default // => /esym/eqP; rewrite oner_eq0.
Qed.
End Angles.

Section Vectors.
Variable C : numClosedFieldType.
Variable sqr : forall n k, 'M[C]_(n, k) -> 'M[C]_(n, k) * 'M[C]_k.
Variable svd : forall m n, 'M[C]_(m, n) -> 'M[C]_m * seq C * 'M[C]_n.
Variables (arccos arcsin : C -> C) (pi2 : C).
Hypothesis hsqr : qr_spec sqr.
Hypothesis hsvd : forall m n (A : 'M[C]_(m, n)), svd_ok A (svd A).
Hypothesis htr : trig_ok arccos arcsin pi2.
Variable N : nat.
Variable B : option (ipB C N).
Hypothesis hB : valid_ip (ip_arg B).
Local Notation ip := (inner (ip_arg B)).
Local Notation angles := (angles sqr svd arccos arcsin pi2).
Local Notation basis_arg := (basis_arg B).

Lemma unit_mulinv n (X Y : 'M[C]_n) : X *m Y = 1%:M -> X \in unitmx.
Proof. by case/mulmx1_unit. Qed.

Lemma vec_bases k l (F : 'M[C]_(N, k)) (G : 'M[C]_(N, l)) U V Uc Vc s : (l <= k)%N ->
  principal (ip_arg B) F G Uc Vc s -> vec_part U Uc V Vc s ->
  [/\ exists2 W, W \in unitmx & F = U *m W, exists2 W, W \in unitmx & G = V *m W & ip V V = 1%:M].
Proof.
move=> lk [[uu [W u ef]] [vv [W' u' eg]] uv [zs s0] ss]; rewrite /vec_part.
have pl : (nsmall s <= l)%N by rewrite /nsmall zs (minn_idPr lk) leq_subr.
set p := nsmall s in pl *; case: ifP => p0 h; last first.
  by case: h => -> ->; split=> //; [exists W|exists W'].
have pk := leq_trans pl lk; case: h => Z [hZ _] [-> ->]; rewrite (stackE pk) (stackE pl).
have sn j : (j < p)%N -> s`_j != 0.
  move=> jp; have := nsmall_half s0 ss jp; apply: contraTneq => ->.
  by rewrite expr0n /= lt_geF // invr_gt0 ltr0n.
have zp : (p <= size s)%N by rewrite zs (minn_idPr lk).
have [d1 d2] := dg_inv zp sn; set D := dg s p in d1 d2 *; set D' := dg _ p in d1 d2 *.
have a1 : padm pk (D' *m (Z^h *m D)) *m padm pk (D' *m (Z *m D)) = 1%:M.
  by rewrite padmM -!mulmxA (mulmxA D) d1 mul1mx (mulmxA Z^h) (unitaryV hZ) mul1mx d2 padm1.
have a2 : padm pl Z^h *m padm pl Z = 1%:M by rewrite padmM (unitaryV hZ) padm1.
split.
- exists (padm pk (D' *m (Z *m D)) *m W); last by rewrite mulmxA -(mulmxA Uc) a1 mulmx1.
  by rewrite unitmx_mul u andbT; case: (mulmx1_unit a1).
- exists (padm pl Z *m W'); last by rewrite mulmxA -(mulmxA Vc) a2 mulmx1.
  by rewrite unitmx_mul u' andbT; case: (mulmx1_unit a2).
by rewrite innerMl // innerMr // vv mul1mx padm_ctr ctrK padmM hZ padm1.
Qed.

(** The columns returned by angles(F, G, compute_vectors=True) are bases of the ranges of F
    and G; the vectors of the space of lower dimension are orthonormal. *)
Theorem C55_bases k l (F : 'M[C]_(N, k)) (G : 'M[C]_(N, l)) theta U V : basis_arg F -> basis_arg G ->
  angles F G B = Ok (theta, U, V) ->
  [/\ exists2 W, W \in unitmx & F = U *m W, exists2 W, W \in unitmx & G = V *m W,
      (l <= k)%N -> ip V V = 1%:M & (k < l)%N -> ip U U = 1%:M].
Proof.
move=> [f1 f2] [g1 g2]; rewrite /Angles.angles; have [kl|lk] := ltnP k l.
  have [U' [V' [Uc [Vc [s [-> h v]]]]]] := angles_geE hsqr hsvd htr hB (ltnW kl) g1 f1 g2 f2.
  by case=> _ <- <-; have [] := vec_bases (ltnW kl) h v.
have [U' [V' [Uc [Vc [s [-> h v]]]]]] := angles_geE hsqr hsvd htr hB lk f1 g1 f2 g2.
by case=> _ <- <-; have [] := vec_bases lk h v.
Qed.

Lemma vec_equal k l (F : 'M[C]_(N, k)) (G : 'M[C]_(N, l)) U V Uc Vc s : (l <= k)%N ->
  principal (ip_arg B) F G Uc Vc s -> vec_part U Uc V Vc s ->
  (forall x y, x \in s -> y \in s -> 2%:R^-1 <= x ^+ 2 -> 2%:R^-1 <= y ^+ 2 -> x = y) ->
  principal (ip_arg B) F G U V s.
Proof.
move=> lk pr vp heq; have [hU hV ov] := vec_bases lk pr vp; move: vp.
have [[uu _] [vv _] uv [zs s0] ss] := pr; rewrite /vec_part.
have pl : (nsmall s <= l)%N by rewrite /nsmall zs (minn_idPr lk) leq_subr.
set p := nsmall s in pl *; case: ifP => p0 h; last by case: h => -> ->.
have pk := leq_trans pl lk; have zp : (p <= size s)%N by rewrite zs (minn_idPr lk).
have sn j : (j < p)%N -> s`_j != 0.
  move=> jp; have := nsmall_half s0 ss jp; apply: contraTneq => ->.
  by rewrite expr0n /= lt_geF // invr_gt0 ltr0n.
have [d1 d2] := dg_inv zp sn.
have De : dg s p = (s`_0)%:M.
  apply/matrixP => i j; rewrite !mxE; case: eqP => // _; rewrite !mulr1n.
  by apply: heq; rewrite ?mem_nth ?(leq_trans _ zp) //; apply: (nsmall_half s0 ss).
move: d1 d2; rewrite De => d1 d2.
case: h => Z [hZ _] [eU eV].
have A : dg (map GRing.inv s) p *m (Z^h *m (s`_0)%:M) = Z^h.
  by rewrite scalar_mxC mulmxA d2 mul1mx.
rewrite De A (stackE pk) in eU; rewrite (stackE pl) in eV.
have ou : ip U U = 1%:M by rewrite eU innerMl // innerMr // uu mul1mx padm_ctr ctrK padmM hZ padm1.
split=> //; rewrite eU eV innerMl // innerMr // uv padm_ctr ctrK mulmxA padm_sdiag //.
by rewrite De -mulmxA -scalar_mxC mulmxA hZ mul1mx.
Qed.

(** The vectors satisfy <U, U> = I, <V, V> = I and <U, V> = diag(cos(theta)) if the angles up
    to 45 degrees coincide (in particular if there is at most one).  This is not the case
    otherwise, see C55_refuted. *)
Theorem C55_vectors_partial k l (F : 'M[C]_(N, k)) (G : 'M[C]_(N, l)) theta U V Uc Vc s :
  basis_arg F -> basis_arg G ->
  principal (ip_arg B) F G Uc Vc s ->
  (forall x y, x \in s -> y \in s -> 2%:R^-1 <= x ^+ 2 -> 2%:R^-1 <= y ^+ 2 -> x = y) ->
  angles F G B = Ok (theta, U, V) ->
  principal (ip_arg B) F G U V s.
Proof.
move=> [f1 f2] [g1 g2] pr heq; rewrite /Angles.angles; have [kl|lk] := ltnP k l.
  have [U' [V' [Uc' [Vc' [s' [-> h v]]]]]] := angles_geE hsqr hsvd htr hB (ltnW kl) g1 f1 g2 f2.
  case=> _ <- <-; have es := principal_uniq hB (principal_sym hB pr) h; rewrite -es in h v.
  by apply: principal_sym => //; apply: vec_equal v heq => //; apply: ltnW.
have [U' [V' [Uc' [Vc' [s' [-> h v]]]]]] := angles_geE hsqr hsvd htr hB lk f1 g1 f2 g2.
case=> _ <- <-; have es := principal_uniq hB pr h; rewrite -es in h v.
exact: vec_equal v heq.
Qed.
End Vectors.

Section Example.
Variable C : numClosedFieldType.

(** F = [e_0, e_1] and G = [e_0, 4/5 e_1 + 3/5 e_2] *)
Definition exF : 'M[C]_(3, 2) := \matrix_(i, j) (i == j :> nat)%:R.
Definition exG : 'M[C]_(3, 2) := \matrix_(i, j)
  (if nat_of_ord j == 0%N then (nat_of_ord i == 0%N)%:R
   else nth 0 [:: 0; 4%:R / 5%:R; 3%:R / 5%:R] i).
Definition exs : seq C := [:: 1; 4%:R / 5%:R].

Lemma on_sep N (B : ipB C N) k (X : 'M[C]_(N, k)) : valid_ip B -> inner B X X = 1%:M ->
  separated (ip1 B) (eps15 C) X.
Proof.
move=> hB h i c; have hip := valid_is_ip hB; set w := \sum_(j < k | _) _.
have on (a b : 'I_k) : ip1 B (col a X) (col b X) = (a == b)%:R by rewrite -(inner_entry hB) h mxE.
have iw : ip1 B (col i X) w = 0.
  rewrite (ip_sumr hip) big1 // => j ji; rewrite (ipZr hip) on.
  by have -> : (i == j) = false by [rewrite -(inj_eq val_inj) gtn_eqF]; rewrite mulr0.
have wi : ip1 B w (col i X) = 0 by rewrite (ipC hip) iw conjC0.
have n1 : 1 <= ipnorm (ip1 B) (col i X - w).
  rewrite /ipnorm -[X in X <= _](@sqrtC1 C) ler_sqrtC ?nnegrE ?ler01 ?(ip_ge0' hip) //.
  rewrite (ipBr hip) !(ipBl hip) on eqxx iw wi subr0 sub0r opprK ler_addl.
  exact: (ip_ge0' hip).
by apply: le_trans n1; rewrite /eps15 invf_le1 ?exprn_gt0 ?ltr0n // exprn_ege1 // ler1n.
Qed.

Lemma on_full N (B : ipB C N) k (X : 'M[C]_(N, k)) : valid_ip B -> inner B X X = 1%:M -> full_rank X.
Proof. by move=> hB h c e; have := inner0r hB 1 X; rewrite -e innerMr // h mul1mx. Qed.

Lemma ex_principal : principal (@IpNone C 3) exF exG exF exG exs.
Proof.
have cj (x : C) : x \is Num.real -> x^* = x := fun h => conj_Creal h.
have r4 : (4%:R / 5%:R : C)^* = 4%:R / 5%:R by rewrite conj_Creal // rpred_div // realn.
have r3 : (3%:R / 5%:R : C)^* = 3%:R / 5%:R by rewrite conj_Creal // rpred_div // realn.
have n5 : 5%:R != 0 :> C by rewrite pnatr_eq0.
have ff : inner (@IpNone C 3) exF exF = 1%:M.
  rewrite /= tconjE; apply/matrixP => -[[|[|i]] hi] [[|[|j]] hj] //; rewrite !mxE !big_ord_recl big_ord0 !ctrE !mxE /= ?conjC1 ?conjC0; ring.
have gg : inner (@IpNone C 3) exG exG = 1%:M.
  rewrite /= tconjE; apply/matrixP => -[[|[|i]] hi] [[|[|j]] hj] //; rewrite !mxE !big_ord_recl big_ord0 !ctrE !mxE /= ?conjC1 ?conjC0 ?r3 ?r4; by field.
split.
- by split=> //; exists 1%:M; rewrite ?unitmx1 ?mulmx1.
- by split=> //; exists 1%:M; rewrite ?unitmx1 ?mulmx1.
- rewrite /= tconjE; apply/matrixP => -[[|[|i]] hi] [[|[|j]] hj] //; rewrite !mxE !big_ord_recl big_ord0 !ctrE !mxE /= ?conjC1 ?conjC0; ring.
- split=> // x; rewrite !inE => /orP[/eqP->|/eqP->]; first exact: ler01.
  by rewrite divr_ge0 ?ler0n.
move=> [|[|i]] [|[|j]] //= _; rewrite ?nth_nil ?lexx //.
by rewrite ler_pdivr_mulr ?ltr0n // mul1r ler_nat.
Qed.

Lemma ex_basis : basis_arg (Some (@IpNone C 3)) exF /\ basis_arg (Some (@IpNone C 3)) exG.
Proof.
have [[ff _] [gg _] _ _ _] := ex_principal.
by split; split; [exact: (@on_full _ IpNone)|exact: (@on_sep _ IpNone)|exact: (@on_full _ IpNone)|exact: (@on_sep _ IpNone)].
Qed.

Lemma ex_trig : trig_ok (fun x : C => 1 - x) (fun y => 1 - sqrtC (1 - y ^+ 2)) 1.
Proof.
split=> [|||x x0 x1]; rewrite ?subrr ?subr0 //; first by move=> x y _ xy _; rewrite ltr_add2l ltr_opp2.
by rewrite sqrtCK; have -> : 1 - (1 - x ^+ 2) = x ^+ 2 by [ring]; rewrite sqrCK.
Qed.

(** The hypotheses can be met: two planes in C^3. *)
Theorem C53_example : exists U V,
  angles (@some_qr C) (@some_svd C) (fun x : C => 1 - x) (fun y => 1 - sqrtC (1 - y ^+ 2)) 1 exF exG (Some IpNone)
   = Ok ([:: 0; 5%:R^-1], U, V).
Proof.
have [hF hG] := ex_basis.
have hB : valid_ip (ip_arg (Some (@IpNone C 3))) by [].
have [U [V ->]] := C53_value (@some_qr_spec C) (@some_svd_spec C) ex_trig hB hF hG ex_principal.
exists U, V; rewrite maxnn minnn subnn cats0 /= subrr.
have -> : 1 - 4%:R / 5%:R = 5%:R^-1 :> C; last by [].
have n5 : 5%:R != 0 :> C by rewrite pnatr_eq0.
by field.
Qed.

Theorem C55_example : exists theta U V,
  angles (@some_qr C) (@some_svd C) (fun x : C => 1 - x) (fun y => 1 - sqrtC (1 - y ^+ 2)) 1 exF exF (Some IpNone)
   = Ok (theta, U, V) /\ principal IpNone exF exF U V [:: 1; 1].
Proof.
have hB : valid_ip (ip_arg (Some (@IpNone C 3))) by [].
have [hF _] := ex_basis; have [[ff hW] _ _ _ _] := ex_principal.
have pr : principal (@IpNone C 3) exF exF exF exF [:: 1; 1].
  split=> //; [|split=> // x|].
  - by rewrite ff; apply/matrixP => -[[|[|i]] hi] [[|[|j]] hj] //; rewrite !mxE.
  - by rewrite !inE orbb => /eqP ->; rewrite ler01.
  by move=> [|[|i]] [|[|j]] //= _; rewrite ?nth_nil ?lexx.
have [U [V e]] := C53_value (@some_qr_spec C) (@some_svd_spec C) ex_trig hB hF hF pr.
do 3 eexists; split; first exact: e.
apply: (C55_vectors_partial (@some_qr_spec C) (@some_svd_spec C) ex_trig hB hF hF pr _ e).
by move=> x y; rewrite !inE !orbb => /eqP -> /eqP ->.
Qed.

(** The documented <U, U> = I does not hold for these planes (angles 0 and arccos(4/5)), for
    whatever singular value decomposition: the first column of U has the norm 5/4. *)
Theorem C55_refuted (sqr : forall n k, 'M[C]_(n, k) -> 'M[C]_(n, k) * 'M[C]_k)
    (svd : forall m n, 'M[C]_(m, n) -> 'M[C]_m * seq C * 'M[C]_n) (arccos arcsin : C -> C) (pi2 : C) :
  qr_spec sqr -> (forall m n (A : 'M[C]_(m, n)), svd_ok A (svd m n A)) -> trig_ok arccos arcsin pi2 ->
  exists theta U V, angles sqr svd arccos arcsin pi2 exF exG (Some IpNone) = Ok (theta, U, V) /\
    ip1 IpNone (col 0 U) (col 0 U) = 25%:R / 16%:R.
Proof.
move=> hsqr hsvd htr; have [[f1 f2] [g1 g2]] := ex_basis.
have hB : valid_ip (ip_arg (Some (@IpNone C 3))) by [].
have [U [V [Uc [Vc [s [e h v]]]]]] := angles_geE hsqr hsvd htr hB (leqnn 2) f1 g1 f2 g2.
have es := principal_uniq hB ex_principal h; rewrite -es in h v e.
do 3 eexists; split; first by rewrite /angles ltnn; exact: e.
have ns : nsmall exs = 2%N.
  rewrite /nsmall /=.
  have -> : (1 ^+ 2 < 2%:R^-1 :> C) = false.
    by rewrite expr1n lt_gtF // invf_lt1 ?ltr0n // ltr1n.
  have -> : ((4%:R / 5%:R) ^+ 2 < 2%:R^-1 :> C) = false; last by [].
  apply/le_gtF; rewrite expr_div_n ler_pdivl_mulr ?exprn_gt0 ?ltr0n // mulrC.
  by rewrite ler_pdivr_mulr ?ltr0n // -!natrX -natrM ler_nat.
move: v; rewrite /vec_part ns /= => -[Z [hZ zz] [-> _]].
have n5 : 5%:R != 0 :> C by rewrite pnatr_eq0.
have n4 : 4%:R != 0 :> C by rewrite pnatr_eq0.
have z0 : Z 0 0 = 0.
  have /matrixP/(_ 0 0) := zz; rewrite mx_ctr_diag !mxE !big_ord_recl big_ord0 !mxE /= expr1n subrr mul0rn.
  rewrite mulr0 mul0r !addr0 mulrAC => /esym/eqP; rewrite mulf_eq0 => /orP[|].
    by rewrite mulf_eq0 conjC_eq0 orbb => /eqP.
  by rewrite subr_eq0 expr_div_n eq_sym -subr_eq0; have -> : 4%:R ^+ 2 / 5%:R ^+ 2 - 1 = - (9%:R / 25%:R) :> C by [field]; rewrite oppr_eq0 mulf_eq0 invr_eq0 !pnatr_eq0.
have z1 : Z 0 1 * (Z 0 1)^* = 1.
  by have /matrixP/(_ 0 0) := hZ; rewrite !mxE !big_ord_recl big_ord0 !ctrE z0 mul0r add0r addr0; congr (Z _ _ * (Z _ _)^* = _); apply: val_inj.
have [[uu _] _ _ _ _] := h.
rewrite (stackE (leqnn 2)); set A := dg _ 2 *m _.
have e1 : selm C (leqnn 2) = 1%:M.
  by apply/matrixP => i j; rewrite !mxE; congr (_ == _)%:R; apply: val_inj.
have -> : padm (leqnn 2) A = A by rewrite /padm e1 ctr1 !mulmx1 mul1mx subrr addr0.
rewrite -(inner_entry hB) innerMl // innerMr // uu mul1mx mxE !big_ord_recl big_ord0 !ctrE.
have AE (i : 'I_2) : A i 0 = ([:: 1^-1; (4%:R / 5%:R)^-1] : seq C)`_i * ((Z 0 i)^* * exs`_0).
  by rewrite /A mul_diag_mx mul_mx_diag !mxE.
rewrite !AE z0 conjC0 mul0r mulr0 mulr0 add0r addr0 /= mulr1.
have -> : lift ord0 ord0 = 1 :> 'I_2 by apply: val_inj.
rewrite rmorphM conjCK mulrACA z1 mulr1 conj_Creal; last by rewrite rpredV rpred_div // realn.
by field.
Qed.
End Example.
