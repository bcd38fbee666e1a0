(** Lemmas on principal angles. *)
From mathcomp Require Import all_ssreflect all_algebra ring.
From Verif Require Import Base Spec.LinAlg Model.Inner Spec.Inner Model.Projection Spec.Projection.
From Verif Require Import Spec.Svd Model.Angles Spec.Angles.
From Verif Require Import Proof.Algebra Proof.Inner Proof.IpTheory Proof.Qr Proof.Spectral Proof.Svd.

Set Implicit Arguments.
Unset Strict Implicit.
Unset Printing Implicit Defensive.
Import Order.TTheory GRing.Theory Num.Theory.
Local Open Scope ring_scope.

Section MgsOrth.
Variable C : numClosedFieldType.
Variable N : nat.
Local Notation vec := 'cV[C]_N.
Variable B : ipB C N.
Hypothesis hB : valid_ip B.
Local Notation ip := (ip1 B).
Let hip : is_ip ip := valid_is_ip hB.
Variable x : nat -> vec.
Variable k reorthos : nat.
Hypothesis ox : forall i j, (i < k)%N -> (j < k)%N -> i != j -> ip (x i) (x j) = 0.

Lemma orth_pass0 i t Q R : (i < k)%N -> (t <= i)%N -> Q i = x i -> (forall j, exists a, Q j = a *: x j) ->
  let s := forn t (mgs_orth B i) (Q, R) in s.1 =1 Q /\ s.2 =2 R.
Proof.
move=> ik; elim: t => [|t IH] ti hQ hm //=; have := IH (ltnW ti) hQ hm => /=.
case: (forn t _ _) => Q' R' /= [h1 h2]; rewrite /mgs_orth.
have [a ha] := hm t.
have -> : ip (Q' t) (Q' i) = 0.
  by rewrite !h1 ha hQ (ipZl hip) ox ?mulr0 // ?(ltn_eqF ti) // (ltn_trans ti).
split=> [j|l j] /=; first by rewrite /upd scale0r subr0 h1; case: eqP => // ->.
by rewrite /upd2 addr0 h2; case: ifP => // /andP[/eqP-> /eqP->].
Qed.

Lemma orth_passes0 i n Q R : (i < k)%N -> Q i = x i -> (forall j, exists a, Q j = a *: x j) ->
  let s := forn n (fun _ => forn i (mgs_orth B i)) (Q, R) in s.1 =1 Q /\ s.2 =2 R.
Proof.
move=> ik hQ hm; elim: n => [|n /=] //; case: (forn n _ _) => Q' R' /= [h1 h2].
have [||h3 h4] := @orth_pass0 i i Q' R' ik (leqnn i).
- by rewrite h1.
- by move=> j; rewrite h1.
by split=> [j|l j]; rewrite ?h3 ?h1 ?h4 ?h2.
Qed.

Lemma mgs_loop0 i : (i <= k)%N -> exists Q R, [/\ fornE i (mgs_col B reorthos) (x, fun _ _ => 0) = Ok (Q, R),
  forall j, (i <= j)%N -> Q j = x j, forall j, exists a, Q j = a *: x j
 & forall l j, R l j = if (l == j) && (j < i)%N then ipnorm ip (x j) else 0].
Proof.
elim: i => [|i IH] ik /=.
  exists x, (fun _ _ => 0); split=> // [j|l j]; first by exists 1; rewrite scale1r.
  by rewrite andbF.
have [Q [R [e h1 h2 h3]]] := IH (ltnW ik); rewrite e /=.
rewrite /mgs_col; have := @orth_passes0 i reorthos.+1 Q R ik (h1 i (leqnn i)) h2.
case: (forn _ _ _) => Q' R' [] h4 h5; rewrite /= in h4 h5.
rewrite norm_ip //=; set n := ipnorm ip _.
have nE : n = ipnorm ip (x i) by rewrite /n h4 h1.
have RE l j : upd2 R' i i n l j = if (l == j) && (j < i.+1)%N then ipnorm ip (x j) else 0.
  rewrite /upd2; case: eqP => [->|li] /=.
    case: (eqVneq j i) => [->|ji]; first by rewrite leqnn nE.
    by rewrite h5 h3 eq_sym (negbTE ji).
  rewrite h5 h3; case: eqP => //= lj; rewrite ltnS [(j <= i)%N]leq_eqVlt.
  by case: eqP => // ji; case: li; rewrite lj.
case: ifP => _; do 2 eexists; split; try exact: RE; try reflexivity.
- by move=> j ij; rewrite /upd gtn_eqF // h4 h1 // ltnW.
- move=> j; rewrite /upd; case: eqP => [->|_]; last by rewrite h4.
  by exists n^-1; rewrite h4 h1.
- by move=> j ij; rewrite h4 h1 // ltnW.
- by move=> j; rewrite h4.
Qed.
End MgsOrth.

Section Main.
Variable C : numClosedFieldType.
Variable N : nat.
Implicit Types (B : ipB C N).

(** The R factor of matrices with orthogonal columns. *)
Lemma mgs_orthogonal B k (X : 'M[C]_(N, k)) r d : valid_ip B -> inner B X X = diag_mx d ->
  exists Q R, mgs B X r = Ok (Q, R) /\ R^h *m R = diag_mx d.
Proof.
move=> hB hX.
have dE (i j : 'I_k) : ip1 B (col i X) (col j X) = d 0 i *+ (i == j).
  by rewrite -(inner_entry hB) hX mxE.
have ox i j : (i < k)%N -> (j < k)%N -> i != j -> ip1 B (ncol X i) (ncol X j) = 0.
  move=> ik jk ij; have := dE (Ordinal ik) (Ordinal jk); rewrite -!ncolE => ->.
  by rewrite -(inj_eq val_inj) /= (negbTE ij).
have [Q [R [e _ _ hR]]] := mgs_loop0 hB r ox (leqnn k).
rewrite /mgs e /=; do 2 eexists; split; first by [].
have -> : (\matrix_(i, j) R i j : 'M[C]_k) = diag_mx (\row_j sqrtC (d 0 j)).
  apply/matrixP => i j; rewrite !mxE hR ltn_ord andbT (inj_eq val_inj).
  case: eqP => [->|]; rewrite ?mulr1n ?mulr0n // ncolE /ipnorm dE eqxx mulr1n //.
have d0 j : 0 <= d 0 j by have := dE j j; rewrite eqxx mulr1n => <-; apply: (ip_ge0' (valid_is_ip hB)).
apply/matrixP => i j; rewrite mul_mx_diag !mxE eq_sym; case: eqP => [->|_]; last by rewrite conjC0 mul0r.
by rewrite mulr1n (ge0_conj _) ?sqrtC_ge0 // -expr2 sqrtCK.
Qed.

Variable sqr : forall n k, 'M[C]_(n, k) -> 'M[C]_(n, k) * 'M[C]_k.
Hypothesis hsqr : qr_spec sqr.

Lemma qr_orthogonal (B : option (ipB C N)) k (X : 'M[C]_(N, k)) d : valid_ip (ip_arg B) ->
  (0 < k <= N)%N -> inner (ip_arg B) X X = diag_mx d ->
  exists Q R, qr sqr B X 1 = Ok (Q, R) /\ R^h *m R = diag_mx d.
Proof.
case: B => [B|] /= hB /andP[k0 kN] h; first exact: mgs_orthogonal.
rewrite k0; have [h1 h2 _] := hsqr X kN; case: (sqr X) h1 h2 => Q R /= h1 h2; exists Q, R; split=> //.
by rewrite -h /= tconjE {1 2}h1 ctrM -mulmxA (mulmxA Q^h) h2 mul1mx.
Qed.

End Main.

Section Uniq.
Variable C : numClosedFieldType.

Lemma map_enum (T : Type) n (f : nat -> T) : [seq f (nat_of_ord i) | i <- enum 'I_n] = mkseq f n.
Proof. by rewrite (map_comp f (@nat_of_ord n)) val_enum_ord. Qed.

Lemma svd_uniq m n (P : 'M[C]_n) (M M' : 'M[C]_(m, n)) Y s Z Y' s' Z' : P \in unitmx ->
  svd_ok M (Y, s, Z) -> svd_ok M' (Y', s', Z') -> M^h *m M *m P = P *m (M'^h *m M') -> s = s'.
Proof.
move=> uP h h' e; have [_ _ hZ [zs s0] ss] := h; have [_ _ hZ' [zs' s0'] ss'] := h'.
have uZ : Z'^h \in unitmx by case: (mulmx1_unit (unitaryV hZ')).
have := svd_perm (P := P *m Z'^h) (d := \row_j s'`_j ^+ 2) h.
rewrite unitmx_mul uP uZ => /(_ isT).
have -> : M^h *m M *m (P *m Z'^h) = P *m Z'^h *m diag_mx (\row_j s'`_j ^+ 2).
  by rewrite mulmxA e (svd_gram h') -!mulmxA hZ' mulmx1.
move=> /(_ erefl).
under [X in perm_eq _ X -> _]eq_map => i do rewrite mxE.
rewrite (map_enum n (fun i => s`_i ^+ 2)) (map_enum n (fun i => s'`_i ^+ 2)) => p.
have g0 (r : seq C) : (forall x, x \in r -> 0 <= x) -> forall i, 0 <= r`_i.
  move=> r0 i; have [hi|hi] := ltnP i (size r); last by rewrite nth_default.
  by rewrite r0 // mem_nth.
have pd (r : seq C) : (forall x, x \in r -> 0 <= x) -> (forall i j, (i <= j < size r)%N -> r`_j <= r`_i) ->
    forall i j, (i <= j)%N -> r`_j <= r`_i.
  move=> r0 sr i j ij; have [hj|hj] := ltnP j (size r); first by apply: sr; rewrite ij.
  by rewrite [X in X <= _]nth_default // g0.
have e' : mkseq (nth 0 s) n = mkseq (nth 0 s') n.
  apply: desc_eq => [x /mapP[i _ ->]|x /mapP[i _ ->]|i j|i j|]; try exact: g0.
  - by rewrite size_mkseq => /andP[ij jn]; rewrite !nth_mkseq ?(leq_ltn_trans ij) // pd.
  - by rewrite size_mkseq => /andP[ij jn]; rewrite !nth_mkseq ?(leq_ltn_trans ij) // pd.
  by rewrite /mkseq -!map_comp.
apply: (eq_from_nth (x0 := 0)); first by rewrite zs zs'.
move=> i; rewrite zs leq_min => /andP[_ hi].
by have := congr1 (fun r => r`_i) e'; rewrite !nth_mkseq.
Qed.

Variable N : nat.
Variable B : ipB C N.
Hypothesis hB : valid_ip B.

Lemma on_basis_rel k (F Q Q' : 'M[C]_(N, k)) : on_basis B F Q -> on_basis B F Q' ->
  exists2 W : 'M[C]_k, W *m W^h = 1%:M & Q' = Q *m W.
Proof.
move=> [h1 [W1 u1 e1]] [h2 [W2 u2 e2]]; have e : Q' = Q *m (W1 *m invmx W2).
  by rewrite mulmxA -e1 e2 mulmxK.
exists (W1 *m invmx W2) => //; apply: mulmx1C.
by rewrite -h2 e innerMl // innerMr // h1 mul1mx.
Qed.

Lemma sdiag_ctr k l (s : seq C) : (forall x, x \in s -> 0 <= x) -> (sdiag k l s)^h = sdiag l k s.
Proof.
move=> s0; apply/matrixP => i j; rewrite ctrE !mxE eq_sym; case: eqP => [->|_]; last by rewrite conjC0.
have [hi|hi] := ltnP j (size s); last by rewrite nth_default // conjC0.
by rewrite !mulr1n ge0_conj // s0 // mem_nth.
Qed.

Lemma principal_svd k l (F : 'M[C]_(N, k)) (G : 'M[C]_(N, l)) U V s : principal B F G U V s ->
  svd_ok (inner B U V) (1%:M, s, 1%:M).
Proof. by move=> [_ _ -> h2 h3]; split=> //; rewrite ?ctr1 ?mul1mx ?mulmx1. Qed.

Lemma principal_uniq k l (F : 'M[C]_(N, k)) (G : 'M[C]_(N, l)) U V s U' V' s' :
  principal B F G U V s -> principal B F G U' V' s' -> s = s'.
Proof.
move=> h h'; have e := principal_svd h; have e' := principal_svd h'.
have [f1 g1 i1 _ _] := h; have [f2 g2 i2 _ _] := h'.
have [W1 u1 w1] := on_basis_rel f1 f2; have [W2 u2 w2] := on_basis_rel g1 g2.
apply: (svd_uniq (P := W2) _ e e'); first by case: (mulmx1_unit u2).
rewrite w1 w2 innerMl // innerMr // !ctrM ctrK !mulmxA u2 mul1mx.
by rewrite -(mulmxA _ W1) u1 mulmx1.
Qed.

Lemma principal_sym k l (F : 'M[C]_(N, k)) (G : 'M[C]_(N, l)) U V s :
  principal B F G U V s -> principal B G F V U s.
Proof.
move=> [f g i [zs s0] ss]; split=> //; first by rewrite (innerC hB U) i sdiag_ctr.
by rewrite minnC.
Qed.

Lemma on_basisM k (F Q : 'M[C]_(N, k)) W : W \in unitmx -> on_basis B F Q -> on_basis B (F *m W) Q.
Proof. by move=> uW [h [W1 u1 ->]]; split=> //; exists (W1 *m W); rewrite ?mulmxA // unitmx_mul u1. Qed.

Lemma principal_ext k l (F : 'M[C]_(N, k)) (G : 'M[C]_(N, l)) U V s W W' : W \in unitmx -> W' \in unitmx ->
  principal B F G U V s -> principal B (F *m W) (G *m W') U V s.
Proof. by move=> u u' [f g i zs ss]; split=> //; apply: on_basisM. Qed.

Lemma principal_le1 k l (F : 'M[C]_(N, k)) (G : 'M[C]_(N, l)) U V s x : principal B F G U V s ->
  x \in s -> 0 <= x <= 1.
Proof.
move=> [[uu _] [vv _] uv [zs s0] ss] xs; rewrite s0 //=; move: (s0 _ xs) => x0.
have /(nthP 0)[i hi ei] := xs; rewrite zs leq_min in hi; case/andP: hi => ik il.
pose u := col (Ordinal ik) U; pose v := col (Ordinal il) V; have hip := valid_is_ip hB.
have u1 : ip1 B u u = 1 by rewrite -(inner_entry hB) uu mxE eqxx.
have v1 : ip1 B v v = 1 by rewrite -(inner_entry hB) vv mxE eqxx.
have uvx : ip1 B u v = x by rewrite -(inner_entry hB) uv mxE /= eqxx ei.
have vux : ip1 B v u = x by rewrite (ipC hip) uvx ge0_conj.
have := ip_ge0' hip (v - x *: u).
rewrite (ipBr hip) !(ipBl hip) !(ipZr hip) !(ipZl hip) u1 v1 uvx vux ge0_conj //.
have -> : 1 - x * x - (x * x - x * (x * 1)) = 1 - x ^+ 2 by ring.
by rewrite subr_ge0 -[X in _ <= X](expr1n _ 2) ler_pexpn2r ?nnegrE ?ler01.
Qed.
End Uniq.

Section Sel.
Variable C : numClosedFieldType.
Variables (N l p : nat).
Hypothesis pl : (p <= l)%N.
Local Notation w := (widen_ord pl).

Definition selm : 'M[C]_(l, p) := \matrix_(i, j) (i == w j)%:R.

Lemma mul_selm m (X : 'M[C]_(m, l)) : X *m selm = \matrix_(i, j) X i (w j).
Proof.
apply/matrixP => i j; rewrite !mxE (bigD1 (w j)) //= big1 => [|h hh]; last by rewrite mxE (negbTE hh) mulr0.
by rewrite mxE eqxx mulr1 addr0.
Qed.

Lemma lcolsE (X : 'M[C]_(N, l)) : lcols X p = X *m selm.
Proof.
rewrite mul_selm; apply/matrixP => i j; rewrite !mxE.
by rewrite -[nat_of_ord j]/(nat_of_ord (w j)) ncolE mxE.
Qed.

Lemma selm_conj (M : 'M[C]_l) : selm^h *m M *m selm = \matrix_(i, j) M (w i) (w j).
Proof.
rewrite mul_selm; apply/matrixP => i j; rewrite !mxE (bigD1 (w i)) //= big1 => [|h hh]; last first.
  by rewrite ctrE mxE (negbTE hh) conjC0 mul0r.
by rewrite ctrE mxE eqxx conjC1 mul1r addr0.
Qed.

Lemma selm_orth : selm^h *m selm = 1%:M.
Proof.
rewrite -[selm^h]mulmx1 selm_conj; apply/matrixP => i j; rewrite !mxE.
by rewrite -(inj_eq val_inj).
Qed.
End Sel.

Section Stack.
Variable C : numClosedFieldType.
Variables (N k p : nat).
Hypothesis pk : (p <= k)%N.
Local Notation E := (selm C pk).

(** The matrix diag(M, I). *)
Definition padm (M : 'M[C]_p) : 'M[C]_k := E *m M *m E^h + (1%:M - E *m E^h).

Lemma stackE (X : 'M[C]_(N, k)) M : stack (lcols X p *m M) X = X *m padm M.
Proof.
have hE m (Y : 'M[C]_(m, p)) i j : (Y *m E^h) i j = if insub (nat_of_ord j) is Some j' then Y i j' else 0.
  rewrite mxE; case: insubP => [j' h ej|h].
    rewrite (bigD1 j') //= big1 => [|q hq]; rewrite ctrE mxE -(inj_eq val_inj) /= -ej.
      by rewrite eqxx conjC1 mulr1 addr0.
    by rewrite (inj_eq val_inj) eq_sym (negbTE hq) conjC0 mulr0.
  rewrite big1 // => q _; rewrite ctrE mxE -(inj_eq val_inj) /=.
  by case: eqP h => [->|]; rewrite ?ltn_ord // conjC0 mulr0.
rewrite (lcolsE pk) /padm mulmxDr mulmxBr mulmx1 !mulmxA.
apply/matrixP => i j; rewrite [RHS]mxE [in X in _ + X]mxE [in X in _ + (_ + X)]mxE !hE [LHS]mxE /ncol.
case: insubP => [j' -> ej|h]; last by rewrite (negbTE h) add0r subr0.
have -> : (X *m E) i j' = X i j by rewrite mul_selm mxE; congr (X i _); apply: val_inj.
by rewrite subrr addr0 mxE.
Qed.

Lemma padm_ctr M : (padm M)^h = padm M^h.
Proof. by rewrite /padm ctrD ctrB ctr1 !ctrM !ctrK mulmxA. Qed.

Lemma padm1 : padm 1%:M = 1%:M.
Proof. by rewrite /padm mulmx1 addrC subrK. Qed.

Lemma padmM M M' : padm M *m padm M' = padm (M *m M').
Proof.
have e : E^h *m E = 1%:M := selm_orth C pk.
have z1 : E^h *m (1%:M - E *m E^h) = 0 by rewrite mulmxBr mulmx1 mulmxA e mul1mx subrr.
have z2 : (1%:M - E *m E^h) *m E = 0 by rewrite mulmxBl mul1mx -mulmxA e mulmx1 subrr.
have pp : (1%:M - E *m E^h) *m (1%:M - E *m E^h) = 1%:M - E *m E^h.
  by rewrite mulmxBr mulmx1 mulmxA z2 mul0mx subr0.
rewrite /padm; move: (1%:M - E *m E^h) pp z1 z2 => P pp z1 z2.
rewrite mulmxDl !mulmxDr pp -(mulmxA _ E^h P) z1 mulmx0 addr0 !mulmxA z2 !mul0mx add0r.
by rewrite -(mulmxA _ E^h E) e mulmx1.
Qed.
End Stack.

Lemma padm_sdiag (C : numClosedFieldType) k l p (pk : (p <= k)%N) (pl : (p <= l)%N) (s : seq C) (M M' : 'M[C]_p) :
  M *m dg s p *m M' = dg s p ->
  padm pk M *m sdiag k l s *m padm pl M' = sdiag k l s.
Proof.
set E := selm C pk; set E' := selm C pl => h.
have h1 : E^h *m sdiag k l s = dg s p *m E'^h.
  apply/matrixP => i j; rewrite mul_diag_mx !mxE (bigD1 (widen_ord pk i)) //= big1 => [|q hq]; last first.
    by rewrite ctrE mxE (negbTE hq) conjC0 mul0r.
  rewrite ctrE mxE eqxx conjC1 mul1r addr0 mxE -(inj_eq val_inj j) /= eq_sym.
  by case: eqP; rewrite ?conjC1 ?conjC0 ?mulr1 ?mulr0.
have h2 : sdiag k l s *m E' = E *m dg s p.
  rewrite mul_selm mul_mx_diag; apply/matrixP => i j; rewrite !mxE -(inj_eq val_inj i) /=.
  by case: eqP => [->|]; rewrite ?mul1r ?mul0r.
have e : E'^h *m E' = 1%:M := selm_orth C pl.
have t1 : E *m M *m E^h *m sdiag k l s *m (E' *m M' *m E'^h) = E *m dg s p *m E'^h.
  rewrite -(mulmxA _ E^h) h1 !mulmxA -(mulmxA _ E'^h E') e mulmx1.
  by rewrite -[in RHS]h !mulmxA.
have t2 : E *m M *m E^h *m sdiag k l s *m (1%:M - E' *m E'^h) = 0.
  by rewrite -(mulmxA _ E^h) h1 mulmxBr mulmx1 !mulmxA -(mulmxA _ E'^h E') e mulmx1 subrr.
have t3 : (1%:M - E *m E^h) *m sdiag k l s = sdiag k l s - E *m dg s p *m E'^h.
  by rewrite mulmxBl mul1mx -mulmxA h1 !mulmxA.
have t4 : (sdiag k l s - E *m dg s p *m E'^h) *m E' = 0.
  by rewrite mulmxBl h2 -!mulmxA e mulmx1 subrr.
have a : padm pk M *m sdiag k l s = E *m M *m E^h *m sdiag k l s + (sdiag k l s - E *m dg s p *m E'^h).
  by rewrite /padm mulmxDl t3.
have b1 : E *m M *m E^h *m sdiag k l s *m padm pl M' = E *m dg s p *m E'^h by rewrite /padm mulmxDr t1 t2 addr0.
have b2 : (sdiag k l s - E *m dg s p *m E'^h) *m padm pl M' = sdiag k l s - E *m dg s p *m E'^h.
  by rewrite /padm mulmxDr [in X in _ + X]mulmxBr mulmx1 !mulmxA t4 !mul0mx add0r subr0.
by rewrite a mulmxDl b1 b2 addrC subrK.
Qed.

Lemma full_rank_le (C : numClosedFieldType) N k (X : 'M[C]_(N, k)) : full_rank X -> (k <= N)%N.
Proof.
move=> hX; have : row_free X^T.
  rewrite -kermx_eq0; apply/eqP/row_matrixP => i; rewrite row0; set v := row i _.
  have hv : v *m X^T = 0 by rewrite /v -row_mul mulmx_ker row0.
  have /hX/(congr1 trmx) : X *m v^T = 0 by rewrite -[LHS]trmxK trmx_mul trmxK hv trmx0.
  by rewrite trmxK trmx0.
by rewrite /row_free => /eqP <-; apply: rank_leq_col.
Qed.

Lemma dg_inv (C : numClosedFieldType) (s : seq C) p : (p <= size s)%N -> (forall j, (j < p)%N -> s`_j != 0) ->
  dg s p *m dg (map GRing.inv s) p = 1%:M /\ dg (map GRing.inv s) p *m dg s p = 1%:M.
Proof.
move=> zp sn; suff h : dg s p *m dg (map GRing.inv s) p = 1%:M by split=> //; apply: mulmx1C.
apply/matrixP => i j; rewrite mul_diag_mx !mxE; case: eqP => [->|]; rewrite ?mulr0 //.
by rewrite !mulr1n (nth_map 0) ?divff ?sn // (leq_trans _ zp).
Qed.

Section Thm.
Variable C : numClosedFieldType.
Variable sqr : forall n k, 'M[C]_(n, k) -> 'M[C]_(n, k) * 'M[C]_k.
Variable svd : forall m n, 'M[C]_(m, n) -> 'M[C]_m * seq C * 'M[C]_n.
Variables (arccos arcsin : C -> C) (pi2 : C).
Hypothesis hsqr : qr_spec sqr.
Hypothesis hsvd : forall m n (A : 'M[C]_(m, n)), svd_ok A (svd A).
Hypothesis htr : trig_ok arccos arcsin pi2.
Variable N : nat.
Variable B : option (ipB C N).
Hypothesis hB : valid_ip (ip_arg B).
Local Notation ip := (inner (ip_arg B)).

(** The number of angles that are computed by the arcsine. *)
Definition nsmall (s : seq C) : nat := (size s - count (fun x : C => (x ^+ 2 < 2%:R^-1)%R) s)%N.

(** The R factor and its decomposition in the computation of the small angles. *)
Definition vec_part k l (U Uc : 'M[C]_(N, k)) (V Vc : 'M[C]_(N, l)) (s : seq C) : Prop :=
  let p := nsmall s in
  if (0 < p)%N then
    exists2 Z : 'M[C]_p, Z *m Z^h = 1%:M /\
      diag_mx (\row_j (1 - s`_j ^+ 2)) = Z^h *m diag_mx (\row_j (1 - s`_(rev_ord j) ^+ 2)) *m Z
    & U = stack (lcols Uc p *m (dg (map GRing.inv s) p *m (Z^h *m dg s p))) Uc /\
      V = stack (lcols Vc p *m Z^h) Vc
  else U = Uc /\ V = Vc.

Lemma angles_geE k l (F : 'M[C]_(N, k)) (G : 'M[C]_(N, l)) : (l <= k)%N ->
  full_rank F -> full_rank G -> qr_hyp B F -> qr_hyp B G ->
  exists U V Uc Vc s, [/\ angles_ge sqr svd arccos arcsin pi2 F G B = Ok (map arccos s ++ nseq (k - l) pi2, U, V),
    principal (ip_arg B) F G Uc Vc s & vec_part U Uc V Vc s].
Proof.
move=> lk rF rG qF qG; rewrite /angles_ge.
have kN := full_rank_le rF.
have [QF [RF [-> /= _ h1 h2]]] := qr_thm hsqr F 1 hB; have {h1}[_ oF] := h1 qF.
have {h2}[WF uF eF] := h2 (fun _ => kN) rF.
have [QG [RG [-> /= _ h1 h2]]] := qr_thm hsqr G 1 hB; have {h1}[_ oG] := h1 qG.
have {h2}[WG uG eG] := h2 (fun _ => leq_trans lk kN) rG.
case: eqP => [l0|/eqP l0].
  exists QF, QG, QF, QG, [::]; split=> //.
    by have -> : (k - l)%N = k by rewrite l0 subn0.
  split=> //; [by split=> //; exists WF|by split=> //; exists WG| | |].
  - by apply/matrixP => i [j hj]; exfalso; rewrite l0 in hj.
  - by rewrite l0 minn0.
  by move=> i j; rewrite ltn0 andbF.
have := hsvd (ip QF QG); case: (svd _) => -[Y s] Z [eA hY hZ [zs s0] ss].
rewrite (minn_idPr lk) in zs.
set Vc := QG *m tconj Z; set Uc := QF *m Y.
have pr : principal (ip_arg B) F G Uc Vc s.
  split=> //; last by rewrite zs (minn_idPr lk).
  - split; first by rewrite innerMl // innerMr // oF mul1mx (unitaryV hY).
    exists (Y^h *m WF); last by rewrite /Uc mulmxA -(mulmxA QF) hY mulmx1.
    by rewrite unitmx_mul uF andbT; case: (mulmx1_unit hY).
  - rewrite /Vc tconjE; split; first by rewrite innerMl // innerMr // oG mul1mx ctrK hZ.
    exists (Z *m WG); last by rewrite mulmxA -(mulmxA QG) (unitaryV hZ) mulmx1.
    by rewrite unitmx_mul uG andbT; case: (mulmx1_unit hZ).
  by rewrite /Uc /Vc tconjE innerMl // innerMr // eA !mulmxA (unitaryV hY) mul1mx -mulmxA hZ mulmx1.
rewrite -/(nsmall s); set p := nsmall s.
have pl : (p <= l)%N by rewrite /p /nsmall zs leq_subr.
case: ifP => p0; last first.
  exists Uc, Vc, Uc, Vc, s; split=> //; last by rewrite /vec_part -/p p0.
  by move/negbT: p0; rewrite -eqn0Ngt => /eqP ->; rewrite drop0.
have [[ou _] [ov _] uv _ _] := pr.
set RG' := lcols Vc p; set S := RG' - _.
have SS : ip S S = diag_mx (\row_j (1 - s`_j ^+ 2)).
  pose E := selm C pl; have eR : RG' = Vc *m E by rewrite /RG' lcolsE.
  have qr : ip QF RG' = Y *m sdiag k l s *m E.
    by rewrite eR /Vc tconjE !innerMr // eA -!mulmxA (mulmxA Z) hZ mul1mx.
  have rr : ip RG' RG' = 1%:M by rewrite eR innerMl // innerMr // ov mul1mx selm_orth.
  rewrite /S innerBr // !innerBl // !innerMr // !innerMl // oF mulmx1 rr.
  rewrite (innerC hB QF RG') subrr subr0 qr !ctrM -!mulmxA (mulmxA Y^h) (unitaryV hY) mul1mx.
  rewrite (mulmxA (sdiag k l s)^h) gram_sdiag // ?zs ?(minn_idPr lk) // mulmxA selm_conj.
  apply/matrixP => i j; rewrite !mxE mulrnBl.
  by rewrite -(inj_eq val_inj (widen_ord pl i)).
have pN : (0 < p <= N)%N by rewrite p0 (leq_trans pl) // (leq_trans lk).
have [Q [R [-> RR]]] := qr_orthogonal hsqr hB pN SS.
have := hsvd R; rewrite /bind; case: (svd R) => -[Y2 u] Z2 hs2; have [_ _ hZ2 [zu u0] su] := hs2.
rewrite minnn in zu.
have s1 j : (j < l)%N -> 0 <= s`_j <= 1.
  by move=> jl; apply: (principal_le1 hB pr); rewrite mem_nth // zs.
have g0 j : (j < p)%N -> 0 <= 1 - s`_j ^+ 2.
  move=> jp; have /andP[a b] := s1 j (leq_trans jp pl); rewrite subr_ge0.
  by rewrite -[X in _ <= X](expr1n _ 2) ler_pexpn2r ?nnegrE ?ler01.
pose t := mkseq (fun j => sqrtC (1 - s`_j ^+ 2)) p.
have t0 x : x \in t -> 0 <= x.
  by move=> /mapP[j]; rewrite mem_iota add0n => /= jp ->; rewrite sqrtC_ge0 g0.
have uE : u = rev t.
  apply: desc_eq => [//|x||i j|]; rewrite ?mem_rev; first exact: t0.
  - exact: su.
  - rewrite size_rev size_mkseq => /andP[ij jp]; have ip' := leq_ltn_trans ij jp.
    have pi q : (p - q.+1 < p)%N by rewrite ltn_subrL p0.
    rewrite !nth_rev ?size_mkseq // !nth_mkseq // ler_sqrtC ?nnegrE ?g0 // ler_sub //.
    have /andP[a _] := s1 _ (leq_trans (pi i) pl); have /andP[b _] := s1 _ (leq_trans (pi j) pl).
    rewrite ler_pexpn2r ?nnegrE // ss // zs (leq_trans (pi i)) // andbT leq_sub2l //.
  have RR1 : R^h *m R *m 1%:M = 1%:M *m diag_mx (\row_j (1 - s`_j ^+ 2)) by rewrite mulmx1 mul1mx.
  have := svd_perm hs2 (unitmx1 _ _) RR1; rewrite (map_enum p (fun j => u`_j ^+ 2)) => q; rewrite map_rev perm_sym perm_rev perm_sym.
  have -> : [seq x ^+ 2 | x <- t] = mkseq (fun j => 1 - s`_j ^+ 2) p.
    by rewrite /t /mkseq -map_comp; apply: eq_map => j /=; rewrite sqrtCK.
  have e2 : [seq (\row_j (1 - s`_j ^+ 2)) 0 i | i <- enum 'I_p] = mkseq (fun j => 1 - s`_j ^+ 2) p.
    by rewrite -map_enum; apply: eq_map => i; rewrite mxE.
  move: q; rewrite e2.
  by congr (perm_eq _ _); rewrite -[in RHS](mkseq_nth 0 u) zu /mkseq -map_comp.
exists (stack (lcols Uc p *m (dg (map GRing.inv s) p *m (tconj Z2 *m dg s p))) Uc).
exists (stack (lcols Vc p *m tconj Z2) Vc), Uc, Vc, s; split=> //.
- congr (Ok (_, _, _)); rewrite catA; congr (_ ++ _).
  rewrite uE revK take_oversize ?size_mkseq // -[in RHS](cat_take_drop p s) map_cat; congr (_ ++ _).
  apply: (eq_from_nth (x0 := 0)) => [|j]; rewrite !size_map size_iota ?size_takel ?zs // => jp.
  rewrite !(nth_map 0) ?size_map ?size_iota ?size_takel ?zs // nth_mkseq // nth_take //.
  by have /andP[a b] := s1 j (leq_trans jp pl); apply: (tr_sin htr).
rewrite /vec_part -/p p0; exists Z2; last by rewrite tconjE.
split=> //; rewrite -RR (svd_gram hs2) uE; congr (_ *m diag_mx _ *m _).
apply/matrixP => i j; rewrite !mxE nth_rev ?size_mkseq // nth_mkseq ?ltn_subrL ?p0 //.
by rewrite sqrtCK.
Qed.

Lemma nsmall_half (s : seq C) j : (forall x, x \in s -> 0 <= x) ->
  (forall i j : nat, (i <= j < size s)%N -> s`_j <= s`_i) -> (j < nsmall s)%N -> 2%:R^-1 <= s`_j ^+ 2.
Proof.
move=> s0 ss jp; have js : (j < size s)%N by apply: leq_trans jp (leq_subr _ _).
have sr i : (i < size s)%N -> 0 <= s`_i by move=> h; rewrite s0 // mem_nth.
have hr : (2%:R : C)^-1 \is Num.real by rewrite ger0_real // invr_ge0 ler0n.
have hj : s`_j ^+ 2 \is Num.real by rewrite ger0_real // exprn_ge0 // sr.
rewrite real_leNgt //; apply/negP => lt.
have : (size s - j <= count (fun x : C => (x ^+ 2 < 2%:R^-1)%R) s)%N.
  rewrite -[in X in (_ <= X)%N](cat_take_drop j s) count_cat -size_drop.
  have -> : count (fun x : C => (x ^+ 2 < 2%:R^-1)%R) (drop j s) = size (drop j s); last exact: leq_addl.
  apply/eqP; rewrite -all_count; apply/allP => x /(nthP 0)[i]; rewrite size_drop nth_drop => hi <-.
  have js' : (j + i < size s)%N by rewrite -ltn_subRL.
  apply: (le_lt_trans _ lt); rewrite ler_pexpn2r ?nnegrE ?sr // ss // leq_addr //.
move: jp; rewrite /nsmall ltn_subRL => jp h.
by have := leq_trans jp (leqnn _); rewrite addnC ltnNge -leq_subLR h.
Qed.
End Thm.
