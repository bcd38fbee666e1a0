(** Ritz pairs from an Arnoldi relation: coefficients in the basis V. *)
From mathcomp Require Import all_ssreflect all_algebra.
From Verif Require Import Base Spec.LinAlg Spec.Ritz Proof.Algebra Proof.IpTheory Model.Ritz.

Set Implicit Arguments.
Unset Strict Implicit.
Unset Printing Implicit Defensive.
Import Order.TTheory GRing.Theory Num.Theory.
Local Open Scope ring_scope.

Section Emb.
Variable C : numClosedFieldType.
(** coefficients by natural numbers *)
Definition emb n (u : 'I_n -> C) (k : nat) : C := if insub k is Some k' then u k' else 0.

Lemma embE n (u : 'I_n -> C) (k : 'I_n) : emb u k = u k.
Proof. by rewrite /emb valK. Qed.
Lemma emb_out n (u : 'I_n -> C) k : (n <= k)%N -> emb u k = 0.
Proof. by move=> h; rewrite /emb insubN // -leqNgt. Qed.
Lemma emb_last n (u : 'I_n.+1 -> C) : emb u n = u ord_max.
Proof. by rewrite -[n]/(nat_of_ord (ord_max : 'I_n.+1)) embE. Qed.

Lemma nrm2_ge0 k (x : nat -> C) : 0 <= nrm2 k x.
Proof. by rewrite sqrtC_ge0 sumr_ge0 // => i _; rewrite exprn_ge0. Qed.

Lemma nrm2_col n (u : 'cV[C]_n) : nrm2 n (emb (fun k => u k 0)) = ipnorm (@ipE C n) u.
Proof. by rewrite /nrm2 /ipnorm /ipE gramE; congr sqrtC; apply: eq_bigr => i _; rewrite embE. Qed.

Lemma normaliseE n (U : 'M[C]_n) i :
  col i (normalise U) = (ipnorm (@ipE C n) (col i U))^-1 *: col i U.
Proof.
apply/colP => k; rewrite !mxE mulrC; congr (_^-1 * _).
rewrite /ipnorm /ipE gramE /nrm2; congr sqrtC; apply: eq_bigr => j _.
by rewrite valK mxE.
Qed.

Lemma ipE_ip n : is_ip (@ipE C n).
Proof.
split=> [x a y z|x y|x].
- by rewrite /ipE mulmxDr -scalemxAr !mxE.
- by rewrite /ipE -[y^h *m x]ctrK ctrE ctrM ctrK.
- by rewrite /ipE lt_def gram_ge0 gram_eq0 andbT.
Qed.

Lemma normalise_unit n (U : 'M[C]_n) i : col i U != 0 ->
  ipnorm (@ipE C n) (col i (normalise U)) = 1.
Proof.
move=> h; rewrite normaliseE (ipnormZ (ipE_ip n)) normrV ?unitfE ?normr_eq0 ?(ipnorm_eq0 (ipE_ip n)) //.
by rewrite ger0_norm ?(ipnorm_ge0 (ipE_ip n)) // mulVf // (ipnorm_eq0 (ipE_ip n)).
Qed.
End Emb.

Section Rel.
Variable C : numClosedFieldType.
Variable N : nat.
Local Notation vec := 'cV[C]_N.
Variables (ip : vec -> vec -> C) (A : vec -> vec) (n_ n : nat) (V : nat -> vec) (H : nat -> nat -> C).
Hypotheses (hip : is_ip ip) (hA : is_linear A) (hr : hess_rel ip A n_ n V H).
Implicit Types (u w : 'I_n -> C).

(** V u *)
Definition comb u : vec := \sum_(k < n) u k *: V k.

Lemma sizes : (n <= n_)%N.
Proof. by case: (hr_size hr) => ->. Qed.

Lemma comb_emb u : comb u = \sum_(k < n_) emb u k *: V k.
Proof.
rewrite /comb; case: (hr_size hr) => ->; last rewrite big_ord_recr /= emb_out // scale0r addr0;
  by apply: eq_bigr => k _; rewrite embE.
Qed.

Lemma A_comb u : A (comb u) = \sum_(k < n_) (\sum_(j < n) H k j * u j) *: V k.
Proof.
rewrite /comb (lin_sum hA); under eq_bigr => j _ do rewrite (linZ hA) (hr_rel hr) // scaler_sumr.
rewrite exchange_big; apply: eq_bigr => k _; rewrite scaler_suml.
by apply: eq_bigr => j _; rewrite scalerA mulrC.
Qed.

(** the coefficients of the residual *)
Definition resc u (t : C) (k : nat) : C := \sum_(j < n) H k j * u j - t * emb u k.

Lemma residE u t : A (comb u) - t *: comb u = \sum_(k < n_) resc u t k *: V k.
Proof.
rewrite A_comb comb_emb scaler_sumr -sumrB; apply: eq_bigr => k _.
by rewrite scalerA -scalerBl.
Qed.

Lemma norm_coef (c : nat -> C) : ipnorm ip (\sum_(k < n_) c k *: V k) = nrm2 n_ c.
Proof.
rewrite /ipnorm (ortho_ip hip _ _ (hr_orth hr)) /nrm2; congr sqrtC.
by apply: eq_bigr => i _; rewrite normCK2.
Qed.

Lemma resid_normE u t : ipnorm ip (A (comb u) - t *: comb u) = resi_norm n_ H u t.
Proof.
rewrite residE norm_coef /resi_norm /nrm2; congr sqrtC; apply: eq_bigr => k _.
by rewrite /resc /emb; case: insubP => // _; rewrite mulr0.
Qed.

Lemma comb_norm u : ipnorm ip (comb u) = nrm2 n (emb u).
Proof.
rewrite /ipnorm /comb /nrm2; congr sqrtC.
have -> : \sum_(k < n) u k *: V k = \sum_(k < n) emb u k *: V k by apply: eq_bigr => k _; rewrite embE.
rewrite (ortho_ip hip _ _ (ortho_sub sizes (hr_orth hr))).
by apply: eq_bigr => i _; rewrite normCK2.
Qed.

(** Ritz: the residual is orthogonal to V_j, j < n, if u is an eigenvector *)
Lemma ritz_orth u t (j : 'I_n) : \sum_(k < n) H j k * u k = t * u j ->
  ip (V j) (A (comb u) - t *: comb u) = 0.
Proof.
move=> h; rewrite residE (ortho_coef hip _ (hr_orth hr)); last exact: leq_trans (ltn_ord j) sizes.
by rewrite /resc embE h subrr.
Qed.

Lemma ritz_resnorm u t : (forall j : 'I_n, \sum_(k < n) H j k * u k = t * u j) ->
  ipnorm ip (A (comb u) - t *: comb u) = `|(if n_ == n then 0 else H n n.-1) * emb u n.-1|.
Proof.
move=> h; rewrite residE norm_coef /nrm2.
have z (k : 'I_n) : resc u t k = 0 by rewrite /resc embE h subrr.
case: (hr_size hr) => ->.
  by rewrite eqxx mul0r normr0 big1 ?sqrtC0 // => k _; rewrite z normr0 expr0n.
rewrite (gtn_eqF (ltnSn n)) big_ord_recr /= big1 ?add0r => [|k _]; last by rewrite z normr0 expr0n.
rewrite sqrCK ?normr_ge0 // /resc emb_out // mulr0 subr0; congr `|_|.
case: (n) u (hr_hess hr) {h z} => [|n'] u hh; first by rewrite big_ord0 /= emb_out // mulr0.
rewrite big_ord_recr /= emb_last big1 ?add0r // => k _.
by rewrite hh ?mul0r // ltnS.
Qed.

(** harmonic: the residual is orthogonal to A V_n *)
Lemma harm_orth u w t :
  (forall j : 'I_n, \sum_(k < n_) (H k j)^* * (\sum_(i < n) H k i * u i) = t * \sum_(k < n) (H k j)^* * u k) ->
  ip (A (comb w)) (A (comb u) - t *: comb u) = 0.
Proof.
move=> h; rewrite residE A_comb (ortho_ip hip (fun k => \sum_(j < n) H k j * w j) (resc u t) (hr_orth hr)).
have -> : \sum_(k < n_) (\sum_(j < n) H k j * w j)^* * resc u t k =
    \sum_(j < n) (w j)^* * (\sum_(k < n_) (H k j)^* * resc u t k).
  under eq_bigr => k _ do rewrite rmorph_sum mulr_suml.
  rewrite exchange_big; apply: eq_bigr => j _; rewrite mulr_sumr; apply: eq_bigr => k _.
  by rewrite rmorphM -mulrA mulrCA.
rewrite big1 // => j _; rewrite (_ : \sum_(k < n_) _ = 0) ?mulr0 //.
rewrite /resc; under eq_bigr => k _ do rewrite mulrBr.
rewrite sumrB h (_ : \sum_(k < n_) _ = t * \sum_(k < n) (H k j)^* * u k) ?subrr //.
rewrite mulr_sumr; case: (hr_size hr) => ->; last rewrite big_ord_recr /= emb_out // !mulr0 addr0;
  by apply: eq_bigr => k _; rewrite embE mulrCA.
Qed.

(** the Rayleigh quotient gives the smallest residual *)
Lemma rayleigh_best u t : ipnorm ip (comb u) = 1 ->
  ipnorm ip (A (comb u) - (\sum_k (u k)^* * \sum_(j < n) H k j * u j) *: comb u) <=
  ipnorm ip (A (comb u) - t *: comb u).
Proof.
move=> h1; set rho := \sum_k _; set z := comb u.
have erho : rho = ip z (A z).
  rewrite /z A_comb comb_emb (ortho_ip hip (emb u) (fun k => \sum_(j < n) H k j * u j) (hr_orth hr)) /rho.
  case: (hr_size hr) => ->; last rewrite [RHS]big_ord_recr /= emb_out // conjC0 mul0r addr0;
    by apply: eq_bigr => k _; rewrite embE.
have zz : ip z z = 1 by rewrite -(ipnorm_sq ip) h1 expr1n.
rewrite (ipnorm_le hip).
have -> : A z - t *: z = (A z - rho *: z) + (rho - t) *: z by rewrite scalerBl addrA subrK.
rewrite (pythagoras hip (x := A z - rho *: z) (y := (rho - t) *: z)) ?ler_addl ?(ip_ge0' hip) //.
by rewrite (ipZr hip) (ipBl hip) (ipZl hip) zz mulr1 (ipC hip z) -erho subrr mulr0.
Qed.
End Rel.
