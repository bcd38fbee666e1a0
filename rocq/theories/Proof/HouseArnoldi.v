(** The Householder variant of Arnoldi. *)
From mathcomp Require Import all_ssreflect all_algebra.
From mathcomp Require Import ring.
From Verif Require Import Base Spec.LinAlg Proof.Algebra Model.Inner Spec.Inner Proof.Inner.
From Verif Require Import Proof.IpTheory Model.Arnoldi Spec.Arnoldi Proof.ArnoldiRel Proof.Arnoldi.

Set Implicit Arguments.
Unset Strict Implicit.
Unset Printing Implicit Defensive.
Import Order.TTheory GRing.Theory Num.Theory.
Local Open Scope ring_scope.

Section HouseArnoldi.
Variable C : numClosedFieldType.
Variable N : nat.
Local Notation vec := 'cV[C]_N.
Implicit Types (h : house C N) (x y : vec).

Lemma house_applyE' h k (y : 'M[C]_(N, k)) : house_apply h y = house_matrix h *m y.
Proof.
rewrite /house_apply /house_matrix; case: eqP => [->|_].
  by rewrite scale0r subr0 mul1mx.
by rewrite mulmxBl mul1mx -scalemxAl mulmxA.
Qed.

Lemma ent_ord n (x : 'cV[C]_n) (i : 'I_n) : ent x i = x i 0.
Proof. by rewrite /ent insubT //= => hi; congr (x _ 0); apply: val_inj. Qed.

Lemma ent_out n (x : 'cV[C]_n) i : (n <= i)%N -> ent x i = 0.
Proof. by move=> hi; rewrite /ent insubF // ltnNge hi. Qed.

Lemma ent_lt n (x : 'cV[C]_n) i (hi : (i < n)%N) : ent x i = x (Ordinal hi) 0.
Proof. by rewrite -ent_ord. Qed.

Record good_house (j : nat) (h : house C N) : Prop := GoodHouse {
  gh_herm : (house_matrix h)^h = house_matrix h;
  gh_inv : house_matrix h *m house_matrix h = 1%:M;
  gh_alpha : `|halpha h| = 1;
  gh_low : forall i : 'I_N, (i < j)%N -> hv h i 0 = 0 }.

Lemma ent_ext n (x y : 'cV[C]_n) : (forall i, (i < n)%N -> ent x i = ent y i) -> x = y.
Proof. by move=> h; apply/matrixP=> i j; rewrite ord1 -!ent_ord h. Qed.

Lemma entD n (x y : 'cV[C]_n) i : ent (x + y) i = ent x i + ent y i.
Proof.
case: (ltnP i n) => hi; first by rewrite !(ent_lt _ hi) mxE.
by rewrite !ent_out // addr0.
Qed.
Lemma entZ n a (x : 'cV[C]_n) i : ent (a *: x) i = a * ent x i.
Proof.
case: (ltnP i n) => hi; first by rewrite !(ent_lt _ hi) mxE.
by rewrite !ent_out // mulr0.
Qed.
Lemma entN n (x : 'cV[C]_n) i : ent (- x) i = - ent x i.
Proof. by rewrite -scaleN1r entZ mulN1r. Qed.
Lemma entB n (x y : 'cV[C]_n) i : ent (x - y) i = ent x i - ent y i.
Proof. by rewrite entD entN. Qed.

Lemma gram_nat n (x y : 'cV[C]_n) : (x^h *m y) 0 0 = \sum_(0 <= i < n) (ent x i)^* * ent y i.
Proof. by rewrite big_mkord mxE; apply: eq_bigr => i _; rewrite ctrE !ent_ord. Qed.

Lemma ent_pad j (v : 'cV[C]_(N - j.+1).+1) i : (j < N)%N ->
  ent (pad N j v) i = if (j <= i)%N then ent v (i - j) else 0.
Proof.
move=> hj; case: (ltnP i N) => hi; first by rewrite (ent_lt _ hi) mxE.
rewrite ent_out // (leq_trans (ltnW hj) hi) ent_out //.
by rewrite subnSK // leq_sub2r.
Qed.

Lemma ent_slice j y i : (j < N)%N -> ent (slice j y) i = ent y (j + i).
Proof.
move=> hj; case: (ltnP i (N - j.+1).+1) => hi; first by rewrite (ent_lt _ hi) mxE.
rewrite ent_out // ent_out //; move: hi; rewrite subnSK // leq_subLR //.
Qed.

Lemma pad_ip j (v : 'cV[C]_(N - j.+1).+1) y : (j < N)%N ->
  ((pad N j v)^h *m y) 0 0 = (v^h *m slice j y) 0 0.
Proof.
move=> hj; rewrite !gram_nat (big_cat_nat _ _ _ (leq0n j) (ltnW hj)) /=.
rewrite big_nat big1 ?add0r; last first.
  by move=> i /andP[_ hi]; rewrite ent_pad // leqNgt hi conjC0 mul0r.
have eN : (N - j)%N = (N - j.+1).+1 by rewrite subnSK.
rewrite -{1}[j]add0n big_addn [X in \sum_(0 <= i < X) _]eN; apply: eq_bigr => i _.
by rewrite ent_pad // leq_addl addnK ent_slice // addnC.
Qed.

Lemma slice_pad j (v : 'cV[C]_(N - j.+1).+1) : (j < N)%N -> slice j (pad N j v) = v.
Proof.
by move=> hj; apply: ent_ext => i hi; rewrite ent_slice // ent_pad // leq_addr addKn.
Qed.

Lemma mul_col_row n (v : 'cV[C]_n) (y : 'cV[C]_n) :
  v *m (v^h *m y) = (v^h *m y) 0 0 *: v.
Proof. by rewrite {1}[v^h *m y]mx11_scalar mul_mx_scalar. Qed.

Lemma house_matrix_ent h y i :
  ent (house_matrix h *m y) i = ent y i - hbeta h * (((hv h)^h *m y) 0 0 * ent (hv h) i).
Proof.
rewrite /house_matrix mulmxBl mul1mx -scalemxAl -mulmxA tconjE mul_col_row.
by rewrite entB !entZ.
Qed.

Lemma good_low j h i : good_house j h -> (i < j)%N -> ent (hv h) i = 0.
Proof.
move=> hg hi; case: (ltnP i N) => hN; last exact: ent_out.
by rewrite (ent_lt _ hN) (gh_low hg).
Qed.

(** A good house leaves the first j entries alone. *)
Lemma good_keep j h y i : good_house j h -> (i < j)%N -> ent (house_matrix h *m y) i = ent y i.
Proof. by move=> hg hi; rewrite house_matrix_ent (good_low hg hi) !mulr0 subr0. Qed.

Lemma house_at_good j x : (j < N)%N -> good_house j (house_at j x).
Proof.
move=> hj; have [h1 h2 h3 h4] := mk_house_spec (slice j x).
have hb : hbeta (house_at j x) = 0 \/ (hbeta (house_at j x) = 2%:R /\
     ((hv (house_at j x))^h *m hv (house_at j x)) 0 0 = 1).
  case: h3 => [->|[-> e]]; [by left|right; split=> //].
  by rewrite pad_ip // slice_pad.
have [g1 g2] := reflector_prop hb; split=> //.
by move=> i hi; rewrite mxE leqNgt hi.
Qed.

(** ... and maps the rest of x to a multiple of e_j. *)
Lemma house_at_maps j x i : (j < N)%N -> let h := house_at j x in
  ent (house_matrix h *m x) i =
    if (i < j)%N then ent x i else if i == j then halpha h * hxnorm h else 0.
Proof.
move=> hj h; case: ltnP => [hi|hi]; first by apply: good_keep (house_at_good x hj) hi.
have [h1 h2 h3 h4] := mk_house_spec (slice j x).
rewrite house_matrix_ent /= pad_ip // ent_pad // hi.
have -> : ent x i = ent (slice j x) (i - j) by rewrite ent_slice // subnKC.
have := congr1 (fun z => ent z (i - j)) h4; rewrite /house_matrix mulmxBl mul1mx -scalemxAl -mulmxA tconjE.
rewrite mul_col_row entB !entZ => ->.
case: (ltnP (i - j)%N (N - j.+1).+1) => hn; last first.
  rewrite ent_out // mulr0; case: eqP => // e; move: hn; rewrite e subnn //.
rewrite (ent_lt _ hn) mxE eqxx andbT (_ : (Ordinal hn == 0) = (i == j)).
  by case: eqP; rewrite ?mulr1 ?mulr0.
by rewrite -val_eqE /= -(eqn_add2r j) subnK.
Qed.

Lemma hxnorm_ge0 j x : (j < N)%N -> 0 <= hxnorm (house_at j x).
Proof.
move=> hj; have [_ e _ _] := mk_house_spec (slice j x).
by rewrite [hxnorm _]e sqrtC_ge0 gram_ge0.
Qed.

Lemma ent_unit j i : ent (unitv C N j) i = ((i == j) && (i < N)%N)%:R.
Proof.
case: (ltnP i N) => hi; last by rewrite ent_out // andbF.
by rewrite (ent_lt _ hi) mxE /= andbT; case: eqP.
Qed.

Lemma good_unit j h i : good_house j h -> (i < j)%N -> house_matrix h *m unitv C N i = unitv C N i.
Proof.
move=> hg hi; apply: ent_ext => l _; rewrite house_matrix_ent.
have -> : ((hv h)^h *m unitv C N i) 0 0 = 0; last by rewrite mul0r mulr0 subr0.
rewrite gram_nat big_nat big1 // => l' /andP[_ hl]; rewrite ent_unit.
by case: eqP => [->|]; rewrite ?mulr0 // (good_low hg hi) conjC0 mul0r.
Qed.

(** The accumulated transformation T_k = Q_0 ... Q_k. *)
Fixpoint Tm (hs : seq (house C N)) (k : nat) : 'M[C]_N :=
  match k with
  | 0 => house_matrix (nth (house0 C N) hs 0)
  | k'.+1 => Tm hs k' *m house_matrix (nth (house0 C N) hs k)
  end.

Definition good_houses hs k : Prop :=
  forall j, (j <= k)%N -> good_house j (nth (house0 C N) hs j).

Lemma Tm_unitary hs k : good_houses hs k -> (Tm hs k)^h *m Tm hs k = 1%:M.
Proof.
elim: k => [|k IH] hg /=; first by have g := hg 0%N (leqnn _); rewrite (gh_herm g) (gh_inv g).
have g := hg k.+1 (leqnn _); rewrite ctrM (gh_herm g) -mulmxA [X in _ *m X]mulmxA IH.
  by rewrite mul1mx (gh_inv g).
by move=> j hj; apply: hg; apply: leqW.
Qed.
Lemma Tm_unitary' hs k : good_houses hs k -> Tm hs k *m (Tm hs k)^h = 1%:M.
Proof. by move=> hg; apply: mulmx1C; apply: Tm_unitary. Qed.

Lemma Tm_ext hs hs' k : (forall j, (j <= k)%N -> nth (house0 C N) hs j = nth (house0 C N) hs' j) ->
  Tm hs k = Tm hs' k.
Proof.
elim: k => [|k IH] h /=; first by rewrite h.
by rewrite h // IH // => j hj; apply: h; apply: leqW.
Qed.

(** The first loop of advance_house. *)
Definition scal (al : nat -> C) n y : vec := \col_i (if (i < n)%N then (al i)^* * y i 0 else y i 0).

Lemma ent_scal al n y i : ent (scal al n y) i = if (i < n)%N then (al i)^* * ent y i else ent y i.
Proof.
case: (ltnP i N) => hi; first by rewrite !(ent_lt _ hi) mxE.
by rewrite !ent_out // mulr0 if_same.
Qed.

Lemma scal_house al n h y : good_house n h ->
  house_matrix h *m scal al n y = scal al n (house_matrix h *m y).
Proof.
move=> hg; apply: ent_ext => i _; rewrite house_matrix_ent !ent_scal house_matrix_ent.
have -> : ((hv h)^h *m scal al n y) 0 0 = ((hv h)^h *m y) 0 0.
  rewrite !gram_nat; apply: eq_bigr => l _; rewrite ent_scal.
  by case: ltnP => // hl; rewrite (good_low hg hl) conjC0 !mul0r.
by case: ltnP => // hi; rewrite (good_low hg hi) !mulr0 !subr0.
Qed.

Lemma loop1 hs k y : good_houses hs k ->
  forn k.+1 (fun j Av => let h := nth (house0 C N) hs j in
              scale_at j (halpha h)^* (house_apply h Av)) y =
  scal (fun j => halpha (nth (house0 C N) hs j)) k.+1 ((Tm hs k)^h *m y).
Proof.
pose al := fun j => halpha (nth (house0 C N) hs j); rewrite -/al.
have step n z : good_house n (nth (house0 C N) hs n) ->
   scale_at n (al n)^* (house_apply (nth (house0 C N) hs n) (scal al n z)) =
   scal al n.+1 (house_matrix (nth (house0 C N) hs n) *m z).
  move=> g; rewrite house_applyE' scal_house //; apply: ent_ext => i hi.
  rewrite (ent_lt _ hi) mxE /= -[scal _ _ _ _ _]ent_ord !ent_scal /= ltnS.
  by case: (ltngtP i n) => //= ->.
elim: k => [|k IH] hg.
  have g := hg 0%N (leqnn _); rewrite [forn 1 _ _]/= -/(al 0%N) /=.
  have := step 0%N y g; rewrite (_ : scal al 0 y = y); last first.
    by apply: ent_ext => i _; rewrite ent_scal.
  by move=> ->; rewrite (gh_herm g).
have g := hg k.+1 (leqnn _); rewrite fornS IH; last first.
  by move=> j hj; apply: hg; apply: leqW.
by apply: etrans (step k.+1 _ g) _; rewrite [Tm hs k.+1]/= ctrM (gh_herm g) mulmxA.
Qed.

(** The second loop: T_k applied to a vector. *)
Lemma loop2 hs k y :
  forn k.+1 (fun j x => house_apply (nth (house0 C N) hs (k - j)) x) y = Tm hs k *m y.
Proof.
elim: k y => [|k IH] y; first by rewrite /= house_applyE'.
have shift n z : forn n.+1 (fun j x => house_apply (nth (house0 C N) hs (k.+1 - j)) x) z =
  forn n (fun j x => house_apply (nth (house0 C N) hs (k - j)) x)
    (house_apply (nth (house0 C N) hs k.+1) z).
  elim: n => [|n IHn]; first by rewrite /= subn0.
  by rewrite fornS IHn [in RHS]fornS subSS.
by rewrite shift IH house_applyE' /= mulmxA.
Qed.

Lemma unit_sum n x : (n <= N)%N -> (forall i, (n <= i)%N -> ent x i = 0) ->
  x = \sum_(i < n) ent x i *: unitv C N i.
Proof.
move=> hn hx; apply: ent_ext => l hl.
have -> : ent (\sum_(i < n) ent x i *: unitv C N i) l = \sum_(i < n) ent x i * (l == i :> nat)%:R.
  rewrite (big_morph (fun z => ent z l) (fun a b => entD a b l) (_ : _ = 0)); last first.
    by rewrite (ent_lt _ hl) mxE.
  by apply: eq_bigr => i _; rewrite entZ ent_unit hl andbT.
case: (ltnP l n) => h.
  rewrite (bigD1 (Ordinal h)) //= eqxx mulr1 big1 ?addr0 // => i ne.
  rewrite (_ : (l == i :> nat) = false) ?mulr0 //.
  by apply/negbTE; apply: contra ne => /eqP e; apply/eqP/val_inj.
by rewrite hx // big1 // => i _; rewrite gtn_eqF ?mulr0 // (leq_trans (ltn_ord i)).
Qed.

Lemma unit_ip i j : (i < N)%N -> (j < N)%N -> ((unitv C N i)^h *m unitv C N j) 0 0 = (i == j)%:R.
Proof.
move=> hi hj; rewrite gram_nat big_mkord (bigD1 (Ordinal hi)) //= !ent_unit hi eqxx /= andbT.
rewrite conjC1 mul1r big1 ?addr0 // => l ne.
rewrite ent_unit (_ : (l == i :> nat) = false) ?conjC0 ?mul0r //.
by apply/negbTE; apply: contra ne => /eqP e; apply/eqP/val_inj.
Qed.

Lemma tm_ip hs k a b i j : good_houses hs k -> (i < N)%N -> (j < N)%N ->
  ((a *: (Tm hs k *m unitv C N i))^h *m (b *: (Tm hs k *m unitv C N j))) 0 0 =
  a^* * b * (i == j)%:R.
Proof.
move=> hg hi hj; rewrite ctrZ ctrM -scalemxAl -scalemxAr -mulmxA [X in _ *m X]mulmxA.
have sc (z : C) (X : 'M[C]_1) : (z *: X) 0 0 = z * X 0 0 by rewrite mxE.
by rewrite Tm_unitary // mul1mx !sc unit_ip // mulrA.
Qed.

Record house_cfg (c : acfg C N) : Prop := HouseCfg {
  hc_M : cM c = None; hc_B : cB c = IpNone; hc_o : cortho c = Householder;
  hc_A : is_linear (cA c) }.

Section Cfg.
Variable c : acfg C N.
Hypothesis hc : house_cfg c.
Variable snorm : nat -> nat -> (nat -> nat -> C) -> C.
Local Notation ip := (cip c).

Lemma hip_E x y : ip x y = (x^h *m y) 0 0.
Proof. by rewrite /cip (hc_B hc) /ip1 /= tconjE. Qed.
Lemma hip_ok : is_ip ip.
Proof. by apply: valid_is_ip; rewrite (hc_B hc). Qed.
Lemma hMop : Mop c = id. Proof. by rewrite /Mop (hc_M hc). Qed.
Lemma hPb a : Pb c a = a_V a. Proof. by rewrite /Pb /sub_basis (hc_M hc). Qed.
Lemma hmip_E x y : cmip c x y = (x^h *m y) 0 0.
Proof. by rewrite /cmip /mip hMop hip_E. Qed.
Lemma hMlin : is_linear (Mop c). Proof. by rewrite hMop. Qed.
Lemma hMsa : self_adjoint ip (Mop c). Proof. by rewrite hMop. Qed.
Lemma hMpd : pos_def ip (Mop c). Proof. by rewrite hMop => x; apply: (ip_pos hip_ok). Qed.

Record house_st (a : arn C N) : Prop := HouseSt {
  hs_lt : (a_iter a < N)%N;
  hs_size : size (a_houses a) = (a_iter a).+1;
  hs_good : good_houses (a_houses a) (a_iter a);
  hs_V : forall j, (j <= a_iter a)%N ->
    a_V a j = halpha (nth (house0 C N) (a_houses a) j) *: (Tm (a_houses a) (a_iter a) *m unitv C N j) }.

Section Step.
Variables (v : vec) (a : arn C N).
Hypothesis ha : arn_ok c v a.
Hypothesis hi : a_inv a = false.
Hypothesis hst : house_st a.
Local Notation k := (a_iter a).
Local Notation hs := (a_houses a).
Let al := fun j => halpha (nth (house0 C N) hs j).
Let y := (Tm hs k)^h *m cA c (a_V a k).
Let Av1 := scal al k.+1 y.

Lemma R0 : arnoldi_rel ip (cA c) (Mop c) v k k.+1 (a_V a) (a_V a) (a_H a).
Proof. by have := ha; rewrite /arn_ok /ncols hi addn1 hPb. Qed.

Lemma al1 j : (j <= k)%N -> al j * (al j)^* = 1.
Proof. by move=> hj; rewrite -normCK (gh_alpha (hs_good hst hj)) expr1n. Qed.

Lemma Ay : cA c (a_V a k) = Tm hs k *m y.
Proof. by rewrite /y mulmxA Tm_unitary' ?mul1mx //; exact: hs_good hst. Qed.

(** Case k+1 < N: a new Householder transformation. *)
Section New.
Hypothesis hk : (k.+1 < N)%N.
Let h := house_at k.+1 Av1.
Let hs' := rcons hs h.
Let Av2 := scale_from k.+1 (halpha h)^* (house_apply h Av1).

Lemma nth_old j : (j <= k)%N -> nth (house0 C N) hs' j = nth (house0 C N) hs j.
Proof. by move=> hj; rewrite nth_rcons (hs_size hst) ltnS hj. Qed.
Lemma nth_new : nth (house0 C N) hs' k.+1 = h.
Proof. by rewrite nth_rcons (hs_size hst) ltnn eqxx. Qed.
Lemma good_new : good_houses hs' k.+1.
Proof.
move=> j; rewrite leq_eqVlt => /orP[/eqP->|hj]; first by rewrite nth_new; apply: house_at_good.
by rewrite nth_old //; apply: (hs_good hst).
Qed.
Lemma Tm_new : Tm hs' k.+1 = Tm hs k *m house_matrix h.
Proof.
rewrite [LHS]/= -/hs' nth_new; congr (_ *m _).
by apply: Tm_ext => j hj; rewrite nth_old.
Qed.
Lemma ghk : good_house k.+1 h. Proof. exact: house_at_good. Qed.

Lemma ent_Qy i : ent (house_matrix h *m y) i =
  if (i < k.+1)%N then ent y i else if i == k.+1 then halpha h * hxnorm h else 0.
Proof.
case: ltnP => hi'; first exact: good_keep ghk hi'.
have := house_at_maps Av1 i hk; rewrite -/h /= scal_house; last exact: ghk.
by rewrite ent_scal ltnNge hi'.
Qed.

Lemma ent_Av2 i : ent Av2 i =
  if (i < k.+1)%N then (al i)^* * ent y i else if i == k.+1 then hxnorm h else 0.
Proof.
have e j : ent Av2 j = if (k.+1 <= j)%N then (halpha h)^* * ent (house_apply h Av1) j
                       else ent (house_apply h Av1) j.
  case: (ltnP j N) => hj; first by rewrite !(ent_lt _ hj) mxE.
  by rewrite !ent_out // mulr0 if_same.
rewrite e house_applyE' scal_house; last exact: ghk.
rewrite ent_scal ent_Qy leqNgt; case: ltnP => //= _.
case: eqP => _; last by rewrite mulr0.
by rewrite mulrA [_^* * _]mulrC -normCK (gh_alpha ghk) expr1n mul1r.
Qed.

Lemma vk_new : cA c (a_V a k) = \sum_(i < k.+1) ent Av2 i *: a_V a i +
    ent Av2 k.+1 *: (halpha h *: (Tm hs' k.+1 *m unitv C N k.+1)).
Proof.
rewrite Ay (_ : Tm hs k *m y = Tm hs' k.+1 *m (house_matrix h *m y)); last first.
  by rewrite Tm_new -mulmxA [house_matrix h *m _]mulmxA (gh_inv ghk) mul1mx.
rewrite (@unit_sum k.+2 (house_matrix h *m y)) //; last first.
  by move=> i hi'; rewrite ent_Qy ltnNge (ltnW hi') /= gtn_eqF.
rewrite mulmx_sumr big_ord_recr /=; congr (_ + _).
  apply: eq_bigr => i _; have hik : (i <= k)%N by rewrite -ltnS.
  rewrite -scalemxAr ent_Qy ent_Av2 ltn_ord (hs_V hst hik) -/(al i).
  rewrite -/(Tm hs' k.+1) Tm_new -mulmxA (good_unit ghk (ltn_ord i)) scalerA.
  by rewrite mulrAC [_^* * _]mulrC al1 // mul1r.
rewrite -scalemxAr ent_Qy ent_Av2 ltnn eqxx scalerA mulrC //.
Qed.

Lemma unit_new : ipnorm (cmip c) (halpha h *: (Tm hs' k.+1 *m unitv C N k.+1)) = 1.
Proof.
rewrite /ipnorm hmip_E (tm_ip _ _ good_new) // eqxx mulr1.
by rewrite mulrC -normCK (gh_alpha ghk) expr1n sqrtC1.
Qed.

Lemma orth_new i : (i <= k)%N ->
  cmip c (a_V a i) (halpha h *: (Tm hs' k.+1 *m unitv C N k.+1)) = 0.
Proof.
move=> hik; rewrite hmip_E (hs_V hst hik) -/(al i).
have -> : Tm hs k *m unitv C N i = Tm hs' k.+1 *m unitv C N i.
  by rewrite Tm_new -mulmxA (good_unit ghk).
rewrite (tm_ip _ _ good_new) ?ltn_eqF ?mulr0 //.
by apply: leq_ltn_trans hik _; apply: ltnW.
Qed.
End New.

Lemma vk_last : N = k.+1 -> cA c (a_V a k) = \sum_(i < k.+1) ent Av1 i *: a_V a i.
Proof.
move=> eN; rewrite Ay (@unit_sum k.+1 y) ?(hs_lt hst) //; last first.
  by move=> i hi'; rewrite ent_out // [X in (X <= _)%N]eN.
rewrite mulmx_sumr; apply: eq_bigr => i _; have hik : (i <= k)%N by rewrite -ltnS.
rewrite -scalemxAr ent_scal ltn_ord (hs_V hst hik) -/(al i) scalerA.
by rewrite mulrAC [_^* * _]mulrC al1 // mul1r.
Qed.

Definition newH rows (Av : vec) : nat -> nat -> C :=
  let H := fun i j => if (j == k) && (i < rows)%N then ent Av i else a_H a i j in
  upd2 H k.+1 k `|H k.+1 k|.

Lemma newH_old rows Av i j : j != k -> newH rows Av i j = a_H a i j.
Proof. by move=> ne; rewrite /newH /upd2 (negbTE ne) andbF. Qed.
Lemma newH_low rows Av i : (i <= k)%N -> (k < rows)%N -> newH rows Av i k = ent Av i.
Proof.
by move=> hik hr; rewrite /newH /upd2 eqxx andbT ltn_eqF ?ltnS // (leq_ltn_trans hik).
Qed.
Lemma newH_sub rows Av : newH rows Av k.+1 k = `|if (k.+1 < rows)%N then ent Av k.+1 else 0|.
Proof.
rewrite /newH /upd2 !eqxx /=; case: ifP => // _.
by rewrite (ar_hess R0) // leqnn orbT.
Qed.
Lemma newH_zero rows Av i j : (rows <= k.+2)%N ->
  (k.+1 < i)%N && (j == k) || (k < j)%N -> newH rows Av i j = 0.
Proof.
move=> hr h; rewrite /newH /upd2.
have -> : (i == k.+1) && (j == k) = false.
  case/orP: h => [/andP[h _]|h]; first by rewrite gtn_eqF.
  by rewrite [j == k]gtn_eqF // andbF.
have -> : (j == k) && (i < rows)%N = false.
  case/orP: h => [/andP[h _]|h]; last by rewrite gtn_eqF.
  by rewrite andbC ltnNge (leq_trans hr h).
rewrite (ar_hess R0) //; case/orP: h => [/andP[_ /eqP->]|h]; first by rewrite leqnn orbT.
by rewrite (ltnW h) orbT.
Qed.

Lemma advance_houseE : advance_house snorm c a =
  if (k.+1 < N)%N then
    let h := house_at k.+1 Av1 in
    let hs' := rcons hs h in
    let H := newH k.+2 (scale_from k.+1 (halpha h)^* (house_apply h Av1)) in
    let! inv := invariant_test snorm H k in
    if inv then Ok (Arn k.+1 (a_V a) (a_P a) H true (a_vnorm a) hs')
    else Ok (Arn k.+1 (upd (a_V a) k.+1 (halpha h *: (Tm hs' k.+1 *m unitv C N k.+1)))
               (a_P a) H false (a_vnorm a) hs')
  else
    let H := newH k.+1 Av1 in
    let! inv := invariant_test snorm H k in
    if inv then Ok (Arn k.+1 (a_V a) (a_P a) H true (a_vnorm a) hs) else Err IndexError.
Proof.
rewrite /advance_house (loop1 _ (hs_good hst)) -/al -/y -/Av1.
case: ifP => [hk|hk] //.
by rewrite loop2 last_rcons.
Qed.

Lemma advance_house_ok a' : advance_house snorm c a = Ok a' ->
  [/\ arn_ok c v a', a_iter a' = k.+1, a_vnorm a' = a_vnorm a,
     a_inv a' = (a_H a' k.+1 k / snorm k.+2 k.+1 (a_H a') <= eps14 C)
   & a_inv a' = false -> house_st a'].
Proof.
rewrite advance_houseE; case: ifP => hk; rewrite /invariant_test; set H := newH _ _ => /=.
  case: eqP => //= _; set h := house_at k.+1 Av1 in H *; set hs' := rcons hs h.
  set nv := halpha h *: (Tm hs' k.+1 *m unitv C N k.+1).
  have xn : 0 <= hxnorm h by apply: hxnorm_ge0.
  have Hsub : H k.+1 k = hxnorm h.
    by rewrite /H newH_sub ltnSn ent_Av2 // ltnn eqxx ger0_norm.
  have un := unit_new hk; rewrite -/h -/hs' -/nv in un.
  have ext V' m : (forall j, (j <= k)%N -> V' j = a_V a j) ->
      m = k.+1 \/ [/\ m = k.+2, V' k.+1 = nv & 0 < H k.+1 k] ->
      arnoldi_rel ip (cA c) (Mop c) v k.+1 m V' V' H.
    move=> eV hm.
    apply: (rel_extend hip_ok hMlin hMsa hMpd (w := H k.+1 k *: nv) R0) => //.
    - by move=> j hj; rewrite eV.
    - by move=> i j hj; rewrite /H newH_old // ltn_eqF.
    - rewrite [LHS](vk_new hk) Hsub ent_Av2 // ltnn eqxx; congr (_ + _).
      by apply: eq_bigr => i _; rewrite /H newH_low // -ltnS.
    - move=> i hik; rewrite (ipZr (hmp hip_ok hMlin hMsa hMpd)).
      by rewrite [X in _ * X](orth_new hk hik) mulr0.
    - by rewrite (ipnormZ (hmp hip_ok hMlin hMsa hMpd)) un mulr1 Hsub ger0_norm.
    - by move=> i j; rewrite /H; apply: newH_zero.
    - case: hm => [->|[-> e hp]]; [by left|right; split=> //; first by rewrite e].
      by rewrite hMop.
  case: ifP => hinv [<-]; split=> //=; rewrite ?hinv //.
  - by rewrite /arn_ok /ncols hPb /= addn0; apply: ext => //; left.
  - rewrite /arn_ok /ncols hPb /= addn1; apply: ext => [j hj|]; first by rewrite updN // ltn_eqF.
    right; rewrite updE; split=> //; rewrite lt_def Hsub xn andbT -Hsub.
    by apply: contraFN hinv => /eqP->; rewrite mul0r ltW // invr_gt0 exprn_gt0 // ltr0n.
  - move=> _; split=> //=; first by rewrite size_rcons (hs_size hst).
      exact: good_new.
    move=> j; rewrite leq_eqVlt => /orP[/eqP->|hj].
      by rewrite updE -[Tm hs' k *m _]/(Tm hs' k.+1) nth_new.
    rewrite updN ?ltn_eqF // (hs_V hst hj) nth_old // -[Tm hs' k *m _]/(Tm hs' k.+1).
    by rewrite Tm_new -mulmxA (good_unit (ghk hk)).
have eN : N = k.+1.
  by apply/eqP; rewrite eqn_leq (hs_lt hst) andbT leqNgt hk.
case: eqP => //= _; case: ifP => // hinv [<-]; split=> //=; rewrite ?hinv //.
rewrite /arn_ok /ncols hPb /= addn0.
have Hsub : H k.+1 k = 0 by rewrite /H newH_sub ltnn normr0.
apply: (rel_extend hip_ok hMlin hMsa hMpd (w := 0) R0) => //.
- by move=> i j hj; rewrite /H newH_old // ltn_eqF.
- rewrite addr0 vk_last //; apply: eq_bigr => i _.
  by rewrite /H newH_low // -ltnS.
- by move=> i _; rewrite (ipr0 (hmp hip_ok hMlin hMsa hMpd)).
- by rewrite Hsub (ipnorm0 (hmp hip_ok hMlin hMsa hMpd)).
- by move=> i j; rewrite /H; apply: newH_zero.
- by left.
Qed.
End Step.

Lemma norm2_ip v : norm2 v = ipnorm (cmip c) v.
Proof.
by rewrite /ipnorm hmip_E /norm2 gramE.
Qed.

(** The states of a Householder run. *)
Definition house_ok (v : vec) (a : arn C N) : Prop :=
  arn_ok c v a /\ (a_inv a = false -> house_st a).

Lemma init_house_ok v Mv nv : (0 < N)%N ->
  exists a, [/\ arn_init c v Mv nv = Ok a, house_ok v a, a_iter a = 0%N,
                a_inv a = (v == 0) & a_vnorm a = ipnorm (cmip c) v].
Proof.
move=> hN; set h := house_at 0 v.
have gt0 : (0 < norm2 v) = (v != 0) by rewrite norm2_ip (ipnorm_gt0 (hmp hip_ok hMlin hMsa hMpd)).
exists (if v != 0 then Arn 0 (upd (fun _ => 0) 0 ((norm2 v)^-1 *: v)) (fun _ => 0) (fun _ _ => 0) false (norm2 v) [:: h]
   else Arn 0 (fun _ => 0) (fun _ => 0) (fun _ _ => 0) true (norm2 v) [:: h]).
have -> : arn_init c v Mv nv = Ok (if v != 0 then Arn 0 (upd (fun _ => 0) 0 ((norm2 v)^-1 *: v)) (fun _ => 0) (fun _ _ => 0) false (norm2 v) [:: h]
   else Arn 0 (fun _ => 0) (fun _ => 0) (fun _ _ => 0) true (norm2 v) [:: h]).
  rewrite /arn_init (hc_o hc) /init_house (hc_M hc) (hc_B hc).
  have -> (T : Type) (x y : T) : (if N is 0 then x else y) = y by case: (N) hN.
  by rewrite /= gt0; case: eqP.
have hmp' := hmp hip_ok hMlin hMsa hMpd.
have gh : good_houses [:: h] 0 by case=> // _; apply: house_at_good.
set nv' := halpha h *: (Tm [:: h] 0 *m unitv C N 0).
have ev : v = hxnorm h *: nv'.
  have e : house_matrix h *m v = (halpha h * hxnorm h) *: unitv C N 0.
    apply: ent_ext => i hi'; rewrite house_at_maps // entZ ent_unit hi' andbT ltn0 -/h.
    by case: eqP; rewrite ?mulr1 ?mulr0.
  rewrite -[LHS]mul1mx -(gh_inv (house_at_good v hN)) -mulmxA e -scalemxAr /nv' scalerA.
  by rewrite [_ * halpha h]mulrC.
have un : ipnorm (cmip c) nv' = 1.
  rewrite /ipnorm hmip_E (tm_ip _ _ gh) // eqxx mulr1 mulrC -normCK.
  by rewrite (gh_alpha (house_at_good v hN)) expr1n sqrtC1.
have en : norm2 v = hxnorm h.
  by rewrite norm2_ip [in LHS]ev (ipnormZ hmp') un mulr1 ger0_norm // hxnorm_ge0.
case: (eqVneq v 0) => [v0|v0] /=; split=> //; rewrite ?norm2_ip //.
have nz : norm2 v != 0 by rewrite norm2_ip (ipnorm_eq0 hmp').
have eV : (norm2 v)^-1 *: v = nv' by rewrite [in X in _ *: X]ev scalerA en mulVf ?scale1r // -en.
split=> [|_].
  rewrite /arn_ok /ncols hPb /=; split=> //.
  - by case=> // _; rewrite hMop.
  - case=> // -[] // _ _; rewrite updE -norm2_ip eV -/(cmip c) -(ipnorm_sq (cmip c)) un.
    by rewrite expr1n eqxx.
  - by rewrite updE -/(cmip c) -!norm2_ip scalerA mulfV // scale1r.
by split=> //=; case=> // _; rewrite updE -norm2_ip eV.
Qed.

Lemma advance_hE a : advance snorm c a =
  if (cmaxiter c <= a_iter a)%N || a_inv a then Err ArgumentError else advance_house snorm c a.
Proof.
by rewrite /advance; case: leqP => //= _; case: (a_inv a) => //; rewrite (hc_o hc).
Qed.

Lemma house_step v a a' : house_ok v a -> advance snorm c a = Ok a' ->
  [/\ house_ok v a', a_inv a = false, (a_iter a < cmaxiter c)%N, a_iter a' = (a_iter a).+1
    & a_vnorm a' = a_vnorm a /\
      a_inv a' = (a_H a' (a_iter a).+1 (a_iter a) / snorm (a_iter a).+2 (a_iter a).+1 (a_H a') <= eps14 C)].
Proof.
move=> [ha hs]; rewrite advance_hE; case: ifP => // /norP[].
rewrite -ltnNge => hm /negbTE hinv /(advance_house_ok ha hinv (hs hinv)) [h1 h2 h3 h4 h5].
by split.
Qed.

Lemma house_total v a : bounds_entries snorm -> house_ok v a ->
  v != 0 -> cA c v != 0 -> ~~ a_inv a -> (a_iter a < cmaxiter c)%N ->
  exists a', advance snorm c a = Ok a'.
Proof.
move=> hb [ha hs] v0 Av0 /negbTE hinv hm; rewrite advance_hE leqNgt hm hinv /=.
have R := R0 ha hinv; have hst := hs hinv.
have nz rows Av w : cA c (a_V a (a_iter a)) =
    \sum_(i < (a_iter a).+1) newH a rows Av i (a_iter a) *: a_V a i +
    newH a rows Av (a_iter a).+1 (a_iter a) *: w ->
    snorm (a_iter a).+2 (a_iter a).+1 (newH a rows Av) != 0.
  move=> e; apply/eqP => e0.
  have h0 i j : (i < (a_iter a).+2)%N -> (j < (a_iter a).+1)%N -> newH a rows Av i j = 0.
    move=> hi' hj; apply/eqP; rewrite -normr_le0.
    by have := hb _ _ (newH a rows Av) _ _ hi' hj; rewrite e0.
  case E: (a_iter a) => [|k].
    case/negP: Av0; have ef := ar_first R isT.
    rewrite ef (linZ (hc_A hc)) (_ : cA c (a_V a 0%N) = 0) ?scaler0 //.
    have e' := e; rewrite h0 // scale0r addr0 in e'.
    by rewrite -[X in a_V a X]E e' big1 // => i _; rewrite h0 ?scale0r // ltnS ltnW.
  have h1 : (0 < a_iter a)%N by rewrite E.
  have [w' [_ _ _ h4]] := ar_step R h1.
  have [//|_] := h4; have ne : 0%N != a_iter a by rewrite eq_sym -lt0n.
  by rewrite -(newH_old rows Av _ ne) h0 ?ltxx // !ltnS // ltnW.
rewrite (advance_houseE hst) /invariant_test; case: ifP => hk.
  set H := newH _ _ _; have nzH : snorm (a_iter a).+2 (a_iter a).+1 H != 0.
    apply: nz; apply: etrans (vk_new hst hk) _; congr (_ + _).
      by apply: eq_bigr => i _; rewrite newH_low // -ltnS.
    rewrite (newH_sub ha hinv) ltnSn ger0_norm //.
    by rewrite ent_Av2 // ltnn eqxx hxnorm_ge0.
  by rewrite /= (negbTE nzH) /=; case: ifP => _; eexists.
set H := newH _ _ _; have nzH : snorm (a_iter a).+2 (a_iter a).+1 H != 0.
  apply: (nz _ _ 0); rewrite scaler0 addr0; apply: etrans (vk_last hst _) _.
    by apply/eqP; rewrite eqn_leq (hs_lt hst) andbT leqNgt hk.
  by apply: eq_bigr => i _; rewrite newH_low // -ltnS.
rewrite /= (negbTE nzH) /= /H (newH_sub ha hinv) ltnn normr0 mul0r ifT; first by eexists.
by rewrite ltW // invr_gt0 exprn_gt0 // ltr0n.
Qed.

End Cfg.
End HouseArnoldi.
