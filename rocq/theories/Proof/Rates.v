(** Polynomials in the operator: what the minimality of the iterates implies. *)
From mathcomp Require Import all_ssreflect all_algebra.
From Verif Require Import Base Spec.LinAlg Spec.Arnoldi Model.Arnoldi Spec.Krylov Spec.Rates.
From Verif Require Import Model.Projection Model.Bounds Proof.Bounds.
From Verif Require Import Proof.Algebra Proof.IpTheory Proof.Arnoldi Proof.Eigen Proof.Chebyshev.

Set Implicit Arguments.
Unset Strict Implicit.
Unset Printing Implicit Defensive.
Import Order.TTheory GRing.Theory Num.Theory.
Local Open Scope ring_scope.

Section Rates.
Variable C : numClosedFieldType.
Variable N : nat.
Local Notation vec := 'cV[C]_N.
Variables (ip : vec -> vec -> C) (A M : vec -> vec).
Hypothesis hip : is_ip ip.
Hypothesis hA : is_linear A.
Hypothesis hM : is_linear M.
Hypothesis Asa : self_adjoint ip A.
Hypothesis Msa : self_adjoint ip M.
Hypothesis Mpd : pos_def ip M.
Local Notation mp := (mip ip M).
Let hmp : is_ip mp := mip_is_ip hip hM Msa Mpd.
Let MA x := M (A x).

Lemma M_inj x : M x = 0 -> x = 0.
Proof.
move=> h; apply/eqP; apply: contraT => /Mpd.
by rewrite h (ipr0 hip) ltxx.
Qed.

Lemma M_onto y : exists x, M x = y.
Proof.
have [K hK] := lin_matrix hM.
have uK : K \in unitmx.
  rewrite -unitmx_tr -row_free_unit -kermx_eq0; apply/eqP/row_matrixP => i; rewrite row0.
  have : row i (kermx K^T) *m K^T = 0 by rewrite -row_mul mulmx_ker row0.
  move/(congr1 trmx); rewrite trmx_mul trmxK trmx0 -hK => /M_inj /(congr1 trmx).
  by rewrite trmxK trmx0.
by exists (invmx K *m y); rewrite hK mulmxA mulmxV // mul1mx.
Qed.

Lemma AM_sa : self_adjoint mp (fun x => A (M x)).
Proof. by move=> x y; rewrite /mip Asa Msa. Qed.

Section Basis.
Variables (v : nat -> vec) (d : nat -> C).
Hypothesis ov : orthonormal mp v N.
Hypothesis ev : forall j, (j < N)%N -> A (M (v j)) = d j *: v j.
Variables (p : {poly C}) (n : nat).
Hypothesis sp : (size p <= n.+1)%N.
Hypothesis p0 : p.[0] = 1.

Lemma eig_MA j : (j < N)%N -> eigenvalue_of MA (d j).
Proof.
move=> hj; exists (M (v j)); last by rewrite /MA ev // (linZ hM).
apply/negP => /eqP/M_inj h; have := ov hj hj.
by rewrite h (ipr0 hmp) eqxx => /esym/eqP; rewrite oner_eq0.
Qed.

Definition comb (w : nat -> vec) (c : nat -> C) := \sum_(j < N) c j *: w j.
Definition pz c := \sum_(i < n) (- p`_i.+1) *: krylov MA (M (comb v c)) i.

Lemma pz_in c : in_krylov A M (comb v c) n (pz c).
Proof. by exists (fun i => - p`_i.+1). Qed.

Lemma kryE c i : krylov MA (M (comb v c)) i = \sum_(j < N) (c j * d j ^+ i) *: M (v j).
Proof.
elim: i => [|i IH].
  by rewrite /krylov /= (lin_sum hM); apply: eq_bigr => j _; rewrite (linZ hM) mulr1.
rewrite [LHS]/(MA (krylov MA (M (comb v c)) i)) IH /MA (lin_sum hA) (lin_sum hM); apply: eq_bigr => j _.
by rewrite (linZ hA) (linZ hM) ev // (linZ hM) scalerA -mulrA -exprSr.
Qed.

Let pE x : p.[x] = 1 + \sum_(i < n) p`_i.+1 * x ^+ i.+1.
Proof.
rewrite (horner_coef_wide _ sp) big_ord_recl expr0 mulr1.
by rewrite -{1}p0 horner_coef0.
Qed.

Let sumE (w : nat -> vec) (c : nat -> C) :
  \sum_(i < n) (- p`_i.+1) *: (\sum_(j < N) (c j * d j ^+ i.+1) *: w j) = comb w (fun j => c j * (1 - p.[d j])).
Proof.
rewrite (eq_bigr (fun i : 'I_n => \sum_(j < N) (- p`_i.+1 * (c j * d j ^+ i.+1)) *: w j)) => [|i _]; last first.
  by rewrite scaler_sumr; apply: eq_bigr => j _; rewrite scalerA.
rewrite exchange_big; apply: eq_bigr => j _; rewrite -scaler_suml; congr (_ *: _).
rewrite pE opprD addrA subrr add0r mulrN big_distrr -sumrN; apply: eq_bigr => i _ /=.
by rewrite mulNr mulrCA.
Qed.

Let combB (w : nat -> vec) (c : nat -> C) : comb w c - comb w (fun j => c j * (1 - p.[d j])) = comb w (fun j => c j * p.[d j]).
Proof. by rewrite -sumrB; apply: eq_bigr => j _; rewrite -scalerBl mulrBr mulr1 opprB addrC subrK. Qed.

Lemma res_pz c : comb v c - A (pz c) = comb v (fun j => c j * p.[d j]).
Proof.
rewrite -combB -sumE (lin_sum hA); congr (_ - _); apply: eq_bigr => i _.
rewrite (linZ hA) kryE (lin_sum hA); congr (_ *: _); apply: eq_bigr => j _.
by rewrite (linZ hA) ev // scalerA -mulrA -exprSr.
Qed.

Lemma err_pz c : comb (fun j => M (v j)) c - pz (fun j => c j * d j) = comb (fun j => M (v j)) (fun j => c j * p.[d j]).
Proof.
rewrite -combB -sumE; congr (_ - _); apply: eq_bigr => i _.
by rewrite kryE; congr (_ *: _); apply: eq_bigr => j _; rewrite exprS mulrA.
Qed.
End Basis.

Lemma coef_le (x y b : C) : `|y| <= b -> (x * y)^* * (x * y) <= b ^+ 2 * (x^* * x).
Proof.
move=> h; rewrite -!normCK2 normrM exprMn mulrC ler_wpmul2r ?exprn_ge0 //.
by rewrite ler_expn2r ?nnegrE // (le_trans _ h).
Qed.

(** The residual norms *)
Lemma resid_rate (p : {poly C}) n b r : (size p <= n.+1)%N -> p.[0] = 1 ->
  (forall mu, eigenvalue_of MA mu -> `|p.[mu]| <= b) -> 0 <= b ->
  exists2 z, in_krylov A M r n z & mnorm ip M (r - A z) <= b * mnorm ip M r.
Proof.
move=> sp p0 hb b0; have lT : is_linear (fun x => A (M x)) by apply: lin_comp.
have [v [d [ov ev sv]]] := eigenbasis hmp lT AM_sa.
have ev' j : (j < N)%N -> A (M (v j)) = d j *: v j by move=> /ev[].
have [c ->] := sv r; exists (pz v p n c); first exact: pz_in.
rewrite -[X in X - _]/(comb v c) (res_pz ev' sp p0) -[X in _ <= _ * mnorm _ _ X]/(comb v c).
rewrite -(sqrCK b0) -sqrtCM ?nnegrE ?exprn_ge0 ?(ip_ge0' hmp) //.
rewrite ler_sqrtC ?nnegrE ?(mulr_ge0, exprn_ge0, ip_ge0' hmp) //.
rewrite -/(mp _ _) -/(mp (comb v c) _) !(ortho_ip hmp) // mulr_sumr; apply: ler_sum => j _.
apply: coef_le; apply: hb; exact: (eig_MA ov ev').
Qed.

(** The residual norms if 0 is an eigenvalue, for a right hand side in the range. *)
Lemma resid_rate0 (p : {poly C}) n b y : (size p <= n.+1)%N -> p.[0] = 1 ->
  (forall mu, eigenvalue_of MA mu -> mu != 0 -> `|p.[mu]| <= b) -> 0 <= b ->
  exists2 z, in_krylov A M (A y) n z & mnorm ip M (A y - A z) <= b * mnorm ip M (A y).
Proof.
move=> sp p0 hb b0; have lT : is_linear (fun x => A (M x)) by apply: lin_comp.
have [v [d [ov ev sv]]] := eigenbasis hmp lT AM_sa.
have ev' j : (j < N)%N -> A (M (v j)) = d j *: v j by move=> /ev[].
have [x <-] := M_onto y; have [c ->] := sv x.
have -> : A (M (\sum_(j < N) c j *: v j)) = comb v (fun j => c j * d j).
  rewrite (lin_sum hM) (lin_sum hA); apply: eq_bigr => j _.
  by rewrite (linZ hM) (linZ hA) ev' // scalerA.
exists (pz v p n (fun j => c j * d j)); first exact: pz_in.
rewrite (res_pz ev' sp p0).
rewrite -(sqrCK b0) -sqrtCM ?nnegrE ?exprn_ge0 ?(ip_ge0' hmp) //.
rewrite ler_sqrtC ?nnegrE ?(mulr_ge0, exprn_ge0, ip_ge0' hmp) //.
rewrite -/(mp _ _) -/(mp (comb v _) _) !(ortho_ip hmp) // mulr_sumr; apply: ler_sum => j _.
have [e|dn] := eqVneq (d j) 0; first by rewrite e !(mulr0, mul0r).
apply: coef_le; apply: hb => //; exact: (eig_MA ov ev').
Qed.

(** The energy norms of the errors; 0 may be an eigenvalue. *)
Lemma energy_rate (p : {poly C}) n b y : (forall x, 0 <= ip x (A x)) -> (size p <= n.+1)%N -> p.[0] = 1 ->
  (forall mu, eigenvalue_of MA mu -> 0 < mu -> `|p.[mu]| <= b) ->
  exists2 z, in_krylov A M (A y) n z & ip (y - z) (A (y - z)) <= b ^+ 2 * ip y (A y).
Proof.
move=> Apos sp p0 hb; have lT : is_linear (fun x => A (M x)) by apply: lin_comp.
have [v [d [ov ev sv]]] := eigenbasis hmp lT AM_sa.
have ev' j : (j < N)%N -> A (M (v j)) = d j *: v j by move=> /ev[].
have [x <-] := M_onto y; have [c ->] := sv x.
have cM a : M (comb v a) = comb (fun j => M (v j)) a.
  by rewrite (lin_sum hM); apply: eq_bigr => j _; rewrite (linZ hM).
have cA a : A (comb (fun j => M (v j)) a) = comb v (fun j => a j * d j).
  by rewrite (lin_sum hA); apply: eq_bigr => j _; rewrite (linZ hA) ev' // scalerA.
have en a : ip (comb (fun j => M (v j)) a) (A (comb (fun j => M (v j)) a)) = \sum_(j < N) (a j)^* * (a j * d j).
  by rewrite cA -cM Msa -[LHS]/(mp _ _) (ortho_ip hmp).
have d0 j : (j < N)%N -> 0 <= d j.
  move=> hj; have := Apos (M (v j)); rewrite ev' // (ipZr hip) Msa -/(mp _ _) ov // eqxx mulr1.
  by [].
rewrite -/(comb v c) cM; exists (pz v p n (fun j => c j * d j)); first by rewrite cA; apply: pz_in.
rewrite (err_pz ev' sp p0) !en mulr_sumr; apply: ler_sum => j _.
have [e|dn] := eqVneq (d j) 0; first by rewrite e !mulr0.
rewrite [X in X <= _]mulrA [X in b ^+ 2 * X]mulrA [X in _ <= X]mulrA ler_wpmul2r ?d0 //; apply: coef_le; apply: hb; first exact: (eig_MA ov ev').
by rewrite lt_def dn d0.
Qed.

Lemma eig_psd mu : (forall x, 0 <= ip x (A x)) -> eigenvalue_of MA mu -> mu != 0 -> 0 < mu.
Proof.
move=> Apos [w w0 hw] mun; have [x hx] := M_onto w.
have x0 : x != 0 by apply: contraNneq w0 => e; rewrite -hx e (lin0 hM).
have h : A w = mu *: x.
  apply/eqP; rewrite -subr_eq0; apply/eqP; apply: M_inj.
  by rewrite (linB hM) (linZ hM) hx -/(MA w) hw subrr.
by rewrite lt_def mun; have := Apos w; rewrite h (ipZr hip) -{1}hx Msa pmulr_lge0 //; exact: Mpd.
Qed.

Lemma eig_pos mu : pos_def ip A -> eigenvalue_of MA mu -> 0 < mu.
Proof.
move=> Apd [w w0 hw]; have [x hx] := M_onto w.
have x0 : x != 0 by apply: contraNneq w0 => e; rewrite -hx e (lin0 hM).
have h : A w = mu *: x.
  apply/eqP; rewrite -subr_eq0; apply/eqP; apply: M_inj.
  by rewrite (linB hM) (linZ hM) hx -/(MA w) hw subrr.
have := Apd _ w0; rewrite h (ipZr hip) -{1}hx Msa pmulr_lgt0 //; exact: Mpd.
Qed.
End Rates.

(** The bounds of Model/Bounds.v and the polynomials of Proof/Chebyshev.v *)
Section Poly.
Variable C : numClosedFieldType.
Local Notation eps := (eps15 C).
Local Notation isreal := (fun x : C => x \is Num.real).

Lemma bound_cg_inv (s : seq C) ez base : bound_cg (EList s) ez = Ok base ->
  all isreal s /\ exists2 l, greatest s l &
    (l < 0 /\ base = 0) \/
    exists m, [/\ 0 < l, 0 < m, least [seq x <- s | eps * l < x] m, ez \/ forall x, x \in s -> eps * l < x
      & base = (sqrtC (l / m) - 1) / (sqrtC (l / m) + 1)].
Proof.
move=> E; have rs : all isreal s.
  by apply: contraT => h; move: E; rewrite /bound_cg /=; case: ifP => // _; rewrite h.
have ns : s != [::] by apply/eqP => e; move: E; rewrite e.
split=> //; have [l hl] := has_greatest rs ns; exists l => //.
have lr : l \is Num.real by apply: (allP rs); exact: hl.1.
have [l0|l0|l0] := real_ltgt0P lr; last by move: E; rewrite l0 in hl; rewrite bound_cg0.
- right; have e1 : eps * l < l by rewrite -[X in _ < X]mul1r ltr_pmul2r // eps_lt1.
  have pf : [seq x <- s | eps * l < x] != [::].
    have h : l \in [seq x <- s | eps * l < x] by rewrite mem_filter e1 hl.1.
    by apply: contraTneq h => ->.
  have [m hm] := has_least (all_filter_sub _ rs) pf; exists m.
  have [m' hm'] := has_least rs ns; move: E; rewrite (bound_cgE ez rs hl l0 hm' hm).
  case: ifP => // h1; case: ifP => // _ [<-].
  have m0 : 0 < m.
    by have := hm.1; rewrite mem_filter => /andP[h _]; apply: lt_trans h; rewrite mulr_gt0 ?eps_gt0.
  split=> //; case: (ez) h1 => //= [_|/negbFE h1]; [by left|right=> x hx].
  by apply: lt_le_trans h1 _; apply: hm'.2.
- by left; split=> //; move: E; rewrite (bound_cg_neg ez rs hl l0) => -[].
Qed.

Lemma poly_cg (s : seq C) ez base n : bound_cg (EList s) ez = Ok base ->
  exists p : {poly C}, [/\ (size p <= n.+1)%N, p.[0] = 1 & forall mu, 0 < mu ->
    (forall l, greatest s l -> between [seq x <- s | eps * l < x] mu) -> `|p.[mu]| <= cg_eval_step base n].
Proof.
move=> /bound_cg_inv[rs [l hl [[l0 _]|[m [l0 m0 hm _ ->]]]]].
  exists 1; rewrite size_poly1 hornerC; split=> // mu mu0 /(_ l hl)[x [y [_ hy _ h]]].
  move: hy; rewrite mem_filter => /andP[_ /hl.2 h1].
  by have := lt_le_trans mu0 (le_trans h h1); rewrite (lt_gtF l0).
have lm : m <= l by apply: hl.2; have := hm.1; rewrite mem_filter => /andP[].
have [p [h1 h2 h3]] := cheb_interval n m0 lm; exists p; split=> // mu mu0 /(_ l hl)[x [y [hx hy xm my]]].
apply: h3; first by apply: le_trans xm; apply: hm.2.
by apply: (le_trans my); apply: hl.2; move: hy; rewrite mem_filter => /andP[].
Qed.

Lemma between_all (s : seq C) base l mu : bound_cg (EList s) false = Ok base -> 0 < mu -> greatest s l ->
  between s mu -> between [seq x <- s | eps * l < x] mu.
Proof.
move=> /bound_cg_inv[rs [l' hl' h]] mu0 hl [x [y [hx hy xm my]]].
have el := greatest_uniq hl hl'; case: h => [[l0 _]|[m [l0 m0 hm [//|h] _]]].
  by have := lt_le_trans mu0 (le_trans my (hl'.2 _ hy)); rewrite (lt_gtF l0).
by exists x, y; rewrite !mem_filter el !h.
Qed.

Lemma minres_init_inv (s : seq C) base : minres_init (EList s) = Ok base ->
  all isreal s /\ exists mx, [/\ greatest [seq `|x| | x <- s] mx, 0 < mx &
    exists l1 ls lt lN, [/\ least [seq x <- s | x < - eps * mx] l1, greatest [seq x <- s | x < - eps * mx] ls,
      least [seq x <- s | eps * mx < x] lt, greatest [seq x <- s | eps * mx < x] lN
    & base = (sqrtC `|l1 * lN| - sqrtC `|ls * lt|) / (sqrtC `|l1 * lN| + sqrtC `|ls * lt|)]].
Proof.
move=> E; have rs : all isreal s.
  by apply: contraT => h; move: E; rewrite /minres_init /=; case: ifP => // _; rewrite h.
have ns : s != [::] by apply/eqP => e; move: E; rewrite e.
split=> //; have ra : all isreal [seq `|x| | x <- s] by rewrite all_map; apply/allP => y _; exact: normr_real.
have [|mx hmx] := has_greatest ra; first by case: (s) ns.
have mx0 : 0 <= mx by have /mapP[y _ ->] := hmx.1; exact: normr_ge0.
have [z|mxn] := eqVneq mx 0.
  exfalso; move: E; rewrite /minres_init /= size_eq0 (negbTE ns) rs /=.
  rewrite (@np_maxP _ [seq `|x| | x <- sort _ s] mx) /=; last 2 first.
  - by rewrite all_map; apply/allP => x _ /=; exact: normr_real.
  - by apply: greatest_eqi hmx => x; apply/mapP/mapP => -[y hy ->]; exists y; rewrite // ?mem_sort // -(mem_sort <=%R).
  rewrite z [in X in pmap id X](_ : [seq _ <- _ | ltO _ _] = [::]) //.
  elim: (sort _ s) => //= a t ->; by rewrite /ndiv eqxx.
have {mxn} mx0 : 0 < mx by rewrite lt_def mxn.
have fs (p : pred C) : [seq x <- s | p x] = [::] -> [seq x <- sort <=%R s | p x] = [::].
  by move=> h; apply/perm_nilP; rewrite -h; apply: perm_filter; rewrite perm_sort.
have ne (p : pred C) : [seq x <- s | p x] != [::] -> (exists m, least [seq x <- s | p x] m) /\ exists m, greatest [seq x <- s | p x] m.
  by move=> h; split; [apply: has_least|apply: has_greatest] => //; apply: all_filter_sub.
exists mx; split=> //; move: (E); rewrite (minres_initE rs hmx mx0).
case E1: (np_minC _) => [a1|] //=; case E2: (np_maxC _) => [a2|] //=.
case E3: (np_minC _) => [a3|] //=; case E4: (np_maxC _) => [a4|] //= _.
have [|[l1 h1] [ls hs]] := ne (fun x => x < - eps * mx).
  apply/eqP => h; move: E1; have -> // : [seq x <- sort <=%R s | x < - eps * mx] = [::].
  by apply: fs.
have [|[lt ht] [lN hN]] := ne (fun x => eps * mx < x).
  apply/eqP => h; move: E3; have -> // : [seq x <- sort <=%R s | eps * mx < x] = [::].
  by apply: fs.
exists l1, ls, lt, lN; split=> //; move: E.
by rewrite (minres_init_val rs hmx mx0 h1 hs ht hN) => -[].
Qed.

Lemma poly_minres (s : seq C) base n : minres_init (EList s) = Ok base ->
  (forall x y, x \in s -> y \in s -> eps * `|y| < `|x|) ->
  (forall l1 ls lt lN, least [seq x <- s | x < 0] l1 -> greatest [seq x <- s | x < 0] ls ->
     least [seq x <- s | 0 < x] lt -> greatest [seq x <- s | 0 < x] lN -> lN - lt = ls - l1) ->
  exists p : {poly C}, [/\ (size p <= n.+1)%N, p.[0] = 1 & forall mu,
    between [seq x <- s | x < 0] mu \/ between [seq x <- s | 0 < x] mu -> `|p.[mu]| <= minres_eval_step base n].
Proof.
move=> /minres_init_inv[rs [mx [hmx mx0 [l1 [ls [lt [lN [h1 hs ht hN ->]]]]]]]] ns heq.
have e0 : 0 < eps * mx by rewrite mulr_gt0 ?eps_gt0.
have big x : x \in s -> eps * mx < `|x| by move=> hx; have /mapP[y hy ->] := hmx.1; apply: ns.
have en : [seq x <- s | x < - eps * mx] = [seq x <- s | x < 0].
  apply: eq_in_filter => x hx; apply/idP/idP => [h|h]; first by apply: lt_trans h _; rewrite mulNr oppr_lt0.
  by have := big x hx; rewrite ltr0_norm // mulNr ltr_oppr.
have ep : [seq x <- s | eps * mx < x] = [seq x <- s | 0 < x].
  apply: eq_in_filter => x hx; apply/idP/idP => [h|h]; first by apply: lt_trans h.
  by have := big x hx; rewrite gtr0_norm.
rewrite en in h1 hs; rewrite ep in ht hN.
have ls0 : ls < 0 by have := hs.1; rewrite mem_filter => /andP[].
have lt0 : 0 < lt by have := ht.1; rewrite mem_filter => /andP[].
have [||p [k1 k2 k3]] := cheb_intervals n _ ls0 lt0 _ (heq _ _ _ _ h1 hs ht hN).
- by apply: h1.2; exact: hs.1.
- by apply: ht.2; exact: hN.1.
exists p; split=> // mu h; apply: k3; apply/orP; case: h => [] [x [y [hx hy xm my]]]; [left|right].
  by rewrite (le_trans _ xm) ?(le_trans my) //; [apply: hs.2|apply: h1.2].
by rewrite (le_trans _ xm) ?(le_trans my) //; [apply: hN.2|apply: ht.2].
Qed.
Lemma cg_eval_ge0 (s : seq C) ez base n : bound_cg (EList s) ez = Ok base -> 0 <= cg_eval_step base n.
Proof.
move=> /bound_cg_inv[rs [l hl [[_ ->]|[m [l0 m0 hm _ ->]]]]]; rewrite /cg_eval_step mulr_ge0 ?ler0n // exprn_ge0 //.
have lm : m <= l by apply: hl.2; have := hm.1; rewrite mem_filter => /andP[].
have h1 : 1 <= sqrtC (l / m).
  by rewrite -[X in X <= _]sqrtC1 ler_sqrtC ?nnegrE ?ler01 ?divr_ge0 ?(ltW l0) ?(ltW m0) // ler_pdivl_mulr // mul1r.
by rewrite divr_ge0 ?subr_ge0 // addr_ge0 ?ler01 // (le_trans ler01).
Qed.

Lemma minres_eval_ge0 (s : seq C) base n : minres_init (EList s) = Ok base -> 0 <= minres_eval_step base n.
Proof.
move=> /minres_init_inv[rs [mx [hmx mx0 [l1 [ls [lt [lN [h1 hs ht hN ->]]]]]]]].
rewrite /minres_eval_step mulr_ge0 ?ler0n // exprn_ge0 //.
have e0 : 0 < eps * mx by rewrite mulr_gt0 ?eps_gt0.
have neg y : y \in [seq x <- s | x < - eps * mx] -> y < 0.
  by rewrite mem_filter => /andP[h _]; apply: lt_trans h _; rewrite mulNr oppr_lt0.
have pos y : y \in [seq x <- s | eps * mx < x] -> 0 < y.
  by rewrite mem_filter => /andP[h _]; apply: lt_trans h.
have [[[n1 n2] n3] n4] := (neg _ h1.1, neg _ hs.1, pos _ ht.1, pos _ hN.1).
apply: divr_ge0; last by rewrite addr_ge0 ?sqrtC_ge0 ?normr_ge0.
rewrite subr_ge0 ler_sqrtC ?nnegrE ?normr_ge0 // !normrM.
rewrite ler_pmul ?normr_ge0 // ?(ltr0_norm n1) ?(ltr0_norm n2) ?(gtr0_norm n3) ?(gtr0_norm n4).
  by rewrite ler_opp2; apply: h1.2; exact: hs.1.
by apply: ht.2; exact: hN.1.
Qed.

Lemma bminres_cg (s : seq C) base : bound_minres (EList s) = Ok (BCg base) -> bound_cg (EList s) false = Ok base.
Proof.
rewrite /bound_minres; case: all => /=; first by case: bound_cg => //= b [->].
by case: minres_init.
Qed.

Lemma bminres_mr (s : seq C) base : bound_minres (EList s) = Ok (BMinres base) -> minres_init (EList s) = Ok base.
Proof.
rewrite /bound_minres; case: all => /=; first by case: bound_cg.
by case: minres_init => //= b [->].
Qed.
End Poly.
