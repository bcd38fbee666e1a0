From mathcomp Require Import all_ssreflect all_algebra.
From mathcomp Require Import ring.
From Verif Require Import Base Spec.LinAlg Proof.Algebra Model.Inner Spec.Inner.

Set Implicit Arguments.
Unset Strict Implicit.
Unset Printing Implicit Defensive.
Import Order.TTheory GRing.Theory Num.Theory.
Local Open Scope ring_scope.

Section House.
Variable C : numClosedFieldType.

Lemma tconjE m n (X : 'M[C]_(m, n)) : tconj X = X^h.
Proof. by []. Qed.

Lemma set0E n (x : 'cV[C]_n.+1) a i : set0 x a i 0 = if i == 0 then a else x i 0.
Proof. by rewrite mxE. Qed.

Lemma split0 n (F : 'I_n.+1 -> C) : \sum_i F i = F 0 + \sum_(i | i != 0) F i.
Proof. by rewrite (bigD1 0). Qed.

Definition tailn n (x : 'cV[C]_n.+1) : C := \sum_(i | i != 0) `|x i 0| ^+ 2.

Lemma tail_set0 n (x : 'cV[C]_n.+1) a : tailn (set0 x a) = tailn x.
Proof. by apply: eq_bigr => i /negbTE h; rewrite set0E h. Qed.

Lemma tail_ge0 n (x : 'cV[C]_n.+1) : 0 <= tailn x.
Proof. by apply: sumr_ge0 => i _; rewrite exprn_ge0. Qed.

Lemma gram_tail n (x : 'cV[C]_n.+1) : (x^h *m x) 0 0 = `|x 0 0| ^+ 2 + tailn x.
Proof. by rewrite gramE split0. Qed.

Lemma gram_set0 n (x : 'cV[C]_n.+1) a : ((set0 x a)^h *m x) 0 0 = a^* * x 0 0 + tailn x.
Proof.
rewrite mxE split0 ctrE set0E eqxx; congr (_ + _).
by apply: eq_bigr => i /negbTE h; rewrite ctrE set0E h normCK2.
Qed.

Lemma tail_eq0 n (x : 'cV[C]_n.+1) : tailn x = 0 -> x = x 0 0 *: delta_mx 0 0.
Proof.
move=> h; apply/matrixP=> i j; rewrite !mxE !ord1 eqxx andbT.
case: eqP => [->|/eqP ne]; first by rewrite mulr1.
rewrite mulr0; have/allP/(_ i (mem_index_enum _)) : all (fun i : 'I_n.+1 => (i != 0) ==> (`|x i 0| ^+ 2 == 0)) (index_enum _).
  by rewrite -psumr_eq0 => [|k _]; [rewrite -/(tailn x) h|rewrite exprn_ge0].
by rewrite ne /= expf_eq0 /= normr_eq0 => /eqP.
Qed.

(** The reflector I - 2 v v^* for a unit vector v *)
Lemma reflector_prop n (v : 'cV[C]_n) (b : C) :
  b = 0 \/ (b = 2%:R /\ (v^h *m v) 0 0 = 1) ->
  let H := 1%:M - b *: (v *m v^h) in H^h = H /\ H *m H = 1%:M.
Proof.
move=> hb; rewrite /=; set P := v *m v^h.
have Ph : P^h = P by rewrite /P ctrM ctrK.
have bc : b^* = b by case: hb => [->|[-> _]]; rewrite ?rmorph0 ?rmorph_nat.
split; first by rewrite ctrB ctr1 ctrZ Ph bc.
case: hb => [->|[-> v1]]; first by rewrite scale0r subr0 mulmx1.
have PP : P *m P = P.
  rewrite /P mulmxA -[v *m _ *m v]mulmxA [v^h *m v]mx11E v1.
  by rewrite mulmx1.
rewrite mulmxBl mul1mx mulmxBr mulmx1 -scalemxAl -scalemxAr PP.
rewrite scalerA opprB; apply/matrixP=> i j; rewrite !mxE; ring.
Qed.

Lemma two_neq0 : (2%:R : C) != 0. Proof. by rewrite pnatr_eq0. Qed.

(** What mk_house computes, branch by branch. *)
Lemma mk_house_spec n (x : 'cV[C]_n.+1) : let h := mk_house x in
  [/\ `|halpha h| = 1, hxnorm h = sqrtC ((x^h *m x) 0 0),
      hbeta h = 0 \/ (hbeta h = 2%:R /\ ((hv h)^h *m hv h) 0 0 = 1)
    & house_matrix h *m x = (halpha h * hxnorm h) *: delta_mx 0 0].
Proof.
rewrite /mk_house; set g := x 0 0.
have unit_norm : `|(if g == 0 then 1 else g / `|g|)| = 1.
  case: eqP => [_|/eqP g0]; first exact: normr1.
  by rewrite normrM normfV normr_id mulfV // normr_eq0.
have easy : tailn x = 0 -> [/\ `|g| = sqrtC ((x^h *m x) 0 0)
    & x = ((if g == 0 then 1 else g / `|g|) * `|g|) *: delta_mx 0 0].
  move=> t0; rewrite gram_tail t0 addr0 -/g sqrCK //; split=> //.
  rewrite {1}(tail_eq0 t0) -/g; congr (_ *: _); case: eqP => [->|/eqP g0].
    by rewrite normr0 mulr0.
  by rewrite divfK // normr_eq0.
case: ifP => [/eqP n1|n1].
  have t0 : tailn x = 0.
    rewrite /tailn big1 // => i; case: i => -[|k] hk //.
    by exfalso; move: (hk); rewrite n1.
  have [e1 e2] := easy t0; split=> //=; first by left.
  by rewrite /house_matrix /= scale0r subr0 mul1mx.
rewrite -/(tailn (set0 x 1)) tail_set0; set s := sqrtC (tailn x).
have s2 : s ^+ 2 = tailn x by rewrite sqrtC_sq.
have s_ge0 : 0 <= s by rewrite sqrtC_ge0 tail_ge0.
case: eqP => [s0|/eqP s0].
  have t0 : tailn x = 0 by rewrite -s2 s0 expr0n.
  have [e1 e2] := easy t0; split=> //=; first by left.
  by rewrite /house_matrix /= scale0r subr0 mul1mx.
have s_gt0 : 0 < s by rewrite lt_def s0.
set xi := sqrtC (`|g| ^+ 2 + s ^+ 2).
have xi2 : xi ^+ 2 = `|g| ^+ 2 + s ^+ 2 by rewrite sqrtC_sq.
have xi_ge0 : 0 <= xi by rewrite sqrtC_ge0 addr_ge0 ?exprn_ge0.
have xi_gt0 : 0 < xi.
  rewrite lt_def xi_ge0 andbT; apply/eqP => xi0.
  have : 0 < xi ^+ 2 by rewrite xi2 ltr_paddl ?exprn_ge0 ?exprn_gt0.
  by rewrite xi0 expr0n ltxx.
have xiE : xi = sqrtC ((x^h *m x) 0 0) by rewrite gram_tail -s2.
(* both remaining branches: a vector w with w^* x = q, |w|^2 = 2 q *)
have main (a : C) (q al : C) : q != 0 -> a^* * g + s ^+ 2 = q -> `|a| ^+ 2 + s ^+ 2 = 2%:R * q ->
   g - a = al * xi -> 0 <= q ->
   let w := set0 (set0 x 1) a in
   let v := (sqrtC (`|w 0 0| ^+ 2 + s ^+ 2))^-1 *: w in
   (v^h *m v) 0 0 = 1 /\ (1%:M - 2%:R *: (v *m v^h)) *m x = (al * xi) *: delta_mx 0 0.
  move=> q0 h1 h2 h3 qge0 w; rewrite set0E eqxx h2; set t := sqrtC _ => v.
  have w2 : (w^h *m w) 0 0 = 2%:R * q by rewrite gram_tail !tail_set0 set0E eqxx -s2 h2.
  have wx : (w^h *m x) 0 0 = q.
    rewrite (_ : w = set0 x a); last by apply/matrixP=> i j; rewrite !mxE; case: eqP.
    by rewrite gram_set0 -s2 -/g h1.
  have t2 : t ^+ 2 = 2%:R * q by rewrite sqrtC_sq.
  have t0 : t != 0.
    by apply/eqP=> e; move/eqP: t2; rewrite e expr0n eq_sym mulf_eq0 (negbTE two_neq0) (negbTE q0).
  have tc : t^* = t by apply: ge0_conj; rewrite sqrtC_ge0 mulr_ge0 // ler0n.
  have vv : v *m v^h = (2%:R * q)^-1 *: (w *m w^h).
    by rewrite /v ctrZ -scalemxAl -scalemxAr scalerA fmorphV tc -invfM -expr2 t2.
  split.
    rewrite /v ctrZ -scalemxAl -scalemxAr scalerA mxE w2 fmorphV tc -invfM -expr2 t2.
    by rewrite mulVf // mulf_neq0 ?two_neq0.
  rewrite vv mulmxBl mul1mx -!scalemxAl scalerA -mulmxA mul_col_mx11 wx scalerA.
  rewrite invfM mulrA mulfV ?two_neq0 // mul1r mulVf // scale1r.
  apply/matrixP=> i j; rewrite !mxE !ord1 eqxx andbT; case: eqP => [->|ne].
    by rewrite mulr1 -h3.
  by rewrite mulr0 subrr.
have s20 : s ^+ 2 != 0 by rewrite expf_eq0 s0.
have sc : s^* = s by apply: ge0_conj.
have hs : (- s)^* * 0 + s ^+ 2 = s ^+ 2 by rewrite mulr0 add0r.
have hs2 : `|- s| ^+ 2 + s ^+ 2 = 2%:R * s ^+ 2 by rewrite normrN ger0_norm //; ring.
case: eqP => [g0|/eqP g0].
  have xs : xi = s.
    by rewrite /xi g0 normr0 expr0n /= add0r sqrCK.
  have [] := main (- s) (s ^+ 2) 1 s20 _ hs2 _ (ltW (exprn_gt0 _ s_gt0)).
  - by rewrite g0.
  - by rewrite g0 xs opprK add0r mul1r.
  by move=> v1 v2; split=> //=; [rewrite normr1|right].
set u := g / `|g|.
have ng0 : `|g| != 0 by rewrite normr_eq0.
have gE : g = u * `|g| by rewrite /u divfK.
have u1 : u^* * u = 1.
  by rewrite -normCK2 /u normrM normfV normr_id mulfV // expr1n.
have q0 : xi * (xi + `|g|) != 0.
  by rewrite mulf_neq0 // gt_eqF // ltr_paddr.
have gc : `|g|^* = `|g| by apply: norm_real.
have xc : xi^* = xi by apply: ge0_conj.
have aE : g + u * xi = u * (`|g| + xi) by rewrite mulrDr -gE.
have [] := main (g + u * xi) (xi * (xi + `|g|)) (- u) q0.
- rewrite aE rmorphM rmorphD /= gc xc {2}gE.
  rewrite (_ : u^* * _ * _ = (u^* * u) * ((`|g| + xi) * `|g|)); last by ring.
  by rewrite u1 (_ : s ^+ 2 = xi ^+ 2 - `|g| ^+ 2); [ring|rewrite xi2; ring].
- rewrite aE normrM exprMn [`|u| ^+ 2]normCK2 u1 [`|_ + _|]ger0_norm ?addr_ge0 //.
  by rewrite (_ : s ^+ 2 = xi ^+ 2 - `|g| ^+ 2); [ring|rewrite xi2; ring].
- by rewrite opprD addrA subrr add0r mulNr.
- by rewrite mulr_ge0 ?addr_ge0.
move=> v1 v2; split=> //=; last 2 first.
- by right.
- by rewrite mulNr -/u.
by rewrite mulNr normrN normrM normfV normr_id mulfV.
Qed.

Lemma house_applyE n (x : 'cV[C]_n.+1) k (y : 'M[C]_(n.+1, k)) :
  house_apply (mk_house x) y = house_matrix (mk_house x) *m y.
Proof.
rewrite /house_apply /house_matrix; case: eqP => [->|_].
  by rewrite scale0r subr0 mul1mx.
by rewrite mulmxBl mul1mx -scalemxAl mulmxA.
Qed.

Lemma house_unitary n (x : 'cV[C]_n.+1) : let H := house_matrix (mk_house x) in
  H^h = H /\ H *m H = 1%:M.
Proof. by have [_ _ hb _] := mk_house_spec x; apply: reflector_prop. Qed.
End House.

Section Givens.
Variable C : numClosedFieldType.
Implicit Types a b c s : C.

Definition rot_ok a b (cs : C * C) :=
  [/\ cs.1^* = cs.1, cs.1 ^+ 2 + cs.2^* * cs.2 = 1 & - cs.2^* * a + cs.1 * b = 0].

Lemma sgnz2 (x : C) : sgnz x ^+ 2 = 1.
Proof. by rewrite /sgnz; case: ifP => _; rewrite ?expr1n // sqrrN expr1n. Qed.

Lemma scale_norm a b : let sc := `|a| + `|b| in sc != 0 ->
  (sc * sqrtC (`|a / sc| ^+ 2 + `|b / sc| ^+ 2)) ^+ 2 = `|a| ^+ 2 + `|b| ^+ 2.
Proof.
move=> sc sc0; rewrite exprMn sqrtC_sq !normrM !normfV !exprMn.
have -> : `|sc| = sc by apply: ger0_norm; rewrite addr_ge0.
by rewrite exprVn -mulrDl mulrCA mulfV ?mulr1 // expf_eq0 (negbTE sc0).
Qed.

Lemma norm_sum_neq0 a b : (`|a| + `|b| == 0) = (a == 0) && (b == 0).
Proof. by rewrite paddr_eq0 // !normr_eq0. Qed.

Lemma drotg_ok a b : a \is Num.real -> b \is Num.real -> rot_ok a b (drotg a b).
Proof.
move=> ra rb; have ca := CrealP ra; have cb := CrealP rb.
rewrite /drotg; case: eqP => [/eqP|/eqP sc0].
  rewrite norm_sum_neq0 => /andP[/eqP-> /eqP->]; split=> /=; rewrite ?rmorph1 //.
    by rewrite mulr0 addr0 expr1n.
  by rewrite !mulr0 addr0.
set r := sgnz _ * _.
have r2 : r ^+ 2 = a ^+ 2 + b ^+ 2.
  rewrite /r exprMn sgnz2 mul1r.
  have rs : `|a| + `|b| \is Num.real by rewrite realD ?normr_real.
  have := scale_norm sc0; rewrite !real_normK ?rpredM ?rpredV //.
have r0 : r != 0.
  apply/eqP=> e; move/eqP: r2; rewrite e expr0n /= eq_sym paddr_eq0 ?real_exprn_even_ge0 //.
  by rewrite !expf_eq0 /= -norm_sum_neq0 (negbTE sc0).
have rc : r^* = r.
  rewrite /r !rmorphM /= rmorphD /= !norm_real.
  have -> : (sgnz (if `|b| < `|a| then a else b))^* = sgnz (if `|b| < `|a| then a else b).
    by rewrite /sgnz; case: (_ < 0); rewrite ?rmorphN rmorph1.
  congr (_ * (_ * _)); apply: ge0_conj; rewrite sqrtC_ge0 addr_ge0 //;
  by apply: real_exprn_even_ge0; rewrite ?rpredM ?rpredV ?realD ?normr_real.
split=> /=.
- by rewrite rmorphM fmorphV /= ca rc.
- rewrite rmorphM fmorphV /= cb rc; apply: (mulIf (expf_neq0 2 r0)).
  by rewrite mul1r [RHS]r2; field.
- by rewrite rmorphM fmorphV /= cb rc; field.
Qed.

Lemma zrotg_ok a b : rot_ok a b (zrotg a b).
Proof.
rewrite /zrotg; case: eqP => [/eqP|/eqP na0].
  rewrite normr_eq0 => /eqP->; split=> /=; rewrite ?rmorph0 ?rmorph1 //; ring.
have sc0 : `|a| + `|b| != 0 by rewrite paddr_eq0 // negb_and na0.
set r := (`|a| + `|b|) * _; set u := a / `|a|.
have r2 : r ^+ 2 = `|a| ^+ 2 + `|b| ^+ 2 by apply: scale_norm.
have r0 : r != 0.
  apply/eqP=> e; move/eqP: r2; rewrite e expr0n /= eq_sym paddr_eq0 ?exprn_ge0 //.
  by rewrite !expf_eq0 /= (negbTE na0).
have rc : r^* = r by apply: ge0_conj; rewrite mulr_ge0 ?addr_ge0 // sqrtC_ge0 addr_ge0 ?exprn_ge0.
have u1 : u^* * u = 1 by rewrite -normCK2 /u normrM normfV normr_id mulfV // expr1n.
have aE : a = u * `|a| by rewrite /u divfK.
clearbody u r; split=> /=.
- by rewrite rmorphM fmorphV /= norm_real rc.
- rewrite !rmorphM [(r^-1)^*]fmorphV /= conjCK rc; apply: (mulIf (expf_neq0 2 r0)).
  rewrite mul1r [RHS]r2 [LHS](_ : _ = `|a| ^+ 2 + (u^* * u) * (b^* * b)); last by field.
  by rewrite u1 mul1r -normCK2.
- rewrite !rmorphM [(r^-1)^*]fmorphV /= conjCK rc [in X in X + _]aE.
  rewrite [LHS](_ : _ = (1 - u^* * u) * (`|a| * b / r)); last by field.
  by rewrite u1 subrr mul0r.
Qed.

Lemma mk_givens_ok a b : let g := mk_givens a b in
  [/\ (gc g)^* = gc g, gc g ^+ 2 + (gs g)^* * gs g = 1,
      - (gs g)^* * a + gc g * b = 0 & gr g = gc g * a + gs g * b].
Proof.
have H : rot_ok a b (if (a \is Num.real) && (b \is Num.real) then drotg a b else zrotg a b).
  by case: ifP => [/andP[ra rb]|_]; [exact: drotg_ok|exact: zrotg_ok].
by rewrite /mk_givens; case: (if _ then _ else _) H => c s [].
Qed.

(** Rotations preserve the norm of pairs. *)
Lemma givens_apply_norm (g : givens C) u w :
  (gc g)^* = gc g -> gc g ^+ 2 + (gs g)^* * gs g = 1 ->
  `|(givens_apply g u w).1| ^+ 2 + `|(givens_apply g u w).2| ^+ 2 = `|u| ^+ 2 + `|w| ^+ 2.
Proof.
move=> cc h; rewrite /= !normCK2 !rmorphD !rmorphM !rmorphN /= conjCK cc.
rewrite [LHS](_ : _ = (gc g ^+ 2 + (gs g)^* * gs g) * (u^* * u + w^* * w)); last by ring.
by rewrite h mul1r.
Qed.

Lemma givens_r_norm a b : `|gr (mk_givens a b)| ^+ 2 = `|a| ^+ 2 + `|b| ^+ 2.
Proof.
have [h1 h2 h3 h4] := mk_givens_ok a b; rewrite -(givens_apply_norm a b h1 h2) /= h3 h4.
by rewrite normr0 expr0n addr0.
Qed.

Lemma givens_matrix_unitary a b : let G := givens_matrix (mk_givens a b) in G^h *m G = 1%:M.
Proof.
have [h1 h2 _ _] := mk_givens_ok a b; move=> G; apply/matrixP=> i j.
rewrite !mxE !big_ord_recl big_ord0 !ctrE !mxE addr0.
case: i => -[|[|//]] hi; case: j => -[|[|//]] hj /=; rewrite ?rmorphN /= ?conjCK h1.
- by rewrite mulNr mulrN opprK -expr2 [_ * (gs _)^*]mulrC h2.
- by rewrite mulNr [gs _ * _]mulrC subrr.
- by rewrite mulrN [(gs _)^* * _]mulrC subrr.
- by rewrite addrC -expr2 h2.
Qed.

Lemma givens_matrix_apply (g : givens C) u w :
  givens_matrix g *m (\col_i (if i == 0 then u else w)) =
  \col_i (if i == 0 then (givens_apply g u w).1 else (givens_apply g u w).2).
Proof.
apply/matrixP=> i j; rewrite !mxE !big_ord_recl big_ord0 !mxE addr0 /=.
by case: i => -[|[|//]] hi.
Qed.
End Givens.

Section Inner.
Variable C : numClosedFieldType.
Variable N : nat.
Implicit Types (B : ipB C N).

Lemma innerOp (B : 'M[C]_N) m n (X : 'M[C]_(N, m)) (Y : 'M[C]_(N, n)) : B^h = B ->
  inner (IpOp B) X Y = X^h *m B *m Y.
Proof.
move=> hB; rewrite /inner; case: ifP => _; rewrite !tconjE ?ctrM ?hB //.
by rewrite mulmxA.
Qed.

Lemma mulmx_entry m n p (A : 'M[C]_(m, n)) (B : 'M[C]_(n, p)) i j :
  (A *m B) i j = (row i A *m col j B) 0 0.
Proof. by rewrite !mxE; apply: eq_bigr => k _; rewrite !mxE. Qed.

Lemma ctr_row m n (A : 'M[C]_(m, n)) i : row i A^h = (col i A)^h.
Proof. by apply/matrixP=> a b; rewrite !mxE. Qed.

Lemma inner_columns B m n (X : 'M[C]_(N, m)) (Y : 'M[C]_(N, n)) : valid_ip B ->
  inner B X Y = \matrix_(i, j) ip1 B (col i X) (col j Y).
Proof.
case: B => [_|B [hB _]|f [_ hf]]; last by rewrite /inner hf.
- by apply/matrixP=> i j; rewrite mxE /ip1 /inner !tconjE mulmx_entry ctr_row.
- rewrite innerOp //; apply/matrixP=> i j; rewrite [RHS]mxE /ip1 innerOp //.
  rewrite -!mulmxA mulmx_entry ctr_row; congr ((_ *m _) 0 0).
  by apply/matrixP=> a b; rewrite !mxE; apply: eq_bigr => k _; rewrite !mxE.
Qed.

Lemma ip1E (B : ipB C N) x y : valid_ip B ->
  ip1 B x y = match B with IpNone => (x^h *m y) 0 0 | IpOp B => (x^h *m B *m y) 0 0
              | IpCall f => f 1%N 1%N x y 0 0 end.
Proof. by case: B => // B [hB _]; rewrite /ip1 innerOp. Qed.

Lemma gram_is_ip (B : 'M[C]_N) : B^h = B ->
  (forall x : 'cV[C]_N, x != 0 -> 0 < (x^h *m B *m x) 0 0) ->
  is_ip (fun x y : 'cV[C]_N => (x^h *m B *m y) 0 0).
Proof.
move=> hB hp; split=> // [x a y z|x y].
  by rewrite mulmxDr -scalemxAr !mxE.
have -> : y^h *m B *m x = (x^h *m B *m y)^h by rewrite !ctrM ctrK hB mulmxA.
by rewrite ctrE.
Qed.

Lemma valid_is_ip B : valid_ip B -> is_ip (ip1 B).
Proof.
case: B => [_|B [hB hp]|f [hf _]].
- split.
  + by move=> x a y z; rewrite /ip1 /= mulmxDr -scalemxAr !mxE.
  + move=> x y; rewrite /ip1 /= !tconjE -ctrE; congr (fun_of_matrix _ 0 0).
    by rewrite ctrM ctrK.
  + by move=> x x0; rewrite /ip1 /= tconjE lt_def gram_eq0 x0 gram_ge0.
- have [h1 h2 h3] := gram_is_ip hB hp; split.
  + by move=> x a y z; rewrite /ip1 !innerOp.
  + by move=> x y; rewrite /ip1 !innerOp.
  + by move=> x x0; rewrite /ip1 innerOp // h3.
- by case: hf => h1 h2 h3; split.
Qed.

Lemma eps10_gt0 : 0 < eps10 C.
Proof. by rewrite invr_gt0 exprn_gt0 // ltr0n. Qed.

Lemma norm_real_nonneg x (y : option 'cV[C]_N) B :
  0 <= ip1 B x (if y is Some y' then y' else x) ->
  norm x y B = Ok (sqrtC (ip1 B x (if y is Some y' then y' else x))).
Proof.
move=> h; have general : (let ip := ip1 B x (if y is Some y' then y' else x) in
    if `|'Im ip| > `|ip| * eps10 C then Err InnerProductError
    else Ok (sqrtC `|ip|)) = Ok (sqrtC (ip1 B x (if y is Some y' then y' else x))).
  rewrite /= (Creal_ImP _ (ger0_real h)) normr0 ger0_norm //.
  by rewrite le_gtF // mulr_ge0 // ltW // eps10_gt0.
rewrite /norm; case: y h general => [y|] h general; case: B h general => [|B|f] h general //.
by rewrite /norm2 /ip1 /= tconjE gramE.
Qed.

Lemma ip_ge0 (ip : 'cV[C]_N -> 'cV[C]_N -> C) x : is_ip ip -> 0 <= ip x x.
Proof.
case=> h1 h2 h3; case: (eqVneq x 0) => [->|x0]; last by rewrite ltW // h3.
have := h1 0 1 0 0; rewrite scale1r mul1r addr0 => /eqP.
by rewrite -subr_eq0 opprD addrA subrr sub0r oppr_eq0 => /eqP->.
Qed.

Lemma norm_ip x B : valid_ip B -> norm x None B = Ok (ipnorm (ip1 B) x).
Proof. by move=> h; apply: norm_real_nonneg; apply: ip_ge0; apply: valid_is_ip. Qed.

Lemma norm_rejects x (y : option 'cV[C]_N) B :
  let ip := ip1 B x (if y is Some y' then y' else x) in
  `|'Im ip| > `|ip| * eps10 C -> norm x y B = Err InnerProductError.
Proof.
rewrite /norm; case: y => [y|] /=; case: B => [|B|f] /=; try by move->.
move=> h; exfalso; move: h; rewrite (Creal_ImP _ _); last first.
  by apply: ger0_real; rewrite /ip1 /= tconjE gram_ge0.
by rewrite normr0 le_gtF // mulr_ge0 // ltW // eps10_gt0.
Qed.

(** ... but rejected by norm_squared. *)
Lemma norm_squared_spec x (y : option 'cV[C]_N) B :
  let ip := ip1 B x (if y is Some y' then y' else x) in
  (0 <= ip -> norm_squared x y B = Ok ip) /\
  (ip \is Num.real -> ~~ (0 <= ip) -> norm_squared x y B = Err InnerProductError).
Proof.
move=> ip; rewrite /norm_squared -/ip; split.
  move=> h; rewrite (Creal_ImP _ (ger0_real h)) normr0 ger0_norm //.
  rewrite le_gtF /=; last by rewrite mulr_ge0 // ltW // eps10_gt0.
  by rewrite (Creal_ReP _ (ger0_real h)) le_gtF.
move=> hr hn; have h0 : ip < 0 by rewrite real_ltNge ?real0.
by rewrite (Creal_ReP _ hr) h0 orbT.
Qed.
End Inner.

(** Finding: a negative <x,x> is accepted by norm ... *)
Lemma norm_negative_refuted (C : numClosedFieldType) N : (0 < N)%N ->
  exists (B : ipB C N) (x : 'cV[C]_N), ip1 B x x = -1 /\ norm x None B = Ok 1.
Proof.
case: N => // n _; exists (IpOp (- 1%:M)), (delta_mx 0 0).
have e : ip1 (IpOp (- 1%:M)) (delta_mx 0 0 : 'cV[C]_n.+1) (delta_mx 0 0) = -1 :> C.
  rewrite /ip1 innerOp ?ctrN ?ctr1 // mulmxN mulmx1 mulNmx mxE; congr (- _).
  rewrite gramE (bigD1 0) //= mxE eqxx normr1 expr1n big1 ?addr0 // => i /negbTE h.
  by rewrite mxE h normr0 expr0n.
split=> //; rewrite /norm e normrN normr1 (Creal_ImP _ _) ?rpredN ?rpred1 //.
by rewrite normr0 le_gtF ?sqrtC1 // mul1r ltW // eps10_gt0.
Qed.


Section Extra.
Variable C : numClosedFieldType.

Lemma givens_all (a b : C) :
  let g := mk_givens a b in let G := givens_matrix g in
  [/\ gc g \is Num.real, G^h *m G = 1%:M,
      G *m (\col_i (if i == 0 then a else b)) = \col_i (if i == 0 then gr g else 0)
    & `|gr g| ^+ 2 = `|a| ^+ 2 + `|b| ^+ 2].
Proof.
have [h1 h2 h3 h4] := mk_givens_ok a b; split.
- by apply/CrealP.
- exact: givens_matrix_unitary.
- by rewrite givens_matrix_apply; apply/matrixP=> i j; rewrite !mxE /= h3 h4.
- exact: givens_r_norm.
Qed.

Lemma diag12_valid : valid_ip (IpOp (diag_mx (\row_(i < 2) (i.+1)%:R) : 'M[C]_2)).
Proof.
split.
  apply/matrixP=> i j; rewrite ctrE !mxE rmorphMn rmorph_nat eq_sym.
  by case: eqP => [->|].
move=> x x0; have -> : (x^h *m diag_mx (\row_(i < 2) (i.+1)%:R) *m x) 0 0 =
    \sum_(i < 2) (i.+1)%:R * `|x i 0| ^+ 2.
  rewrite -mulmxA mul_diag_mx mxE; apply: eq_bigr => i _.
  by rewrite ctrE !mxE normCK2 mulrCA.
have hge (i : 'I_2) : 0 <= (i.+1)%:R * `|x i 0| ^+ 2 by rewrite mulr_ge0 ?ler0n ?exprn_ge0.
rewrite lt_def sumr_ge0 // andbT; apply: contra x0; rewrite psumr_eq0 // => /allP h.
apply/eqP/matrixP=> i j; rewrite ord1 mxE; have := h i (mem_index_enum _).
by rewrite mulf_eq0 pnatr_eq0 /= expf_eq0 /= normr_eq0 => /eqP.
Qed.

Lemma callable_valid N :
  valid_ip (IpCall (fun m n (X : 'M[C]_(N, m)) (Y : 'M[C]_(N, n)) => X^h *m Y)).
Proof.
split=> [|m n X Y]; first exact: (@valid_is_ip C N IpNone I).
by apply/matrixP=> i j; rewrite [RHS]mxE mulmx_entry ctr_row.
Qed.

Lemma inner_nonhermitian : exists (B : 'M[C]_2) (x y : 'cV[C]_2),
    inner (IpOp B) (row_mx x x) y != (row_mx x x)^h *m B *m y.
Proof.
exists (delta_mx 0 1), (delta_mx 0 0), (delta_mx 1 0).
apply/eqP=> /matrixP/(_ 0 0)/eqP; rewrite /inner /= mul_mx_row mul_delta_mx_0 //.
rewrite !tconjE !mxE !big_ord_recl !big_ord0 !ctrE !mxE !big_ord_recl !big_ord0 !ctrE !mxE /=.
case: splitP => // j /= _; rewrite !mxE /=.
rewrite ord1 eqxx !mulr0 !addr0 conjC0 conjC1 !mulr1 !addr0 add0r.
by rewrite eq_sym oner_eq0.
Qed.
End Extra.
