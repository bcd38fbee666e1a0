(** Extremal members of lists and the values computed by BoundCG and BoundMinres. *)
From mathcomp Require Import all_ssreflect all_algebra ring.
From Verif Require Import Base Model.Projection Model.Bounds.

Set Implicit Arguments.
Unset Strict Implicit.
Unset Printing Implicit Defensive.
Import Order.TTheory GRing.Theory Num.Theory.
Local Open Scope ring_scope.

Section Bounds.
Variable C : numClosedFieldType.
Local Notation eps := (eps15 C).
Local Notation isreal := (fun x : C => x \is Num.real).
Implicit Types (s : seq C) (x y l m : C).

Lemma eps_gt0 : 0 < eps.
Proof. by rewrite invr_gt0 exprn_gt0 // ltr0n. Qed.
Lemma eps_lt1 : eps < 1.
Proof. by rewrite invf_lt1 ?exprn_gt0 ?ltr0n // exprn_egt1 // ltr1n. Qed.

(** m is the least member of s *)
Definition least s m := m \in s /\ {in s, forall x, m <= x}.
Definition greatest s m := m \in s /\ {in s, forall x, x <= m}.

Lemma least_uniq s m m' : least s m -> least s m' -> m = m'.
Proof. by move=> [i h] [i' h']; apply/eqP; rewrite eq_le h ?h'. Qed.
Lemma greatest_uniq s m m' : greatest s m -> greatest s m' -> m = m'.
Proof. by move=> [i h] [i' h']; apply/eqP; rewrite eq_le h ?h'. Qed.

Lemma foldl_minP x s : all isreal (x :: s) -> least (x :: s) (foldl Num.min x s).
Proof.
elim: s x => [|y s IH] x; first by split=> [|z]; rewrite inE // => /eqP->.
move=> /= /and3P[rx ry rs].
have [] := IH (Num.min x y).
  rewrite /= rs andbT; case: (real_leP rx ry) => //.
move=> i h; split.
  move: i; rewrite !inE; case: (real_leP rx ry) => h' /orP[->|->]; rewrite ?orbT //.
have hm : foldl Num.min (Num.min x y) s <= Num.min x y by rewrite h // mem_head.
move=> z; rewrite !inE => /or3P[/eqP->|/eqP->|hz].
- by apply: le_trans hm _; case: (real_leP rx ry) => // /ltW.
- by apply: le_trans hm _; case: (real_leP rx ry).
- by apply: h; rewrite inE hz orbT.
Qed.

Lemma foldl_maxP x s : all isreal (x :: s) -> greatest (x :: s) (foldl Num.max x s).
Proof.
elim: s x => [|y s IH] x; first by split=> [|z]; rewrite inE // => /eqP->.
move=> /= /and3P[rx ry rs].
have [] := IH (Num.max x y).
  rewrite /= rs andbT; case: (real_leP rx ry) => //.
move=> i h; split.
  move: i; rewrite !inE; case: (real_leP rx ry) => h' /orP[->|->]; rewrite ?orbT //.
have hm : Num.max x y <= foldl Num.max (Num.max x y) s by rewrite h // mem_head.
move=> z; rewrite !inE => /or3P[/eqP->|/eqP->|hz].
- by apply: le_trans hm; case: (real_leP rx ry).
- by apply: le_trans hm; case: (real_leP rx ry) => // /ltW.
- by apply: h; rewrite inE hz orbT.
Qed.

Lemma np_minP s m : all isreal s -> least s m -> np_minC s = Some m.
Proof.
case: s => [_ []|x s rs hm]; first by rewrite in_nil.
by rewrite /= (least_uniq (foldl_minP rs) hm).
Qed.
Lemma np_maxP s m : all isreal s -> greatest s m -> np_maxC s = Some m.
Proof.
case: s => [_ []|x s rs hm]; first by rewrite in_nil.
by rewrite /= (greatest_uniq (foldl_maxP rs) hm).
Qed.
Lemma has_least s : all isreal s -> s != [::] -> exists m, least s m.
Proof. by case: s => // x s rs _; exists (foldl Num.min x s); exact: foldl_minP. Qed.
Lemma has_greatest s : all isreal s -> s != [::] -> exists m, greatest s m.
Proof. by case: s => // x s rs _; exists (foldl Num.max x s); exact: foldl_maxP. Qed.

Lemma sortedC s : all isreal s -> sorted <=%R (sort <=%R s).
Proof.
by move=> rs; apply: (sort_sorted_in (P := isreal)) => // x y rx ry; exact: real_leVge.
Qed.

Lemma all_sort s (p : pred C) : all p (sort <=%R s) = all p s.
Proof. by apply: perm_all; rewrite perm_sort. Qed.

Lemma last_sort s l d : all isreal s -> greatest s l -> last d (sort <=%R s) = l.
Proof.
move=> rs [i h]; apply: (@greatest_uniq s) => //; split.
  rewrite -(mem_sort <=%R); case E: (sort _ s) => [|y t] /=; last exact: mem_last.
  by move: i; rewrite -(mem_sort <=%R) E.
move=> x; rewrite -(mem_sort <=%R); have := sortedC rs.
case: (sort _ s) => // y t /=; rewrite le_path_sortedE => /andP[ha hs].
rewrite inE => /predU1P[->|].
  by have := mem_last y t; rewrite inE => /predU1P[->//|]; move/(allP ha).
elim: t y ha hs => //= z t IH y /andP[hy ha] hs.
rewrite inE => /predU1P[->|hx].
  have := mem_last z t; rewrite inE => /predU1P[->//|].
  by move: hs; rewrite le_path_sortedE => /andP[/allP hz _] /hz.
by apply: IH => //; [move: hs; rewrite le_path_sortedE => /andP[] | move: hs; apply: path_sorted].
Qed.

Lemma head_sort s m : all isreal s -> least s m -> exists t, sort <=%R s = m :: t.
Proof.
move=> rs [i h]; have := sortedC rs; have hm := mem_sort <=%R s.
case E: (sort _ s) => [|y t]; first by move: i; rewrite -hm E.
rewrite /= le_path_sortedE => /andP[ha _].
suff -> : m = y by exists t.
apply: (@least_uniq s) => //; split; first by rewrite -hm E mem_head.
by move=> x; rewrite -hm E inE => /predU1P[->//|/(allP ha)].
Qed.

(** Lists of normalised entries *)
Lemma all_ndiv l s (p : pred (option C)) : l != 0 ->
  all p [seq ndiv l x | x <- s] = all (fun x => p (Some (x / l))) s.
Proof. by move=> nz; rewrite all_map; apply: eq_all => x; rewrite /= /ndiv (negbTE nz). Qed.

Lemma pmap_ndiv l s (p : pred (option C)) : l != 0 ->
  pmap id [seq x <- [seq ndiv l x | x <- s] | p x] =
  [seq x / l | x <- s & p (Some (x / l))].
Proof.
move=> nz; elim: s => //= x s IH.
have -> : ndiv l x = Some (x / l) by rewrite /ndiv (negbTE nz).
by case: ifP => _ //=; rewrite IH.
Qed.

Lemma all0_ndiv s (p : pred (option C)) : s != [::] -> ~~ p None ->
  all p [seq ndiv 0 x | x <- s] = false.
Proof. by case: s => // x s _ /negbTE h /=; rewrite /ndiv eqxx h. Qed.

Lemma least_div s l m : 0 < l -> least s m -> least [seq x / l | x <- s] (m / l).
Proof.
move=> l0 [i h]; split; first exact: map_f.
by move=> _ /mapP[x hx ->]; rewrite ler_pmul2r ?invr_gt0 // h.
Qed.
Lemma greatest_div s l m : 0 < l -> greatest s m -> greatest [seq x / l | x <- s] (m / l).
Proof.
move=> l0 [i h]; split; first exact: map_f.
by move=> _ /mapP[x hx ->]; rewrite ler_pmul2r ?invr_gt0 // h.
Qed.

Lemma real_div s l : l \is Num.real -> all isreal s -> all isreal [seq x / l | x <- s].
Proof. by move=> rl /allP h; rewrite all_map; apply/allP => x /h /= rx; rewrite realM ?realV. Qed.

Lemma all_filter_sub s (p q : pred C) : all p s -> all p (filter q s).
Proof. by move=> /allP h; apply/allP => x; rewrite mem_filter => /andP[_ /h]. Qed.

Definition cg_base (kappa : C) := (sqrtC kappa - 1) / (sqrtC kappa + 1).

Lemma base_range (a b : C) : 0 < b -> b <= a -> 0 <= (a - b) / (a + b) < 1.
Proof.
move=> b0 ba; have a0 := lt_le_trans b0 ba; have s0 : 0 < a + b by rewrite addr_gt0.
rewrite divr_ge0 ?subr_ge0 ?(ltW s0) //= ltr_pdivr_mulr // mul1r ltr_add2l.
by apply: lt_trans (b0); rewrite oppr_lt0.
Qed.

Lemma cg_base_range (k : C) : 1 <= k -> 0 <= cg_base k < 1.
Proof.
move=> k1; rewrite /cg_base base_range ?ltr01 //.
by rewrite -sqrtC1 ler_sqrtC // nnegrE ?ler01 // (le_trans ler01).
Qed.

Lemma mem_filter_sort s (p : pred C) : filter p (sort <=%R s) =i filter p s.
Proof. by move=> x; rewrite !mem_filter mem_sort. Qed.

Lemma least_eqi s t m : s =i t -> least s m -> least t m.
Proof. by move=> e [i h]; split=> [|x]; rewrite -e // => /h. Qed.
Lemma greatest_eqi s t m : s =i t -> greatest s m -> greatest t m.
Proof. by move=> e [i h]; split=> [|x]; rewrite -e // => /h. Qed.

Section Cg.
Variables (s : seq C) (ez : bool).
Hypothesis rs : all isreal s.

Lemma bound_cgE l m m' : greatest s l -> 0 < l -> least s m ->
  least [seq x <- s | eps * l < x] m' ->
  bound_cg (EList s) ez =
  if ~~ ez && ~~ (eps * l < m) then Err AssumptionError else
  if ~~ (- eps * l < m) then Err AssertionError else Ok (cg_base (l / m')).
Proof.
move=> hl l0 hm hm'; have nl : l != 0 by rewrite gt_eqF.
have ns : s != [::] by case: (s) hl => // -[]; rewrite in_nil.
rewrite /bound_cg /= size_eq0 (negbTE ns) rs /= (last_sort 0 rs hl).
rewrite all_ndiv // (all_sort s) pmap_ndiv //.
have -> : all (fun x => gtO (Some (x / l)) eps) s = (eps * l < m).
  apply/allP/idP => [/(_ m hm.1)|h x hx] /=; rewrite ltr_pdivl_mulr //.
  by apply: lt_le_trans h _; apply: hm.2.
have [t Et] := head_sort rs hm; rewrite {1}Et /= {1}/ndiv (negbTE nl) /= ltr_pdivl_mulr //.
case: ifP => // _; case: ifP => // _.
rewrite (@np_minP _ (m' / l)) /=; first by rewrite div1r invf_div.
- by rewrite real_div ?gtr0_real // all_filter_sub // all_sort.
- apply: least_div => //; apply: least_eqi hm' => x; rewrite mem_filter_sort !mem_filter.
  by rewrite /= ltr_pdivl_mulr.
Qed.

Lemma bound_cg0 : greatest s 0 ->
  bound_cg (EList s) ez = Err (if ez then AssertionError else AssumptionError).
Proof.
move=> hl; have ns : s != [::] by case: (s) hl => // -[]; rewrite in_nil.
rewrite /bound_cg /= size_eq0 (negbTE ns) rs /= (last_sort 0 rs hl).
have ns' : sort <=%R s != [::] by rewrite -size_eq0 size_sort size_eq0.
rewrite all0_ndiv //=; case: ez => //=.
by case: (sort _ s) ns' => // x t _ /=; rewrite {1}/ndiv eqxx.
Qed.

Lemma bound_cg_neg l : greatest s l -> l < 0 -> bound_cg (EList s) ez = Ok 0.
Proof.
move=> hl l0; have nl : l != 0 by rewrite lt_eqF.
have ns : s != [::] by case: (s) hl => // -[]; rewrite in_nil.
have ge1 x : x \in s -> 1 <= x / l.
  by move=> hx; rewrite ler_ndivl_mulr // mul1r; apply: hl.2.
have gte x : x \in s -> eps < x / l by move=> /ge1; apply: lt_le_trans eps_lt1.
rewrite /bound_cg /= size_eq0 (negbTE ns) rs /= (last_sort 0 rs hl).
rewrite all_ndiv // (all_sort s) pmap_ndiv //.
have -> : all (fun x => gtO (Some (x / l)) eps) s by apply/allP => x /gte.
rewrite andbF; have [m hm] := has_least rs ns.
have [t Et] := head_sort rs hm; rewrite {1}Et /= {1}/ndiv (negbTE nl) /=.
have -> : - eps < m / l.
  by apply: lt_trans (gte _ hm.1); apply: lt_trans eps_gt0; rewrite oppr_lt0 eps_gt0.
rewrite (@np_minP _ 1) /=; first by rewrite divr1 sqrtC1 subrr mul0r.
- rewrite real_div ?ltr0_real // all_filter_sub // all_sort //.
- split=> [|_ /mapP[x hx ->]]; last by apply: ge1; move: hx; rewrite mem_filter mem_sort => /andP[].
  by apply/mapP; exists l; rewrite ?divff // mem_filter mem_sort hl.1 /= gte // hl.1.
Qed.
End Cg.

Lemma sort_perm s t : all isreal s -> perm_eq s t -> sort <=%R s = sort <=%R t.
Proof.
move=> rs st; have rt : all isreal t by rewrite -(perm_all _ st).
apply: (@sorted_eq_in _ <=%R); [| | exact: sortedC | exact: sortedC |].
- by move=> x y z _ _ _; apply: le_trans.
- by move=> x y _ _; apply: le_anti.
- by rewrite perm_sort; apply: perm_trans st _; rewrite perm_sym perm_sort.
Qed.

Lemma bound_cg_perm s t ez : perm_eq s t -> bound_cg (EList s) ez = bound_cg (EList t) ez.
Proof.
move=> st; rewrite /bound_cg /= (perm_size st) (perm_all _ st).
case: ifP => // _; case: ifP => // /negbFE rt.
by rewrite (@sort_perm s t) // (perm_all _ st).
Qed.

Lemma minres_init_perm s t : perm_eq s t -> minres_init (EList s) = minres_init (EList t).
Proof.
move=> st; rewrite /minres_init /= (perm_size st) (perm_all _ st).
case: ifP => // _; case: ifP => // /negbFE rt.
by rewrite (@sort_perm s t) // (perm_all _ st).
Qed.

Lemma bound_minres_perm s t : perm_eq s t -> bound_minres (EList s) = bound_minres (EList t).
Proof.
by move=> st; rewrite /bound_minres /= (perm_all _ st) (bound_cg_perm _ st) (minres_init_perm st).
Qed.

Lemma real_scale s c : 0 < c -> all isreal [seq c * x | x <- s] = all isreal s.
Proof.
move=> c0; rewrite all_map; apply: eq_all => x /=; apply/idP/idP => [h|]; last first.
  by move=> rx; rewrite realM // gtr0_real.
by rewrite -[x](mulKf (lt0r_neq0 c0)) realM // realV gtr0_real.
Qed.

Lemma sort_scale s c : all isreal s -> 0 < c -> sort <=%R [seq c * x | x <- s] = [seq c * x | x <- sort <=%R s].
Proof.
by move=> rs c0; rewrite (@map_sort _ _ ( *%R c) <=%R <=%R) // => x y; rewrite ler_pmul2l.
Qed.

Lemma bound_cg_scale s c ez : 0 < c ->
  bound_cg (EList [seq c * x | x <- s]) ez = bound_cg (EList s) ez.
Proof.
move=> c0; rewrite /bound_cg /= size_map real_scale //.
case: ifP => // /negbT ns; case: ifP => // /negbFE rs.
have nc : c != 0 by rewrite gt_eqF.
rewrite sort_scale //.
suff -> : [seq ndiv (last 0 [seq c * x | x <- sort <=%R s]) x | x <- [seq c * x | x <- sort <=%R s]]
  = [seq ndiv (last 0 (sort <=%R s)) x | x <- sort <=%R s] by [].
have -> : last 0 [seq c * x | x <- sort <=%R s] = c * last 0 (sort <=%R s).
  by case: (sort _ s) => [|x t] /=; rewrite ?mulr0 // last_map.
rewrite -map_comp; apply: eq_map => x /=.
by rewrite /ndiv mulf_eq0 (negbTE nc) /=; case: ifP => // h; rewrite -mulf_div divff // mul1r.
Qed.

Section Minres.
Variables (s : seq C).
Hypothesis rs : all isreal s.

(** the greatest absolute value *)
Variable mx : C.
Hypothesis hmx : greatest [seq `|x| | x <- s] mx.
Hypothesis mx0 : 0 < mx.
Local Notation neg := [seq x <- s | x < - eps * mx].
Local Notation pos := [seq x <- s | eps * mx < x].

Lemma minres_initE : minres_init (EList s) =
  let! l1 := mustC (np_minC [seq x / mx | x <- sort <=%R s & x < - eps * mx]) in
  let! ls := mustC (np_maxC [seq x / mx | x <- sort <=%R s & x < - eps * mx]) in
  let! lt := mustC (np_minC [seq x / mx | x <- sort <=%R s & eps * mx < x]) in
  let! lN := mustC (np_maxC [seq x / mx | x <- sort <=%R s & eps * mx < x]) in
  Ok ((sqrtC `|l1 * lN| - sqrtC `|ls * lt|) / (sqrtC `|l1 * lN| + sqrtC `|ls * lt|)).
Proof.
have ns : s != [::] by case: (s) hmx => // -[]; rewrite in_nil.
have nm : mx != 0 by rewrite gt_eqF.
rewrite /minres_init /= size_eq0 (negbTE ns) rs /=.
rewrite (@np_maxP [seq `|x| | x <- sort _ s] mx) /=; last 2 first.
- by rewrite all_map; apply/allP => x _ /=; exact: normr_real.
- by apply: greatest_eqi hmx => x; apply/mapP/mapP => -[y hy ->]; exists y; rewrite // ?mem_sort // -(mem_sort <=%R).
rewrite !pmap_ndiv //=.
have -> : [seq x <- sort <=%R s | x / mx < - eps] = [seq x <- sort <=%R s | x < - eps * mx].
  by apply: eq_filter => x; rewrite ltr_pdivr_mulr.
have -> // : [seq x <- sort <=%R s | eps < x / mx] = [seq x <- sort <=%R s | eps * mx < x].
  by apply: eq_filter => x; rewrite ltr_pdivl_mulr.
Qed.

Let real_part (p : pred C) : all isreal [seq x / mx | x <- sort <=%R s & p x].
Proof. by rewrite real_div ?gtr0_real // all_filter_sub // all_sort. Qed.

Lemma minres_init_val l1 ls lt lN : least neg l1 -> greatest neg ls -> least pos lt -> greatest pos lN ->
  minres_init (EList s) = Ok ((sqrtC `|l1 * lN| - sqrtC `|ls * lt|) / (sqrtC `|l1 * lN| + sqrtC `|ls * lt|)).
Proof.
move=> h1 hs ht hN; rewrite minres_initE.
have ml p m : least (filter p s) m -> np_minC [seq x / mx | x <- sort <=%R s & p x] = Some (m / mx).
  move=> h; apply: np_minP (real_part p) _; apply: least_div => //.
  by apply: least_eqi h => x; rewrite mem_filter_sort.
have mg p m : greatest (filter p s) m -> np_maxC [seq x / mx | x <- sort <=%R s & p x] = Some (m / mx).
  move=> h; apply: np_maxP (real_part p) _; apply: greatest_div => //.
  by apply: greatest_eqi h => x; rewrite mem_filter_sort.
rewrite (ml _ _ h1) (mg _ _ hs) (ml _ _ ht) (mg _ _ hN) /=; congr Ok.
have e x y : sqrtC `|x / mx * (y / mx)| = sqrtC `|x * y| / mx.
  rewrite mulrACA normrM -invfM normfV (ger0_norm (mulr_ge0 (ltW mx0) (ltW mx0))) -expr2.
  rewrite rootCMl // rootCV // ?exprn_ge0 ?(ltW mx0) //.
  by rewrite sqrCK // ltW.
rewrite !e -mulrBl -mulrDl -mulf_div divff ?mulr1 //.
by rewrite invr_neq0 // gt_eqF.
Qed.

Lemma minres_init_range l1 ls lt lN : least neg l1 -> greatest neg ls -> least pos lt -> greatest pos lN ->
  0 <= (sqrtC `|l1 * lN| - sqrtC `|ls * lt|) / (sqrtC `|l1 * lN| + sqrtC `|ls * lt|) < 1.
Proof.
move=> h1 hs ht hN.
have e0 : 0 < eps * mx by rewrite mulr_gt0 // eps_gt0.
have ls0 : ls < 0.
  have := hs.1; rewrite mem_filter => /andP[h _]; apply: lt_trans h _.
  by rewrite mulNr oppr_lt0.
have lt0 : 0 < lt by have := ht.1; rewrite mem_filter => /andP[h _]; apply: lt_trans h.
have l1s : l1 <= ls by apply: h1.2; exact: hs.1.
have ltN : lt <= lN by apply: ht.2; exact: hN.1.
apply: base_range; first by rewrite sqrtC_gt0 normr_gt0 mulf_neq0 ?(ltr0_neq0 ls0) ?(lt0r_neq0 lt0).
rewrite ler_sqrtC ?nnegrE ?normr_ge0 // !normrM.
rewrite (ltr0_norm ls0) (ltr0_norm (le_lt_trans l1s ls0)) (gtr0_norm lt0) (gtr0_norm (lt_le_trans lt0 ltN)).
apply: ler_pmul => //; rewrite ?ler_opp2 ?oppr_ge0 ?(ltW ls0) ?(ltW lt0) //.
Qed.

Lemma minres_init_nopos : neg != [::] -> pos = [::] -> minres_init (EList s) = Err ValueError.
Proof.
move=> nn np; rewrite minres_initE.
have [||m hm] := @has_least [seq x / mx | x <- sort <=%R s & x < - eps * mx].
- exact: real_part.
- have [m hm] := has_least (all_filter_sub _ rs) nn.
  apply/eqP => h; have : m / mx \in [seq x / mx | x <- sort <=%R s & x < - eps * mx].
    by apply: map_f; rewrite mem_filter_sort; exact: hm.1.
  by rewrite h.
rewrite (np_minP (real_part _) hm) /=; have [|m' hm'] := has_greatest (real_part (fun x => x < - eps * mx)).
  by apply/eqP => h; have := hm.1; rewrite h.
rewrite (np_maxP (real_part _) hm') /=.
suff -> : [seq x <- sort <=%R s | eps * mx < x] = [::] by [].
case E: (filter _ (sort _ s)) => [//|y t].
have : y \in [seq x <- sort <=%R s | eps * mx < x] by rewrite E mem_head.
by rewrite mem_filter_sort np.
Qed.
End Minres.
End Bounds.
