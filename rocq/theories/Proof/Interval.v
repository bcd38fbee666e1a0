From mathcomp Require Import all_ssreflect all_algebra.
From Verif Require Import Base Model.Interval.

Set Implicit Arguments.
Unset Strict Implicit.
Unset Printing Implicit Defensive.
Import Order.TTheory GRing.Theory Num.Theory.
Local Open Scope ring_scope.

Section Proof.
Variable R : realFieldType.
Implicit Types (a b i : itv R) (s : itvs R) (x y : R).

(** Intervals as built by the constructor. *)
Definition wf a := left a <= right a.

(** ** minima and maxima of lists *)
Lemma foldl_maxP x (l : seq R) : foldl Num.max x l \in x :: l /\ (forall y, y \in x :: l -> y <= foldl Num.max x l).
Proof.
elim: l x => [|z l IH] x /=.
  by split=> [|y]; rewrite inE ?eqxx // => /eqP->.
have [H1 H2] := IH (Num.max x z); split.
  move: H1; rewrite !inE => /orP[/eqP->|->]; last by rewrite !orbT.
  by rewrite maxEle; case: ifP; rewrite eqxx ?orbT.
move=> y; rewrite !inE => /or3P[/eqP->|/eqP->|yl].
- by apply: le_trans (H2 _ (mem_head _ _)); rewrite le_maxr lexx.
- by apply: le_trans (H2 _ (mem_head _ _)); rewrite le_maxr lexx orbT.
- by apply: H2; rewrite inE yl orbT.
Qed.

Lemma foldl_minP x (l : seq R) : foldl Num.min x l \in x :: l /\ (forall y, y \in x :: l -> foldl Num.min x l <= y).
Proof.
elim: l x => [|z l IH] x /=.
  by split=> [|y]; rewrite inE ?eqxx // => /eqP->.
have [H1 H2] := IH (Num.min x z); split.
  move: H1; rewrite !inE => /orP[/eqP->|->]; last by rewrite !orbT.
  by rewrite minEle; case: ifP; rewrite eqxx ?orbT.
move=> y; rewrite !inE => /or3P[/eqP->|/eqP->|yl].
- by apply: le_trans (H2 _ (mem_head _ _)) _; rewrite le_minl lexx.
- by apply: le_trans (H2 _ (mem_head _ _)) _; rewrite le_minl lexx orbT.
- by apply: H2; rewrite inE yl orbT.
Qed.

Lemma np_maxP (l : seq R) : l != [::] ->
  exists2 m, np_max l = Ok m & m \in l /\ (forall y, y \in l -> y <= m).
Proof. by case: l => // x l _; eexists; [|exact: foldl_maxP]. Qed.
Lemma np_minP (l : seq R) : l != [::] ->
  exists2 m, np_min l = Ok m & m \in l /\ (forall y, y \in l -> m <= y).
Proof. by case: l => // x l _; eexists; [|exact: foldl_minP]. Qed.

(** ** single intervals *)
Lemma itv_andE a b : wf a -> wf b ->
  itv_and a b = Ok (if (left a <= right b) && (left b <= right a)
    then Some (Itv (Num.max (left a) (left b)) (Num.min (right a) (right b))) else None).
Proof.
rewrite /wf => wa wb; rewrite /itv_and /= le_maxl !le_minr wa wb andbT /=.
rewrite andbC; case: ifP => //= /andP[h1 h2].
by rewrite /mk_itv ltNge le_maxl !le_minr wa wb h1 h2.
Qed.

Lemma itv_meetsE a b : wf a -> wf b ->
  itv_meets a b = Ok ((left a <= right b) && (left b <= right a)).
Proof. by move=> wa wb; rewrite /itv_meets itv_andE //; case: ifP. Qed.

Lemma meets_iff a b : wf a -> wf b ->
  ((left a <= right b) && (left b <= right a)) = true <->
  exists x, itv_contains a x /\ itv_contains b x.
Proof.
rewrite /wf /itv_contains => wa wb; split.
  case/andP=> h1 h2; exists (Num.max (left a) (left b)).
  by rewrite !le_maxr !le_maxl !lexx wa wb h1 h2 orbT.
case=> x [/andP[h1 h2] /andP[h3 h4]].
by rewrite (le_trans h1 h4) (le_trans h3 h2).
Qed.

Lemma itv_orE a b : wf a -> wf b ->
  itv_or a b = Ok (if (left a <= right b) && (left b <= right a)
    then Some (Itv (Num.min (left a) (left b)) (Num.max (right a) (right b))) else None).
Proof.
move=> wa wb; rewrite /itv_or itv_meetsE //=; case: ifP => //= _ /=.
by move: wa; rewrite /wf /mk_itv ltNge le_minl !le_maxr => ->.
Qed.

Lemma and_contains a b : wf a -> wf b ->
  match itv_and a b with
  | Ok (Some c) => wf c /\ forall x, itv_contains c x = itv_contains a x && itv_contains b x
  | Ok None => forall x, itv_contains a x && itv_contains b x = false
  | Err _ => False
  end.
Proof.
move=> wa wb; rewrite itv_andE //; case: ifP => h.
  split=> [|x]; last by rewrite /itv_contains /= le_maxl le_minr andbACA.
  by move/andP: h wa wb => [h1 h2]; rewrite /wf /= le_maxl !le_minr h1 h2 => -> ->.
move=> x; apply/negP => /andP[h1 h2].
by move/negP: h; apply; apply/(meets_iff wa wb); exists x.
Qed.

Lemma or_contains a b : wf a -> wf b ->
  match itv_or a b with
  | Ok (Some c) => [/\ wf c, (exists x, itv_contains a x && itv_contains b x)
      & forall x, itv_contains c x = itv_contains a x || itv_contains b x]
  | Ok None => forall x, itv_contains a x && itv_contains b x = false
  | Err _ => False
  end.
Proof.
move=> wa wb; rewrite itv_orE //; case: ifP => h; last first.
  move=> x; apply/negP => /andP[h1 h2].
  by move/negP: h; apply; apply/(meets_iff wa wb); exists x.
split; first by move: wa; rewrite /wf /= le_minl !le_maxr => ->.
  by have/(meets_iff wa wb)[x [h1 h2]] := h; exists x; rewrite h1 h2.
move=> x; rewrite /itv_contains /= le_minl le_maxr; case/andP: h => h1 h2.
case la: (left a <= x) => /=; case ra: (x <= right a) => //=; rewrite ?andbT ?andbF ?orbF //=.
  have lt : right a < x by rewrite ltNge ra.
  by rewrite (le_trans h2 (ltW lt)).
have lt : x < left a by rewrite ltNge la.
by rewrite (le_trans (ltW lt) h1) andbT.
Qed.

(** distance: a lower bound of all point distances that is attained. *)
Lemma distanceP a b : wf a -> wf b -> exists2 d, itv_distance a b = Ok d &
  [/\ (forall x y, itv_contains a x -> itv_contains b y -> d <= `|x - y|)
    & exists x y, [/\ itv_contains a x, itv_contains b y & `|x - y| = d]].
Proof.
rewrite /itv_contains => wa wb; rewrite /itv_distance itv_meetsE //=.
case: ifP => h.
  exists 0 => //; split=> [x y _ _|]; first exact: normr_ge0.
  by have/(meets_iff wa wb)[x [h1 h2]] := h; exists x, x; split; rewrite // subrr normr0.
move/negbT: h; rewrite negb_and -!ltNge => h; rewrite /wf in wa wb.
exists (Num.max (left b - right a) (left a - right b)) => //; split.
  move=> x y /andP[x1 x2] /andP[y1 y2]; rewrite le_maxl; apply/andP; split.
    by rewrite distrC; apply: le_trans (ler_norm _); rewrite ler_sub.
  by apply: le_trans (ler_norm _); rewrite ler_sub.
case/orP: h => h.
  exists (left a), (right b); rewrite !lexx wa wb /=; split=> //.
  have p : 0 < left a - right b by rewrite subr_gt0.
  rewrite ger0_norm ?ltW //; apply/esym/max_idPr; apply: le_trans (ltW p).
  by rewrite subr_le0; apply: le_trans wb _; apply: le_trans (ltW h) wa.
exists (right a), (left b); rewrite !lexx wa wb /=; split=> //.
have p : 0 < left b - right a by rewrite subr_gt0.
rewrite distrC ger0_norm ?ltW //; apply/esym/max_idPl; apply: le_trans (ltW p).
by rewrite subr_le0; apply: le_trans wa _; apply: le_trans (ltW h) wb.
Qed.

(** ** sets of intervals *)
Definition meets a b := (left a <= right b) && (left b <= right a).
Lemma meetsC a b : meets a b = meets b a.
Proof. by rewrite /meets andbC. Qed.

Definition wfs s := all wf s.
Definition disjoint s := pairwise (fun a b => ~~ meets a b) s.
Definition good s := wfs s && disjoint s.

Lemma filterE_ok (p : itv R -> res bool) (q : itv R -> bool) s :
  {in s, forall i, p i = Ok (q i)} -> filterE p s = Ok (filter q s).
Proof.
elim: s => //= x s IH H; rewrite H ?mem_head //= IH //.
by move=> i si; apply: H; rewrite inE si orbT.
Qed.

Lemma itv_meetsP a b : wf a -> wf b ->
  reflect (exists x, itv_contains a x /\ itv_contains b x) (meets a b).
Proof. by move=> wa wb; apply: (iffP idP) => /(meets_iff wa wb). Qed.

Lemma or_allP new l : wf new -> all wf l -> all (meets new) l ->
  exists2 a, or_all (Some new) l = Ok (Some a) & wf a /\
    forall x, itv_contains a x = itv_contains new x || has (fun i => itv_contains i x) l.
Proof.
elim: l new => [|b l IH] new wn /=; first by exists new; split=> // x; rewrite orbF.
case/andP=> wb wl /andP[mb ml]; have := or_contains wn wb.
rewrite itv_orE // -/(meets new b) mb => -[wc _ Hc] /=.
set c := Itv _ _ in wc Hc *.
have mc : all (meets c) l.
  apply/allP=> i il; apply/(itv_meetsP wc (allP wl _ il)).
  have/(itv_meetsP wn (allP wl _ il))[x [h1 h2]] := allP ml _ il.
  by exists x; rewrite Hc h1.
have [a -> [wa Ha]] := IH c wc wl mc; exists a => //; split=> // x.
by rewrite Ha Hc orbA.
Qed.

Lemma disjoint_in s i j : disjoint s -> i \in s -> j \in s -> i != j -> ~~ meets i j.
Proof.
elim: s => //= x s IH /andP[hx ds]; rewrite !inE => /orP[/eqP->|si] /orP[/eqP->|sj].
- by rewrite eqxx.
- by move=> _; apply: (allP hx).
- by move=> _; rewrite meetsC; apply: (allP hx).
- exact: IH.
Qed.

Lemma has_filter_split (p q : itv R -> bool) s :
  has p (filter q s) = has (fun i => q i && p i) s.
Proof. by elim: s => //= x s <-; case: (q x). Qed.

Lemma addP (order : itvs R -> itvs R) s new :
  (forall t, perm_eq (order t) t) -> good s -> wf new ->
  exists2 s', add order s new = Ok s' & good s' /\
    forall x, itvs_contains s' x = itvs_contains s x || itv_contains new x.
Proof.
move=> Ho /andP[ws ds] wn; rewrite /add.
rewrite (@filterE_ok _ (fun i => meets i new)); last first.
  by move=> i si; rewrite itv_meetsE // (allP ws).
rewrite (@filterE_ok _ (fun i => ~~ meets i new)) /=; last first.
  by move=> i si; rewrite itv_meetsE // (allP ws).
set inter := filter _ s; set rest := filter _ s.
have wi : all wf (order inter).
  rewrite (perm_all _ (Ho _)); apply/allP=> i; rewrite mem_filter => /andP[_ si].
  exact: (allP ws).
have mi : all (meets new) (order inter).
  rewrite (perm_all _ (Ho _)); apply/allP=> i; rewrite mem_filter => /andP[h _].
  by rewrite meetsC.
have [a -> [wa Ha]] := or_allP wn wi mi; exists (a :: rest) => //=; split.
  apply/andP; split=> /=.
    by rewrite wa; apply/allP=> i; rewrite mem_filter => /andP[_ si]; apply: (allP ws).
  rewrite /disjoint /= /rest pairwise_filter // andbT; apply/allP=> i; rewrite mem_filter => /andP[mn si].
  have w_i := allP ws _ si.
  apply/negP => /(itv_meetsP wa w_i)[x [ax ix]]; move: ax; rewrite Ha => /orP[nx|].
    by move/negP: mn; apply; apply/(itv_meetsP w_i wn); exists x.
  rewrite (perm_has _ (Ho _)) => /hasP[j]; rewrite mem_filter => /andP[mj sj] jx.
  case: (eqVneq i j) => [e|ne]; first by rewrite e mj in mn.
  have: meets i j by apply/(itv_meetsP w_i (allP ws _ sj)); exists x.
  exact/negP/(disjoint_in ds si sj ne).
move=> x; rewrite /itvs_contains /= Ha (perm_has _ (Ho _)) orbC orbCA orbC; congr (_ || _).
rewrite !has_filter_split -has_predU; apply: eq_has => i /=.
by case: (meets i new); rewrite /= ?orbF ?andbF ?andbT.
Qed.

Lemma addsP (orders : nat -> itvs R -> itvs R) s news :
  (forall n t, perm_eq (orders n t) t) -> good s -> all wf news ->
  exists2 s', adds orders s news = Ok s' & good s' /\
    forall x, itvs_contains s' x = itvs_contains s x || has (fun i => itv_contains i x) news.
Proof.
move=> Ho; elim: news s => [|n news IH] s gs /=.
  by exists s => //; split=> // x; rewrite orbF.
case/andP=> wn wns; have [s1 -> [g1 H1]] := addP (Ho (size news)) gs wn.
have [s2 E2 [g2 H2]] := IH _ g1 wns; exists s2 => //; split=> // x.
by rewrite H2 H1 orbA.
Qed.

(** Two disjoint families with the same union are the same family. *)
Lemma contains_left a : wf a -> itv_contains a (left a).
Proof. by rewrite /wf /itv_contains lexx. Qed.
Lemma contains_right a : wf a -> itv_contains a (right a).
Proof. by rewrite /wf /itv_contains lexx andbT. Qed.

Lemma half_lt x y : x < y -> x < (x + y) / 2%:R < y.
Proof. by move=> h; rewrite !midf_lt. Qed.

Lemma family_sub s t a : good s -> good t ->
  (forall x, itvs_contains s x = itvs_contains t x) -> a \in s ->
  exists2 b, b \in t & left b <= left a /\ right a <= right b.
Proof.
case/andP=> ws ds /andP[wt dt] E sa; have wa := allP ws _ sa.
have : itvs_contains t (left a).
  by rewrite -E; apply/hasP; exists a => //; apply: contains_left.
case/hasP=> b tb /andP[b1 b2]; exists b => //; split=> //.
rewrite leNgt; apply/negP => lt.
have wb := allP wt _ tb.
set m := foldl Num.min (right a) [seq left c | c <- t & right b < left c].
have [mi ml] := foldl_minP (right a) [seq left c | c <- t & right b < left c].
rewrite -/m in mi ml.
have rm : right b < m.
  move: mi; rewrite inE => /orP[/eqP->//|/mapP[c]].
  by rewrite mem_filter => /andP[h _] ->.
have ma : m <= right a by apply: ml; rewrite mem_head.
have /andP[p1 p2] := half_lt rm; set p := _ / _ in p1 p2.
have : itvs_contains t p.
  rewrite -E; apply/hasP; exists a => //; rewrite /itv_contains.
  by rewrite (ltW (le_lt_trans b2 p1)) (ltW (lt_le_trans p2 ma)).
case/hasP=> c tc /andP[c1 c2]; have wc := allP wt _ tc.
have ne : c != b by apply/eqP=> e; rewrite e leNgt p1 in c2.
have lc : right b < left c.
  rewrite ltNge; apply/negP => h.
  have := disjoint_in dt tc tb ne; rewrite /meets h /=.
  by rewrite (le_trans b1 (le_trans b2 (le_trans (ltW p1) c2))).
have : m <= left c by apply: ml; rewrite inE map_f ?orbT // mem_filter lc.
by rewrite leNgt (le_lt_trans c1 p2).
Qed.

Lemma family_mem s t a : good s -> good t ->
  (forall x, itvs_contains s x = itvs_contains t x) -> a \in s -> a \in t.
Proof.
move=> gs gt E sa; have [b tb [h1 h2]] := family_sub gs gt E sa.
have [c sc [h3 h4]] := family_sub gt gs (fun x => esym (E x)) tb.
case/andP: (gs) => ws ds; have wa := allP ws _ sa.
have e : a = c.
  apply/eqP; apply: contraT => ne; have := disjoint_in ds sa sc ne.
  have h5 := le_trans h3 h1; have h6 := le_trans h2 h4.
  by rewrite /meets (le_trans wa h6) (le_trans h5 wa).
suff -> : a = b by [].
case: a b c sa {wa} e tb sc h1 h2 h3 h4 => la ra [lb rb] [lc rc] sa [-> ->] tb sc /= h1 h2 h3 h4.
by congr Itv; apply/eqP; rewrite eq_le ?h1 ?h2 ?h3 ?h4.
Qed.

Lemma good_uniq s : good s -> uniq s.
Proof.
case/andP; elim: s => //= a s IH /andP[wa ws] /andP[ha ds]; rewrite IH // andbT.
apply/negP => sa; have := allP ha _ sa; rewrite /meets.
by move: wa; rewrite /wf => ->.
Qed.

Lemma family_unique s t : good s -> good t ->
  (forall x, itvs_contains s x = itvs_contains t x) -> perm_eq s t.
Proof.
move=> gs gt E; apply: uniq_perm; try exact: good_uniq.
by move=> a; apply/idP/idP; apply: family_mem => // x; rewrite E.
Qed.

Lemma good0 : good [::]. Proof. by []. Qed.

Lemma adds_order_independent o1 o2 news1 news2 s1 s2 :
  (forall n t, perm_eq (o1 n t) t) -> (forall n t, perm_eq (o2 n t) t) ->
  all wf news1 -> perm_eq news1 news2 ->
  adds o1 [::] news1 = Ok s1 -> adds o2 [::] news2 = Ok s2 -> perm_eq s1 s2.
Proof.
move=> H1 H2 w1 pe E1 E2; have w2 : all wf news2 by rewrite -(perm_all _ pe).
have [t1 F1 [g1 K1]] := addsP H1 good0 w1; have [t2 F2 [g2 K2]] := addsP H2 good0 w2.
rewrite E1 in F1; case: F1 => ->; rewrite E2 in F2; case: F2 => ->.
by apply: family_unique => // x; rewrite K1 K2 /= (perm_has _ pe).
Qed.

Lemma endpoints_sorted s : sorted <=%R (endpoints s).
Proof. exact: sort_le_sorted. Qed.

Lemma endpoints_mem s x :
  (x \in endpoints s) = has (fun i => (x == left i) || (x == right i)) s.
Proof.
rewrite /endpoints mem_sort; elim: s => //= i s IH.
rewrite mem_cat IH; congr (_ || _); case: eqP => [->|_]; rewrite !inE ?orbb //.
Qed.

(** ** extremal queries *)
Lemma contains_between s x : itvs_contains s x ->
  exists2 i, i \in s & left i <= x <= right i.
Proof. by case/hasP=> i si ix; exists i. Qed.

Lemma size0 (T : Type) (l : seq T) : (size l == 0%N) = (if l is [::] then true else false).
Proof. by case: l. Qed.

Lemma itvs_minP s : good s -> s != [::] ->
  exists2 m, itvs_min s = Ok (PyNum m) & itvs_contains s m /\ forall x, itvs_contains s x -> m <= x.
Proof.
case/andP=> ws _ ns; have nm : [seq left i | i <- s] != [::] by case: (s) ns.
have [m E [ml mle]] := np_minP nm; exists m.
  by rewrite /itvs_min E; case: (s) ns.
split; first by case/mapP: ml => i si ->; apply/hasP; exists i => //; apply/contains_left/(allP ws).
by move=> x /contains_between[i si /andP[h _]]; apply: le_trans h; apply: mle; apply: map_f.
Qed.

Lemma itvs_maxP s : good s -> s != [::] ->
  exists2 m, itvs_max s = Ok (PyNum m) & itvs_contains s m /\ forall x, itvs_contains s x -> x <= m.
Proof.
case/andP=> ws _ ns; have nm : [seq right i | i <- s] != [::] by case: (s) ns.
have [m E [ml mle]] := np_maxP nm; exists m.
  by rewrite /itvs_max E; case: (s) ns.
split; first by case/mapP: ml => i si ->; apply/hasP; exists i => //; apply/contains_right/(allP ws).
by move=> x /contains_between[i si /andP[_ h]]; apply: le_trans h _; apply: mle; apply: map_f.
Qed.

Lemma no_zero_pos s i x : itvs_contains s 0 = false -> i \in s -> left i <= x <= right i ->
  0 < x -> 0 < left i.
Proof.
move=> h si /andP[h1 h2] x0; rewrite ltNge; apply/negP => h3.
by move/hasP: h; apply; exists i => //; rewrite /itv_contains h3 (le_trans (ltW x0) h2).
Qed.
Lemma no_zero_neg s i x : itvs_contains s 0 = false -> i \in s -> left i <= x <= right i ->
  x < 0 -> right i < 0.
Proof.
move=> h si /andP[h1 h2] x0; rewrite ltNge; apply/negP => h3.
by move/hasP: h; apply; exists i => //; rewrite /itv_contains h3 (le_trans h1 (ltW x0)).
Qed.

Lemma min_posP s : good s -> s != [::] -> itvs_contains s 0 = false ->
  (exists2 m, itvs_min_pos s = Ok (PyNum m) &
     [/\ 0 < m, itvs_contains s m & forall x, itvs_contains s x -> 0 < x -> m <= x]) \/
  (itvs_min_pos s = Ok (PyNone R) /\ forall x, itvs_contains s x -> ~~ (0 < x)).
Proof.
case/andP=> ws _ ns nz; rewrite /itvs_min_pos nz.
rewrite (_ : (size s == 0%N) = false); last by case: (s) ns.
set p := filter _ s; case: eqP => [e|ne]; last first.
  have np : [seq left i | i <- p] != [::] by case: (p) ne.
  have [m E [ml mle]] := np_minP np; left; exists m; first by rewrite E.
  case/mapP: (ml) => i; rewrite mem_filter => /andP[i0 si] mi; split.
  - by rewrite mi.
  - by rewrite mi; apply/hasP; exists i => //; apply/contains_left/(allP ws).
  move=> x /contains_between[j sj xj] x0; have j0 := no_zero_pos nz sj xj x0.
  by case/andP: xj => h _; apply: le_trans h; apply/mle/map_f; rewrite mem_filter j0.
right; split=> // x /contains_between[j sj xj]; apply/negP => x0.
have j0 := no_zero_pos nz sj xj x0.
have : j \in p by rewrite mem_filter j0.
by case: (p) e.
Qed.

Lemma max_negP s : good s -> s != [::] -> itvs_contains s 0 = false ->
  (exists2 m, itvs_max_neg s = Ok (PyNum m) &
     [/\ m < 0, itvs_contains s m & forall x, itvs_contains s x -> x < 0 -> x <= m]) \/
  (itvs_max_neg s = Ok (PyNone R) /\ forall x, itvs_contains s x -> ~~ (x < 0)).
Proof.
case/andP=> ws _ ns nz; rewrite /itvs_max_neg nz.
rewrite (_ : (size s == 0%N) = false); last by case: (s) ns.
set p := filter _ s; case: eqP => [e|ne]; last first.
  have np : [seq right i | i <- p] != [::] by case: (p) ne.
  have [m E [ml mle]] := np_maxP np; left; exists m; first by rewrite E.
  case/mapP: (ml) => i; rewrite mem_filter => /andP[i0 si] mi; split.
  - by rewrite mi.
  - by rewrite mi; apply/hasP; exists i => //; apply/contains_right/(allP ws).
  move=> x /contains_between[j sj xj] x0; have j0 := no_zero_neg nz sj xj x0.
  by case/andP: xj => _ h; apply: le_trans h _; apply/mle/map_f; rewrite mem_filter j0.
right; split=> // x /contains_between[j sj xj]; apply/negP => x0.
have j0 := no_zero_neg nz sj xj x0.
have : j \in p by rewrite mem_filter j0.
by case: (p) e.
Qed.

Lemma min_absP s : good s -> s != [::] ->
  exists2 m, itvs_min_abs s = Ok (PyNum m) &
    (exists2 x, itvs_contains s x & m = `|x|) /\ forall x, itvs_contains s x -> m <= `|x|.
Proof.
move=> gs ns; rewrite /itvs_min_abs; rewrite (_ : (size s == 0%N) = false); last by case: (s) ns.
case: ifP => nz.
  by exists 0 => //; split=> [|x _]; [exists 0; rewrite ?normr0|exact: normr_ge0].
have sgn x : itvs_contains s x -> (x < 0) || (0 < x).
  by move=> sx; case: ltgtP => // e; rewrite -e sx in nz.
case: (max_negP gs ns nz) => [[n -> [n0 sn nle]]|[-> nn]];
case: (min_posP gs ns nz) => [[p -> [p0 sp ple]]|[-> pp]] /=.
- exists (Num.min `|n| `|p|) => //; split.
    by rewrite minEle; case: ifP => _; [exists n|exists p].
  move=> x sx; rewrite le_minl; case/orP: (sgn _ sx) => h.
    by rewrite [`|n|]ltr0_norm // [`|x|]ltr0_norm // ler_opp2 nle.
  by rewrite [`|p|]gtr0_norm // [`|x|]gtr0_norm // ple // orbT.
- exists `|n| => //; split=> [|x sx]; first by exists n.
  case/orP: (sgn _ sx) => h; first by rewrite !ltr0_norm // ler_opp2 nle.
  by have := pp _ sx; rewrite h.
- exists `|p| => //; split=> [|x sx]; first by exists p.
  case/orP: (sgn _ sx) => h; first by have := nn _ sx; rewrite h.
  by rewrite !gtr0_norm // ple.
- have [m _ [sm _]] := itvs_minP gs ns.
  by case/orP: (sgn _ sm) => h; [have := nn _ sm|have := pp _ sm]; rewrite h.
Qed.

Lemma max_absP s : good s -> s != [::] ->
  exists2 m, itvs_max_abs s = Ok (PyNum m) &
    (exists2 x, itvs_contains s x & m = `|x|) /\ forall x, itvs_contains s x -> `|x| <= m.
Proof.
move=> gs ns; rewrite /itvs_max_abs; rewrite (_ : (size s == 0%N) = false); last by case: (s) ns.
have [a -> [sa ale]] := itvs_maxP gs ns; have [b -> [sb ble]] := itvs_minP gs ns => /=.
exists (Num.max `|a| `|b|) => //; split.
  by rewrite maxEle; case: ifP => _; [exists b|exists a].
move=> x sx; rewrite le_maxr; case: (ger0P x) => h.
  by rewrite (le_trans (ale _ sx) (ler_norm _)).
by rewrite orbC -[`|b|]normrN (le_trans _ (ler_norm _)) // ler_opp2 ble.
Qed.

Lemma min_pos_refuted : let s := [:: Itv (0 : R) 0; Itv 2%:R 3%:R] in
  [/\ good s, itvs_min_pos s = Ok (PyNone R) & exists m,
   [/\ 0 < m, itvs_contains s m & forall x, itvs_contains s x -> 0 < x -> m <= x]].
Proof.
move=> s; split.
- by rewrite /good /wfs /disjoint /= /wf /meets /= lexx ler_nat ler0n lern0.
- by rewrite /itvs_min_pos /= /itvs_contains /= /itv_contains /= lexx.
- exists 2%:R; rewrite ltr0n; split=> //.
    by rewrite /itvs_contains /= /itv_contains /= lexx ler_nat orbT.
  move=> x; rewrite /itvs_contains /= /itv_contains /= orbF => /orP[/andP[_ h]|/andP[//]].
  by rewrite ltNge h.
Qed.

(** ** gap *)
Lemma gap_individualP (lamda sigma : seq R) : lamda != [::] -> sigma != [::] ->
  exists2 d, gap lamda sigma Individual = Ok (GNum d) &
    (exists l t, [/\ l \in lamda, t \in sigma & d = `|l - t|]) /\
    forall l t, l \in lamda -> t \in sigma -> d <= `|l - t|.
Proof.
move=> nl nt; have ne : [seq `|l - t| | l <- lamda, t <- sigma] != [::].
  by rewrite -size_eq0 size_allpairs muln_eq0 !size_eq0 negb_or nl.
have [d E [dm dle]] := np_minP ne; exists d; first by rewrite /gap E.
split; first by case/allpairsP: dm => -[l t] /= [h1 h2 ->]; exists l, t.
by move=> l t hl ht; apply: dle; apply/allpairsP; exists (l, t).
Qed.

(** [delta] is admissible: no sigma lies in [min lamda - delta, max lamda + delta]. *)
Definition outside (lmin lmax delta : R) (sigma : seq R) :=
  all (fun t => (t < lmin - delta) || (lmax + delta < t)) sigma.

Lemma gap_intervalP (lamda sigma : seq R) : lamda != [::] ->
  exists lmin lmax, [/\ lmin \in lamda, lmax \in lamda,
    (forall l, l \in lamda -> lmin <= l <= lmax) &
    match gap lamda sigma IntervalMode with
    | Ok (GNum d) => [/\ 0 <= d, forall e, 0 <= e -> (outside lmin lmax e sigma <-> e < d)
        & all (fun t => (t <= lmin) || (lmax <= t)) sigma]
    | Ok (GInf) => sigma = [::]
    | Ok (GNone) => exists2 t, t \in sigma & lmin < t < lmax
    | Err _ => False
    end].
Proof.
move=> nl; have [lmin Emin [i1 min_le]] := np_minP nl; have [lmax Emax [i2 max_le]] := np_maxP nl.
exists lmin, lmax; split=> // [l hl|]; first by rewrite min_le // max_le.
rewrite /gap Emin Emax /=; case: ifP => [/allPn[t ht]|/negbT].
  by rewrite negb_or -!ltNge => /andP[h1 h2]; exists t => //; rewrite h1.
rewrite negbK => allo.
have mm : lmin <= lmax by apply: min_le.
case: ifP => [hl|/negbT hl].
  have nf : [seq t <- sigma | t <= lmin] != [::] by rewrite -has_filter.
  have [m Em [im mle]] := np_maxP nf; rewrite Em /=.
  move: im; rewrite mem_filter => /andP[mlo ms].
  case: ifP => [hh|/negbT hh].
    have nf2 : [seq t <- sigma | t >= lmax] != [::] by rewrite -has_filter.
    have [n En [inn nle]] := np_minP nf2; rewrite En /=.
    move: inn; rewrite mem_filter => /andP[nhi ns].
    split=> //; first by rewrite le_minr !subr_ge0 mlo.
    move=> e e0; rewrite lt_minr; split.
      move=> /allP ho; apply/andP; split.
        case/orP: (ho _ ms) => h; first by rewrite ltr_subr_addr addrC -ltr_subr_addr.
        have : lmin < lmin; last by rewrite ltxx.
        by apply: le_lt_trans mm _; apply: le_lt_trans (lt_le_trans h mlo); rewrite ler_addl.
      case/orP: (ho _ ns) => h; last by rewrite ltr_subr_addr addrC.
      have : lmax < lmax; last by rewrite ltxx.
      apply: le_lt_trans nhi _; apply: lt_le_trans h _; apply: le_trans mm.
      by rewrite ler_subl_addr ler_addl.
    case/andP=> h1 h2; apply/allP=> t ts; case/orP: (allP allo _ ts) => h.
      have tm : t <= m by apply: mle; rewrite mem_filter h.
      by rewrite (le_lt_trans tm) // ltr_subr_addr addrC -ltr_subr_addr.
    have tn : n <= t by apply: nle; rewrite mem_filter h.
    by rewrite orbC (lt_le_trans _ tn) // addrC -ltr_subr_addr.
  split=> //; first by rewrite subr_ge0.
  have nohi t : t \in sigma -> t < lmax.
    by move=> ts; rewrite ltNge; apply: contra hh => h; apply/hasP; exists t.
  move=> e e0; split.
    move=> /allP ho; case/orP: (ho _ ms) => h; first by rewrite ltr_subr_addr addrC -ltr_subr_addr.
    have : lmin < lmin; last by rewrite ltxx.
    by apply: le_lt_trans mm _; apply: le_lt_trans (lt_le_trans h mlo); rewrite ler_addl.
  move=> h1; apply/allP=> t ts; case/orP: (allP allo _ ts) => h.
    have tm : t <= m by apply: mle; rewrite mem_filter h.
    by rewrite (le_lt_trans tm) // ltr_subr_addr addrC -ltr_subr_addr.
  by have := nohi _ ts; rewrite ltNge h.
rewrite /=; case: ifP => [hh|/negbT hh].
  have nf2 : [seq t <- sigma | t >= lmax] != [::] by rewrite -has_filter.
  have [n En [inn nle]] := np_minP nf2; rewrite En /=.
  move: inn; rewrite mem_filter => /andP[nhi ns].
  split=> //; first by rewrite subr_ge0.
  move=> e e0; split.
    move=> /allP ho; case/orP: (ho _ ns) => h; last by rewrite ltr_subr_addr addrC.
    have : lmax < lmax; last by rewrite ltxx.
    apply: le_lt_trans nhi _; apply: lt_le_trans h _; apply: le_trans mm.
    by rewrite ler_subl_addr ler_addl.
  move=> h2; apply/allP=> t ts; case/orP: (allP allo _ ts) => h.
    by case/negP: hl; apply/hasP; exists t.
  have tn : n <= t by apply: nle; rewrite mem_filter h.
  by rewrite orbC (lt_le_trans _ tn) // addrC -ltr_subr_addr.
by case: (sigma) allo hl hh => //= t sg /andP[/orP[]-> _].
Qed.
End Proof.
