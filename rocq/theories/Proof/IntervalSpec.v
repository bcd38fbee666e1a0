From mathcomp Require Import all_ssreflect all_algebra.
From Verif Require Import Base Model.Interval Spec.Interval Proof.Interval.

Set Implicit Arguments.
Unset Strict Implicit.
Unset Printing Implicit Defensive.
Import Order.TTheory GRing.Theory Num.Theory.
Local Open Scope ring_scope.

Section Spec.
Variable R : realFieldType.
Implicit Types (a b i : itv R) (s : itvs R).


Lemma memP a x : reflect (mem_itv a x) (itv_contains a x).
Proof. exact: andP. Qed.
Lemma contains_spec a x : itv_contains a x <-> mem_itv a x.
Proof. by split=> /memP. Qed.
Lemma unionP s x : reflect (mem_union s x) (itvs_contains s x).
Proof.
apply: (iffP hasP) => -[a h1 h2]; exists a => //; exact/memP.
Qed.
Lemma validP a : valid a <-> wf a. Proof. by []. Qed.

Lemma intersection_spec a b : valid a -> valid b ->
  match itv_and a b with
  | Ok (Some c) => valid c /\ forall x, mem_itv c x <-> mem_itv a x /\ mem_itv b x
  | Ok None => forall x, ~ (mem_itv a x /\ mem_itv b x)
  | Err _ => False
  end.
Proof.
move=> va vb; have := and_contains va vb; case: (itv_and a b) => // -[c [wc H]|H].
  split=> // x; split=> [/memP|[/memP h1 /memP h2]]; last by apply/memP; rewrite H h1.
  by rewrite H => /andP[/memP h1 /memP h2].
by move=> x [/memP h1 /memP h2]; have := H x; rewrite h1 h2.
Qed.

Lemma union_spec a b : valid a -> valid b ->
  match itv_or a b with
  | Ok (Some c) => [/\ valid c, (exists x, mem_itv a x /\ mem_itv b x)
                     & forall x, mem_itv c x <-> mem_itv a x \/ mem_itv b x]
  | Ok None => forall x, ~ (mem_itv a x /\ mem_itv b x)
  | Err _ => False
  end.
Proof.
move=> va vb; have := or_contains va vb; case: (itv_or a b) => // -[c [wc [x0 /andP[h1 h2]] H]|H].
  split=> // [|x]; first by exists x0; split; apply/memP.
  split=> [/memP|h]; first by rewrite H => /orP[]/memP; [left|right].
  by apply/memP; rewrite H; case: h => /memP->; rewrite ?orbT.
by move=> x [/memP h1 /memP h2]; have := H x; rewrite h1 h2.
Qed.

Lemma distance_spec a b : valid a -> valid b -> exists2 d, itv_distance a b = Ok d &
  [/\ (forall x y, mem_itv a x -> mem_itv b y -> d <= `|x - y|)
    & exists x y, [/\ mem_itv a x, mem_itv b y & `|x - y| = d]].
Proof.
move=> va vb; have [d E [H1 [x [y [h1 h2 h3]]]]] := distanceP va vb; exists d => //; split.
  by move=> u v /memP h4 /memP h5; apply: H1.
by exists x, y; split=> //; apply/memP.
Qed.

Lemma wfsP s : reflect (forall a, a \in s -> valid a) (wfs s).
Proof. exact: allP. Qed.

Lemma disjointP s : wfs s -> reflect (disjoint_family s) (disjoint s).
Proof.
move=> ws; apply: (iffP idP) => [ds i j x /andP[ij js] d m1 m2|df].
  have wi : wf (nth d s i) by apply/(allP ws)/mem_nth/(ltn_trans ij js).
  have wj : wf (nth d s j) by apply/(allP ws)/mem_nth.
  have/(pairwiseP d)/(_ i j) := ds.
  rewrite !inE js (ltn_trans ij js) => /(_ isT isT ij)/negP; apply.
  by apply/(itv_meetsP wi wj); exists x; split; apply/memP.
apply/(pairwiseP (Itv 0 0)) => i j; rewrite !inE => si sj ij.
apply/negP => /(itv_meetsP (allP ws _ (mem_nth _ si)) (allP ws _ (mem_nth _ sj)))[x [h1 h2]].
by apply: (df i j x _ (Itv 0 0)); rewrite ?ij //; apply/memP.
Qed.

Lemma goodP s : good s <-> (forall a, a \in s -> valid a) /\ disjoint_family s.
Proof.
split; first by case/andP=> ws /(disjointP ws) ds; split=> //; apply/wfsP.
by case=> /wfsP ws /(disjointP ws) ds; apply/andP.
Qed.

Lemma add_disjoint_union (orders : nat -> itvs R -> itvs R) (news : seq (itv R)) :
  (forall n, some_order (orders n)) -> (forall a, a \in news -> valid a) ->
  exists2 s, adds orders [::] news = Ok s &
    [/\ (forall a, a \in s -> valid a), disjoint_family s,
        (forall x, mem_union s x <-> mem_union news x)
      & forall x, itvs_contains s x <-> mem_union news x].
Proof.
move=> Ho /wfsP wn; have [s E [/goodP[g1 g2] H]] := addsP Ho (good0 _) wn.
have H' x : itvs_contains s x <-> mem_union news x.
  by rewrite H /=; split=> /unionP.
exists s => //; split=> // x; split=> [/unionP/H'//|/H'/unionP//].
Qed.

Lemma order_independent o1 o2 (news1 news2 : seq (itv R)) s1 s2 :
  (forall n, some_order (o1 n)) -> (forall n, some_order (o2 n)) ->
  (forall a, a \in news1 -> valid a) -> perm_eq news1 news2 ->
  adds o1 [::] news1 = Ok s1 -> adds o2 [::] news2 = Ok s2 -> perm_eq s1 s2.
Proof. by move=> h1 h2 /wfsP; apply: adds_order_independent. Qed.

Lemma endpoints_spec s : sorted <=%R (endpoints s) /\
  forall x, (x \in endpoints s) <-> exists2 a, a \in s & x = left a \/ x = right a.
Proof.
split=> [|x]; first exact: endpoints_sorted.
rewrite endpoints_mem; split.
  by case/hasP=> a sa /orP[]/eqP->; exists a; [|left| |right].
by case=> a sa [->|->]; apply/hasP; exists a; rewrite // eqxx ?orbT.
Qed.

Lemma spec_good s : reachable s -> good s. Proof. by move/goodP. Qed.

Lemma min_spec s : reachable s -> s != [::] ->
  exists2 m, itvs_min s = Ok (PyNum m) & mem_union s m /\ forall x, mem_union s x -> m <= x.
Proof.
move=> /spec_good g n; have [m E [/unionP h H]] := itvs_minP g n; exists m => //; split=> // x /unionP; exact: H.
Qed.
Lemma max_spec s : reachable s -> s != [::] ->
  exists2 m, itvs_max s = Ok (PyNum m) & mem_union s m /\ forall x, mem_union s x -> x <= m.
Proof.
move=> /spec_good g n; have [m E [/unionP h H]] := itvs_maxP g n; exists m => //; split=> // x /unionP; exact: H.
Qed.
Lemma min_abs_spec s : reachable s -> s != [::] ->
  exists2 m, itvs_min_abs s = Ok (PyNum m) &
    (exists2 x, mem_union s x & m = `|x|) /\ forall x, mem_union s x -> m <= `|x|.
Proof.
move=> /spec_good g n; have [m E [[y /unionP h e] H]] := min_absP g n.
by exists m => //; split=> [|x /unionP]; [exists y|exact: H].
Qed.
Lemma max_abs_spec s : reachable s -> s != [::] ->
  exists2 m, itvs_max_abs s = Ok (PyNum m) &
    (exists2 x, mem_union s x & m = `|x|) /\ forall x, mem_union s x -> `|x| <= m.
Proof.
move=> /spec_good g n; have [m E [[y /unionP h e] H]] := max_absP g n.
by exists m => //; split=> [|x /unionP]; [exists y|exact: H].
Qed.
Lemma min_pos_spec s : reachable s -> s != [::] -> ~ mem_union s 0 ->
  (exists2 m, itvs_min_pos s = Ok (PyNum m) &
     [/\ 0 < m, mem_union s m & forall x, mem_union s x -> 0 < x -> m <= x]) \/
  (itvs_min_pos s = Ok (PyNone R) /\ forall x, mem_union s x -> ~~ (0 < x)).
Proof.
move=> /spec_good g n /unionP/negbTE nz.
case: (min_posP g n nz) => [[m E [m0 /unionP sm H]]|[E H]]; [left; exists m => //|right]; split=> //.
  by move=> x /unionP; apply: H.
by move=> x /unionP; apply: H.
Qed.
Lemma max_neg_spec s : reachable s -> s != [::] -> ~ mem_union s 0 ->
  (exists2 m, itvs_max_neg s = Ok (PyNum m) &
     [/\ m < 0, mem_union s m & forall x, mem_union s x -> x < 0 -> x <= m]) \/
  (itvs_max_neg s = Ok (PyNone R) /\ forall x, mem_union s x -> ~~ (x < 0)).
Proof.
move=> /spec_good g n /unionP/negbTE nz.
case: (max_negP g n nz) => [[m E [m0 /unionP sm H]]|[E H]]; [left; exists m => //|right]; split=> //.
  by move=> x /unionP; apply: H.
by move=> x /unionP; apply: H.
Qed.
Lemma min_pos_refuted_spec : let s := [:: Itv (0 : R) 0; Itv 2%:R 3%:R] in
  [/\ reachable s, itvs_min_pos s = Ok (PyNone R) & exists m,
   [/\ 0 < m, mem_union s m & forall x, mem_union s x -> 0 < x -> m <= x]].
Proof.
move=> s; have [/goodP g E [m [m0 /unionP sm H]]] := min_pos_refuted R; split=> //.
by exists m; split=> // x /unionP; apply: H.
Qed.
Lemma empty_query :
  let e := Ok (ErrObject R ArgumentError) in
  [/\ itvs_min [::] = e, itvs_max [::] = e, itvs_min_pos [::] = e
    & [/\ itvs_max_neg [::] = e, itvs_min_abs [::] = e & itvs_max_abs [::] = e]].
Proof. by []. Qed.

Lemma gap_interval_spec (lamda sigma : seq R) lmin lmax :
  lmin \in lamda -> lmax \in lamda -> (forall l, l \in lamda -> lmin <= l /\ l <= lmax) ->
  match gap lamda sigma IntervalMode with
  | Ok (GNum d) => [/\ 0 <= d, forall e, 0 <= e -> (admissible lmin lmax e sigma <-> e < d)
      & forall t, t \in sigma -> ~ (lmin < t /\ t < lmax)]
  | Ok (GInf) => sigma = [::]
  | Ok (GNone) => exists2 t, t \in sigma & lmin < t /\ t < lmax
  | Err _ => False
  end.
Proof.
move=> i1 i2 hull; have nl : lamda != [::] by case: (lamda) i1.
have [a [b [j1 j2 hull' H]]] := gap_intervalP sigma nl.
have ea : a = lmin.
  by apply/eqP; rewrite eq_le (proj1 (hull _ j1)) andbT; case/andP: (hull' _ i1).
have eb : b = lmax.
  by apply/eqP; rewrite eq_le (proj2 (hull _ j2)) /=; case/andP: (hull' _ i2).
subst a b; case: (gap _ _ _) H => // -[d [d0 Hd Ho]|//|[t ht /andP h]]; last by exists t.
split=> // [e e0|t ht [h1 h2]]; last first.
  by have := allP Ho _ ht; rewrite leNgt h1 leNgt h2.
rewrite -Hd //; split=> [adm|/allP adm t ht [h1 h2]]; last first.
  by have := adm _ ht; rewrite ltNge h1 ltNge h2.
apply/allP=> t ht; apply: contraT; rewrite negb_or -!leNgt => /andP[h1 h2].
by case: (adm t ht).
Qed.

End Spec.

(** Concrete rational instances, checked by computation. *)
Lemma add_example :
  let news := [:: Itv (0 : rat) 1; Itv 3%:R 4%:R; Itv 1 3%:R] in
  (if adds (fun _ t => rev t) [::] news is Ok s then s == [:: Itv 0 4%:R] else false) /\
  (forall a, a \in news -> valid a).
Proof. by move=> news; split; [vm_compute|apply/wfsP; vm_compute]. Qed.
Lemma gap_example :
  if gap [:: (1 : rat); 3%:R] [:: 0; 5%:R] IntervalMode is Ok (GNum d) then d == 1 else false.
Proof. by vm_compute. Qed.
