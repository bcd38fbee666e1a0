(** C34-C37: intervals and spectral gaps. *)
From mathcomp Require Import all_ssreflect all_algebra.
From Verif Require Import Base Model.Interval Spec.Interval Proof.Interval Proof.IntervalSpec.

Set Implicit Arguments.
Unset Strict Implicit.
Unset Printing Implicit Defensive.
Import Order.TTheory GRing.Theory Num.Theory.
Local Open Scope ring_scope.

Section Properties.
Variable R : realFieldType.
Implicit Types (a b i : itv R) (s : itvs R).

(** C34 *)
Theorem C34_constructor (l : R) (r : option R) :
  mk_itv l r = (if (if r is Some r' then r' else l) < l then Err ArgumentError
                else Ok (Itv l (if r is Some r' then r' else l))).
Proof. exact: erefl. Qed.

Theorem C34_contains a x : itv_contains a x <-> mem_itv a x.
Proof. exact: contains_spec. Qed.

Theorem C34_intersection a b : valid a -> valid b ->
  match itv_and a b with
  | Ok (Some c) => valid c /\ forall x, mem_itv c x <-> mem_itv a x /\ mem_itv b x
  | Ok None => forall x, ~ (mem_itv a x /\ mem_itv b x)
  | Err _ => False
  end.
Proof. exact: intersection_spec. Qed.

Theorem C34_union a b : valid a -> valid b ->
  match itv_or a b with
  | Ok (Some c) => [/\ valid c, (exists x, mem_itv a x /\ mem_itv b x)
                     & forall x, mem_itv c x <-> mem_itv a x \/ mem_itv b x]
  | Ok None => forall x, ~ (mem_itv a x /\ mem_itv b x)
  | Err _ => False
  end.
Proof. exact: union_spec. Qed.

Theorem C34_distance a b : valid a -> valid b -> exists2 d, itv_distance a b = Ok d &
  [/\ (forall x y, mem_itv a x -> mem_itv b y -> d <= `|x - y|)
    & exists x y, [/\ mem_itv a x, mem_itv b y & `|x - y| = d]].
Proof. exact: distance_spec. Qed.

Example C34_example : valid (Itv (1 : R) 2%:R) /\ valid (Itv (2%:R : R) 2%:R).
Proof. by rewrite /valid /= ler1n lexx. Qed.

(** C35.  Whatever the iteration orders, adding intervals never fails and yields
    pairwise disjoint intervals with exactly the same union ... *)
Theorem C35_add_disjoint_union (orders : nat -> itvs R -> itvs R) (news : seq (itv R)) :
  (forall n, some_order (orders n)) -> (forall a, a \in news -> valid a) ->
  exists2 s, adds orders [::] news = Ok s &
    [/\ (forall a, a \in s -> valid a), disjoint_family s,
        (forall x, mem_union s x <-> mem_union news x)
      & forall x, itvs_contains s x <-> mem_union news x].
Proof. exact: add_disjoint_union. Qed.

(** ... and the resulting set does not depend on the orders nor on the order of
    insertion. *)
Theorem C35_order_independent o1 o2 (news1 news2 : seq (itv R)) s1 s2 :
  (forall n, some_order (o1 n)) -> (forall n, some_order (o2 n)) ->
  (forall a, a \in news1 -> valid a) -> perm_eq news1 news2 ->
  adds o1 [::] news1 = Ok s1 -> adds o2 [::] news2 = Ok s2 -> perm_eq s1 s2.
Proof. exact: order_independent. Qed.

(** get_endpoints returns the sorted endpoints. *)
Theorem C35_endpoints s : sorted <=%R (endpoints s) /\
  forall x, (x \in endpoints s) <-> exists2 a, a \in s & x = left a \/ x = right a.
Proof. exact: endpoints_spec. Qed.

(** Non-vacuity: three intervals, the third one bridging the first two. *)
Example C35_example :
  let news := [:: Itv (0 : rat) 1; Itv 3%:R 4%:R; Itv 1 3%:R] in
  (if adds (fun _ t => rev t) [::] news is Ok s then s == [:: Itv 0 4%:R] else false) /\
  (forall a : itv _, a \in news -> valid a).
Proof. exact: add_example. Qed.

(** C36 *)
Theorem C36_min s : reachable s -> s != [::] ->
  exists2 m, itvs_min s = Ok (PyNum m) & mem_union s m /\ forall x, mem_union s x -> m <= x.
Proof. exact: min_spec. Qed.
Theorem C36_max s : reachable s -> s != [::] ->
  exists2 m, itvs_max s = Ok (PyNum m) & mem_union s m /\ forall x, mem_union s x -> x <= m.
Proof. exact: max_spec. Qed.
Theorem C36_min_abs s : reachable s -> s != [::] ->
  exists2 m, itvs_min_abs s = Ok (PyNum m) &
    (exists2 x, mem_union s x & m = `|x|) /\ forall x, mem_union s x -> m <= `|x|.
Proof. exact: min_abs_spec. Qed.
Theorem C36_max_abs s : reachable s -> s != [::] ->
  exists2 m, itvs_max_abs s = Ok (PyNum m) &
    (exists2 x, mem_union s x & m = `|x|) /\ forall x, mem_union s x -> `|x| <= m.
Proof. exact: max_abs_spec. Qed.
(** min_pos/max_neg are right if 0 is not in the set. *)
Theorem C36_min_pos_partial s : reachable s -> s != [::] -> ~ mem_union s 0 ->
  (exists2 m, itvs_min_pos s = Ok (PyNum m) &
     [/\ 0 < m, mem_union s m & forall x, mem_union s x -> 0 < x -> m <= x]) \/
  (itvs_min_pos s = Ok (PyNone R) /\ forall x, mem_union s x -> ~~ (0 < x)).
Proof. exact: min_pos_spec. Qed.
Theorem C36_max_neg_partial s : reachable s -> s != [::] -> ~ mem_union s 0 ->
  (exists2 m, itvs_max_neg s = Ok (PyNum m) &
     [/\ m < 0, mem_union s m & forall x, mem_union s x -> x < 0 -> x <= m]) \/
  (itvs_max_neg s = Ok (PyNone R) /\ forall x, mem_union s x -> ~~ (x < 0)).
Proof. exact: max_neg_spec. Qed.
(** Finding: with {0} u [2,3] the minimal positive value is 2 but None is returned. *)
Theorem C36_min_pos_refuted : let s := [:: Itv (0 : R) 0; Itv 2%:R 3%:R] in
  [/\ reachable s, itvs_min_pos s = Ok (PyNone R) & exists m,
   [/\ 0 < m, mem_union s m & forall x, mem_union s x -> 0 < x -> m <= x]].
Proof. exact: min_pos_refuted_spec. Qed.
(** Finding: on an empty set nothing is raised; an exception object is returned. *)
Theorem C36_empty_returns_exception_object_refuted :
  let e := Ok (ErrObject R ArgumentError) in
  [/\ itvs_min [::] = e, itvs_max [::] = e, itvs_min_pos [::] = e
    & [/\ itvs_max_neg [::] = e, itvs_min_abs [::] = e & itvs_max_abs [::] = e]].
Proof. exact: empty_query. Qed.

(** C37 *)
Theorem C37_gap_individual (lamda sigma : seq R) : lamda != [::] -> sigma != [::] ->
  exists2 d, gap lamda sigma Individual = Ok (GNum d) &
    (exists l t, [/\ l \in lamda, t \in sigma & d = `|l - t|]) /\
    forall l t, l \in lamda -> t \in sigma -> d <= `|l - t|.
Proof. exact: gap_individualP. Qed.

(** The returned number is the supremum of the admissible margins; infinity is
    returned only for empty sigma, None exactly if a sigma lies strictly
    inside the hull of lamda. *)
Theorem C37_gap_interval (lamda sigma : seq R) lmin lmax :
  lmin \in lamda -> lmax \in lamda -> (forall l, l \in lamda -> lmin <= l /\ l <= lmax) ->
  match gap lamda sigma IntervalMode with
  | Ok (GNum d) => [/\ 0 <= d, forall e, 0 <= e -> (admissible lmin lmax e sigma <-> e < d)
      & forall t, t \in sigma -> ~ (lmin < t /\ t < lmax)]
  | Ok (GInf) => sigma = [::]
  | Ok (GNone) => exists2 t, t \in sigma & lmin < t /\ t < lmax
  | Err _ => False
  end.
Proof. exact: gap_interval_spec. Qed.

Example C37_example :
  if gap [:: (1 : rat); 3%:R] [:: 0; 5%:R] IntervalMode is Ok (GNum d) then d == 1 else false.
Proof. exact: gap_example. Qed.

(** Finding: an unknown mode is not rejected, None is returned. *)
Theorem C37_unknown_mode_refuted (lamda sigma : seq R) : gap lamda sigma OtherMode = Ok (GNone R).
Proof. exact: erefl. Qed.
End Properties.

Print Assumptions C34_constructor.
Print Assumptions C34_contains.
Print Assumptions C34_intersection.
Print Assumptions C34_union.
Print Assumptions C34_distance.
Print Assumptions C35_add_disjoint_union.
Print Assumptions C35_order_independent.
Print Assumptions C35_endpoints.
Print Assumptions C36_min.
Print Assumptions C36_max.
Print Assumptions C36_min_abs.
Print Assumptions C36_max_abs.
Print Assumptions C36_min_pos_partial.
Print Assumptions C36_max_neg_partial.
Print Assumptions C36_min_pos_refuted.
Print Assumptions C36_empty_returns_exception_object_refuted.
Print Assumptions C37_gap_individual.
Print Assumptions C37_gap_interval.
Print Assumptions C37_unknown_mode_refuted.
