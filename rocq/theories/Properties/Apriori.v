(** C63: the evaluator RitzApriori. *)
From mathcomp Require Import all_ssreflect all_algebra ring zify.
From Verif Require Import Base Model.Interval Spec.Interval Proof.Interval Proof.IntervalSpec.
From Verif Require Import Model.Evaluators Proof.Evaluators Model.Bounds.
From Verif Require Properties.Bounds.

Set Implicit Arguments.
Unset Strict Implicit.
Unset Printing Implicit Defensive.
Import Order.TTheory GRing.Theory Num.Theory.
Local Open Scope ring_scope.

Section C63.
Variable F : rcfType.
Implicit Types (ritz : ritzdata F) (q : seq nat) (order : seq nat -> seq nat) (orders : nat -> itvs F -> itvs F).

Local Notation val ritz i := (nth 0 (rz_values ritz) i).
Local Notation rsn ritz i := (nth 0 (rz_resnorms ritz) i).
Local Notation nv ritz := (size (rz_values ritz)).

(** A Ritz object has as many residual norms as values; they are norms. *)
Definition ritz_ok ritz : Prop :=
  size (rz_resnorms ritz) = nv ritz /\ forall r, r \in rz_resnorms ritz -> 0 <= r.
(** A frozenset of indices of Ritz values *)
Definition subset_ok ritz q : Prop := uniq q /\ forall i, i \in q -> (i < nv ritz)%N.
(** The iteration orders of sets are permutations. *)
Definition orders_ok order orders : Prop :=
  (forall s, perm_eq (order s) s) /\ forall n, some_order (orders n).

Definition minimum (P : F -> Prop) (m : F) : Prop := P m /\ forall x, P x -> m <= x.
(** Distances between a chosen and another Ritz value; moduli of the chosen ones *)
Definition distance ritz q (d : F) : Prop :=
  exists i j, [/\ i \in q, (j < nv ritz)%N, j \notin q & d = `|val ritz i - val ritz j|].
Definition modulus ritz q (d : F) : Prop := exists2 i, i \in q & d = `|val ritz i|.

Let rem_mem order orders ritz q j : orders_ok order orders ->
  (j \in remaining order (nv ritz) q) = (j < nv ritz)%N && (j \notin q).
Proof. by case=> ho _; rewrite (perm_mem (ho _)) mem_filter mem_iota /= add0n andbC. Qed.
Let rem_all order orders ritz q : orders_ok order orders ->
  all (fun i => i < nv ritz)%N (remaining order (nv ritz) q).
Proof. by move=> ho; apply/allP => j; rewrite (rem_mem _ _ _ ho) => /andP[]. Qed.
Let sub_perm ritz q : subset_ok ritz q -> perm_eq q [seq i <- iota 0 (nv ritz) | i \in q].
Proof.
case=> u h; apply: uniq_perm => //; first by rewrite filter_uniq // iota_uniq.
by move=> i; rewrite mem_filter mem_iota /= add0n; case: (boolP (i \in q)) => // /h ->.
Qed.
Let sub_split ritz q order orders : orders_ok order orders -> subset_ok ritz q ->
  perm_eq (q ++ remaining order (nv ritz) q) (iota 0 (nv ritz)).
Proof.
move=> [ho _] hq; apply: (perm_trans (perm_cat (sub_perm hq) (ho _))).
by rewrite perm_filterC.
Qed.
Let sub_size ritz q order orders : orders_ok order orders -> subset_ok ritz q ->
  (size q + size (remaining order (nv ritz) q))%N = nv ritz.
Proof. by move=> ho hq; rewrite -size_cat (perm_size (sub_split ho hq)) size_iota. Qed.

(** C63, strategy "simple".  The bound is constructed from the Ritz values that are not chosen:
    together with the chosen ones, these are all Ritz values. *)
Theorem C63_simple ritz q order orders : orders_ok order orders -> subset_ok ritz q ->
  exists2 W, apriori_arg order orders Simple ritz q = Ok (BaList W) &
    perm_eq ([seq val ritz i | i <- q] ++ W) (rz_values ritz).
Proof.
move=> ho hq; exists [seq val ritz i | i <- remaining order (nv ritz) q].
  by rewrite /apriori_arg take_idxE ?(rem_all _ _ ho).
rewrite -map_cat; have := perm_map (fun i => val ritz i) (sub_split ho hq).
by rewrite -/(mkseq _ _) mkseq_nth.
Qed.

Let argE ritz q order orders : orders_ok order orders -> ritz_ok ritz -> subset_ok ritz q ->
  q != [::] -> (size q < nv ritz)%N ->
  let V := [seq val ritz i | i <- q] in
  let W := [seq val ritz i | i <- remaining order (nv ritz) q] in
  let d := norm2 [seq rsn ritz i | i <- q] in
  exists delta mumin, [/\ is_min (dists V W) delta, is_min (mods V) mumin &
    apriori_arg order orders Inclusion ritz q =
      if delta <= d then Err AssumptionError else if mumin == 0 then Err AssumptionError else
      rmap (@BaItvs F) (adds orders [::] [seq Itv (mu - eta d delta mumin) (mu + eta d delta mumin) | mu <- W])].
Proof.
move=> ho [hr _] hq q0 qn.
have r0 : remaining order (nv ritz) q != [::].
  by rewrite -size_eq0 -(eqn_add2l (size q)) addn0 (sub_size ho hq) gtn_eqF.
have [||dl [mm [h1 h2 h3]]] := estE (ho.2) hr _ (rem_all ritz q ho) (q := q) _ q0 r0.
- by apply/allP=> i; apply: hq.2.
- by move=> e; rewrite e ltnn in qn.
by exists dl, mm; split=> //; rewrite /apriori_arg h3; case: ifP => // _; case: ifP.
Qed.

Let distsP ritz q order orders : orders_ok order orders -> forall x,
  dists [seq val ritz i | i <- q] [seq val ritz i | i <- remaining order (nv ritz) q] x <-> distance ritz q x.
Proof.
move=> ho x; split.
  case=> _ [_ [/mapP[i hi ->] /mapP[j hj ->] ->]]; move: hj; rewrite (rem_mem _ _ _ ho) => /andP[h1 h2].
  by exists i, j.
case=> i [j [h1 h2 h3 ->]]; exists (val ritz i), (val ritz j); split=> //; first exact: map_f.
by apply: map_f; rewrite (rem_mem _ _ _ ho) h2.
Qed.
Let modsP ritz q x : mods [seq val ritz i | i <- q] x <-> modulus ritz q x.
Proof. by split=> [[_ /mapP[i hi ->] ->]|[i hi ->]]; [exists i|exists (val ritz i); rewrite ?map_f]. Qed.

(** C63, strategy "intervals".  Let delta be the smallest distance between a chosen Ritz value
    and another one, mu_min the smallest modulus of a chosen one and d the norm of the vector of
    their residual norms.  If d >= delta or mu_min = 0, AssumptionError is raised.  Otherwise the
    bound is constructed from a family of disjoint intervals; their union contains exactly
    the numbers with distance at most d^2 (1/delta + 1/mu_min) to a Ritz value that is not
    chosen. *)
Theorem C63_intervals ritz q order orders : orders_ok order orders -> ritz_ok ritz -> subset_ok ritz q ->
  q != [::] -> (size q < nv ritz)%N ->
  exists delta mumin d, [/\ minimum (distance ritz q) delta, minimum (modulus ritz q) mumin,
    0 <= d /\ d ^+ 2 = \sum_(i <- q) rsn ritz i ^+ 2 &
    let arg := apriori_arg order orders Inclusion ritz q in
    [/\ delta <= d -> arg = Err AssumptionError, mumin = 0 -> arg = Err AssumptionError &
     d < delta -> mumin <> 0 -> exists2 s, arg = Ok (BaItvs s) & disjoint_family s /\
       forall x, mem_union s x <-> exists j, [/\ (j < nv ritz)%N, j \notin q &
         `|x - val ritz j| <= d ^+ 2 * (1 / delta + 1 / mumin)]]].
Proof.
move=> ho hr hq q0 qn; have [dl [mm [[h1 h1'] [h2 h2'] ->]]] := argE ho hr hq q0 qn.
exists dl, mm, (norm2 [seq rsn ritz i | i <- q]); split.
- by split=> [|x /(distsP _ _ ho)]; [exact/(distsP _ _ ho)|exact: h1'].
- by split=> [|x /modsP]; [exact/modsP|exact: h2'].
- by rewrite norm2_ge0 norm2_sqr big_map.
move=> arg; rewrite {}/arg; split=> [-> //|->|hd /eqP/negbTE->]; first by rewrite eqxx; case: ifP.
rewrite leNgt hd /=; set e := eta _ _ _.
have e0 : 0 <= e.
  rewrite /e /eta mulr_ge0 ?sqr_ge0 // addr_ge0 // divr_ge0 ?ler01 //.
    by case: h1 => x [y [_ _ ->]].
  by case: h2 => x _ ->.
have [|s -> [_ g2 g3 _]] := add_disjoint_union (news := [seq Itv (mu - e) (mu + e) | mu <- [seq val ritz i | i <- remaining order (nv ritz) q]]) ho.2.
  by move=> a /mapP[mu _ ->]; rewrite /valid /= (le_trans (_ : _ <= mu)) ?ler_addl // ger_addl oppr_le0.
exists s => //; split=> // x; rewrite g3 mem_ball; split.
  case=> _ /mapP[j hj ->] h; move: hj; rewrite (rem_mem _ _ _ ho) => /andP[j1 j2].
  by exists j.
case=> j [j1 j2 h]; exists (val ritz j) => //; apply: map_f.
by rewrite (rem_mem _ _ _ ho) j1.
Qed.

(** C63.  If nothing is chosen, the intervals are [mu - resnorm, mu + resnorm]. *)
Theorem C63_nothing ritz order orders : orders_ok order orders -> ritz_ok ritz ->
  exists2 s, apriori_arg order orders Inclusion ritz [::] = Ok (BaItvs s) & disjoint_family s /\
    forall x, mem_union s x <-> exists2 j, (j < nv ritz)%N & `|x - val ritz j| <= rsn ritz j.
Proof.
move=> ho [hr h0]; rewrite /apriori_arg /estimate_intervals /= mk_itvs_zipE /=; last first.
  apply/allP=> -[mu r] h; apply: h0 => /=.
  by rewrite -[rz_resnorms ritz](@unzip2_zip _ _ (rz_values ritz)) ?hr //; apply/mapP; exists (mu, r).
set news := [seq _ | p <- _].
have nE : news = [seq Itv (val ritz j - rsn ritz j) (val ritz j + rsn ritz j) | j <- iota 0 (nv ritz)].
  apply: (@eq_from_nth _ (Itv 0 0)); first by rewrite !size_map size_iota size1_zip ?hr.
  move=> i; rewrite size_map size1_zip ?hr // => hi.
  rewrite (nth_map (0, 0)) ?size1_zip ?hr // nth_zip ?hr //=.
  by rewrite (nth_map 0%N) ?size_iota // nth_iota.
have rj j : (j < nv ritz)%N -> 0 <= rsn ritz j by move=> hj; apply/h0/mem_nth; rewrite hr.
have [|s -> [_ g2 g3 _]] := add_disjoint_union (news := news) ho.2.
  move=> a; rewrite nE => /mapP[j]; rewrite mem_iota => /= hj ->.
  by rewrite /valid /= (le_trans (_ : _ <= val ritz j)) ?ler_addl ?ger_addl ?oppr_le0 ?rj.
exists s => //; split=> // x; rewrite g3 nE; split.
  case=> _ /mapP[j hj ->] [/= a1 a2]; exists j; first by move: hj; rewrite mem_iota.
  by rewrite ler_distl a1 a2.
case=> j hj; rewrite ler_distl => /andP[a1 a2].
exists (Itv (val ritz j - rsn ritz j) (val ritz j + rsn ritz j)) => //.
by apply/mapP; exists j; rewrite // mem_iota.
Qed.

(** C63.  If everything is chosen, the first strategy passes an empty array (which both
    bounds reject) and the second one raises AssumptionError. *)
Theorem C63_all ritz q order orders : orders_ok order orders -> subset_ok ritz q -> q != [::] ->
  size q = nv ritz ->
  apriori_arg order orders Simple ritz q = Ok (BaList [::]) /\
  apriori_arg order orders Inclusion ritz q = Err AssumptionError.
Proof.
move=> ho hq q0 qn; split.
  have := sub_size ho hq; rewrite qn => /eqP; rewrite -[X in _ == X]addn0 eqn_add2l size_eq0 => /eqP e.
  by rewrite /apriori_arg e.
by rewrite /apriori_arg /estimate_intervals size_eq0 (negbTE q0) qn eqxx.
Qed.

(** C63.  Every other strategy is rejected. *)
Theorem C63_unknown ritz q order orders :
  apriori_arg order orders OtherStrategy ritz q = Err ArgumentError.
Proof. by []. Qed.

(** C63.  If the chosen Ritz pairs are exact, not 0 and different from the other ones, the
    two strategies consider the same numbers. *)
Theorem C63_exact ritz q order orders : orders_ok order orders -> ritz_ok ritz -> subset_ok ritz q ->
  q != [::] -> (size q < nv ritz)%N ->
  (forall i, i \in q -> rsn ritz i = 0 /\ val ritz i <> 0) ->
  (forall i j, i \in q -> (j < nv ritz)%N -> j \notin q -> val ritz i <> val ritz j) ->
  exists W s, [/\ apriori_arg order orders Simple ritz q = Ok (BaList W),
    apriori_arg order orders Inclusion ritz q = Ok (BaItvs s) &
    forall x, mem_union s x <-> x \in W].
Proof.
move=> ho hr hq q0 qn h1 h2; exists [seq val ritz i | i <- remaining order (nv ritz) q].
have [dl [mm [d [[a1 _] [a2 _] [_ ed] /= [_ _ a3]]]]] := C63_intervals ho hr hq q0 qn.
have d0 : d = 0.
  apply/eqP; rewrite -sqrf_eq0 ed big_seq big1 // => i /h1[-> _]; by rewrite expr0n.
have mm0 : mm <> 0 by case: a2 => i /h1[_ hi] -> /eqP; rewrite normr_eq0 => /eqP.
have dl0 : 0 < dl.
  by case: a1 => i [j [i1 i2 i3 ->]]; rewrite normr_gt0 subr_eq0; apply/eqP; apply: h2.
have [|s E [_ hs]] := a3 _ mm0; first by rewrite d0.
exists s; split=> //; first by rewrite /apriori_arg take_idxE ?(rem_all _ _ ho).
move=> x; rewrite hs d0 expr0n mul0r; split.
  case=> j [j1 j2]; rewrite normr_le0 subr_eq0 => /eqP->.
  by apply: map_f; rewrite (rem_mem _ _ _ ho) j1.
case/mapP=> j; rewrite (rem_mem _ _ _ ho) => /andP[j1 j2] ->.
by exists j; rewrite subrr normr0.
Qed.

Section Evaluate.
Variable Bd : Type.
Variable Bound : barg F -> res Bd.
Variable get_step : Bd -> F -> res F.
Variable est : F -> nat -> res F.
(** The bound does not depend on the order of its arguments. *)
Hypothesis sym_list : forall s t, perm_eq s t -> Bound (BaList s) = Bound (BaList t).
Hypothesis sym_itvs : forall s t, perm_eq s t -> Bound (BaItvs s) = Bound (BaItvs t).

Let adds_perm orders orders' (n n' : seq (itv F)) : (forall n, some_order (orders n)) ->
  (forall n, some_order (orders' n)) -> perm_eq n n' -> (forall a, a \in n -> valid a) ->
  exists s s', [/\ adds orders [::] n = Ok s, adds orders' [::] n' = Ok s' & perm_eq s s'].
Proof.
move=> h h' p v; have [s E _] := add_disjoint_union h v.
have [|s' E' _] := @add_disjoint_union F orders' n' h'; first by move=> a; rewrite -(perm_mem p); apply: v.
exists s, s'; split=> //; exact: (order_independent h h' v p).
Qed.

(** C63.  The value does not depend on the iteration orders of the sets, nor on the order in
    which the chosen indices are listed. *)
Theorem C63_order st tol stol ritz q q' order order' orders orders' :
  orders_ok order orders -> orders_ok order' orders' -> ritz_ok ritz ->
  subset_ok ritz q -> perm_eq q q' ->
  apriori_evaluate Bound get_step order orders st tol stol ritz q est =
  apriori_evaluate Bound get_step order' orders' st tol stol ritz q' est.
Proof.
move=> ho ho' hr hq qq; rewrite /apriori_evaluate -(perm_size qq).
have hq' : subset_ok ritz q'.
  by case: hq => u h; split; [rewrite -(perm_uniq qq)|move=> i; rewrite -(perm_mem qq); apply: h].
have er : perm_eq (remaining order (nv ritz) q) (remaining order' (nv ritz) q').
  rewrite (perm_trans (ho.1 _)) // perm_sym (perm_trans (ho'.1 _)) //.
  by rewrite (eq_filter (a2 := fun i => i \notin q)) // => i; rewrite /= (perm_mem qq).
suff : (exists2 e, apriori_arg order orders st ritz q = Err e & apriori_arg order' orders' st ritz q' = Err e)
    \/ (exists a b, [/\ apriori_arg order orders st ritz q = Ok a, apriori_arg order' orders' st ritz q' = Ok b
        & Bound a = Bound b]).
  by case=> [[e -> ->//]|[a [b [-> -> /= ->]]]].
case: st; last by left; exists ArgumentError.
  have [W E1 _] := C63_simple ho hq; have [W' E2 _] := C63_simple ho' hq'.
  right; exists (BaList W), (BaList W'); split=> //; apply: sym_list.
  move: E1 E2; rewrite /apriori_arg !take_idxE ?(rem_all _ _ ho) ?(rem_all _ _ ho') // => -[<-] [<-].
  exact: perm_map.
have [q0|q0] := eqVneq q [::].
  have q0' : q' = [::] by apply/eqP; rewrite -size_eq0 -(perm_size qq) q0.
  right; have [s E [g _]] := C63_nothing ho hr; have [s' E' [g' _]] := C63_nothing ho' hr.
  rewrite q0 q0'; exists (BaItvs s), (BaItvs s'); split=> //; apply: sym_itvs.
  move: E E'; rewrite /apriori_arg /estimate_intervals /=.
  case E0: (mk_itvs_zip _) => [news|//] /=.
  have v : forall a, a \in news -> valid a.
    move: E0; rewrite mk_itvs_zipE; last first.
      apply/allP=> -[mu r] h; case: hr => hr h0; apply: h0 => /=.
      by rewrite -[rz_resnorms ritz](@unzip2_zip _ _ (rz_values ritz)) ?hr //; apply/mapP; exists (mu, r).
    case=> <- a /mapP[[mu r] h ->]; rewrite /valid /=.
    have r0 : 0 <= r.
      case: hr => hr h0; apply: h0.
      by rewrite -[rz_resnorms ritz](@unzip2_zip _ _ (rz_values ritz)) ?hr //; apply/mapP; exists (mu, r).
    by rewrite (le_trans (_ : _ <= mu)) ?ler_addl ?ger_addl ?oppr_le0.
  have [t [t' [-> -> p]]] := adds_perm ho.2 ho'.2 (perm_refl news) v.
  by move=> /= [<-] [<-].
have q0' : q' != [::] by rewrite -size_eq0 -(perm_size qq) size_eq0.
have := sub_size ho hq; move/eqP; case: (ltngtP (size q) (nv ritz)) => [qn|qn|qn] sz.
- have [dl [mm [h1 h2 ->]]] := argE ho hr hq q0 qn.
  have [|dl' [mm' [h1' h2' ->]]] := argE ho' hr hq' q0'; first by rewrite -(perm_size qq).
  have ed : norm2 [seq rsn ritz i | i <- q'] = norm2 [seq rsn ritz i | i <- q].
    by apply/norm2_perm/perm_map; rewrite perm_sym.
  have edl : dl' = dl.
    apply: (is_min_uniq _ h1' h1) => x; rewrite (distsP _ _ ho) (distsP _ _ ho').
    by split=> -[i [j [a b c d]]]; exists i, j; split=> //; rewrite ?(perm_mem qq) // -?(perm_mem qq).
  have em : mm' = mm.
    apply: (is_min_uniq _ h2' h2) => x; rewrite !modsP.
    by split=> -[i a b]; exists i; rewrite ?(perm_mem qq) // -?(perm_mem qq).
  rewrite ed edl em; case: ifP => c1; first by left; exists AssumptionError.
  case: ifP => c2; first by left; exists AssumptionError.
  set e := eta _ _ _; right.
  have e0 : 0 <= e.
    rewrite /e /eta mulr_ge0 ?sqr_ge0 // addr_ge0 // divr_ge0 ?ler01 //.
      by case: h1 => -[x [y [_ _ ->]]].
    by case: h2 => -[x _ ->].
  have [||s [s' [-> -> p]]] := adds_perm (n := [seq Itv (mu - e) (mu + e) | mu <- [seq val ritz i | i <- remaining order (nv ritz) q]])
    (n' := [seq Itv (mu - e) (mu + e) | mu <- [seq val ritz i | i <- remaining order' (nv ritz) q']]) ho.2 ho'.2.
  - by do 2!apply: perm_map.
  - by move=> a /mapP[mu _ ->]; rewrite /valid /= (le_trans (_ : _ <= mu)) ?ler_addl // ger_addl oppr_le0.
  by exists (BaItvs s), (BaItvs s'); split=> //; apply: sym_itvs.
- by move: sz; rewrite gtn_eqF // (leq_trans qn) // leq_addr.
left; exists AssumptionError; first by rewrite (C63_all ho hq q0 qn).2.
by rewrite (C63_all ho' hq' q0' _).2 // -(perm_size qq).
Qed.

(** C63.  Without tol, the tolerance of the solver is used; an exception of the bound, of its
    get_step or of the time estimate is passed on. *)
Theorem C63_result order orders st tol stol ritz q :
  apriori_evaluate Bound get_step order orders st tol stol ritz q est =
  match apriori_arg order orders st ritz q with
  | Err e => Err e
  | Ok a => match Bound a with
    | Err e => Err e
    | Ok b => match get_step b (odflt stol tol) with
      | Err e => Err e
      | Ok n => est n (size q)
      end
    end
  end.
Proof. by rewrite /apriori_evaluate; case: tol. Qed.
End Evaluate.
End C63.

(** The bounds of Model/Bounds.v do not depend on the order: Properties.Bounds.C38_invariant
    and C39_order for arrays; of an Intervals object they only use the following queries. *)
Theorem C63_queries (F : rcfType) (s t : itvs F) : perm_eq s t ->
  [/\ itvs_min s = itvs_min t, itvs_max s = itvs_max t, itvs_min_pos s = itvs_min_pos t,
      itvs_max_neg s = itvs_max_neg t & (forall x, itvs_contains s x = itvs_contains t x)].
Proof.
move=> st; have sz := perm_size st.
have mn (a b : seq F) : perm_eq a b -> np_min a = np_min b.
  move=> ab; have [a0|a0] := eqVneq a [::].
    by move: ab; rewrite a0 perm_sym => /perm_nilP ->.
  have b0 : b != [::] by rewrite -size_eq0 -(perm_size ab) size_eq0.
  have [x -> [x1 x2]] := np_minP a0; have [y -> [y1 y2]] := np_minP b0; congr Ok.
  by apply/eqP; rewrite eq_le x2 ?(perm_mem ab) // y2 // -(perm_mem ab).
have mx (a b : seq F) : perm_eq a b -> np_max a = np_max b.
  move=> ab; have [a0|a0] := eqVneq a [::].
    by move: ab; rewrite a0 perm_sym => /perm_nilP ->.
  have b0 : b != [::] by rewrite -size_eq0 -(perm_size ab) size_eq0.
  have [x -> [x1 x2]] := np_maxP a0; have [y -> [y1 y2]] := np_maxP b0; congr Ok.
  by apply/eqP; rewrite eq_le y2 -?(perm_mem ab) // x2 // (perm_mem ab).
have hc x : itvs_contains s x = itvs_contains t x by apply: perm_has.
have hf p : perm_eq [seq i <- s | p i] [seq i <- t | p i] by apply: perm_filter.
have hs p : size [seq i <- s | p i] = size [seq i <- t | p i] by apply: perm_size.
split=> //; rewrite /itvs_min /itvs_max /itvs_min_pos /itvs_max_neg sz ?hc ?hs.
- by rewrite (mn _ _ (perm_map _ st)).
- by rewrite (mx _ _ (perm_map _ st)).
- by rewrite (mn _ _ (perm_map _ (hf _))).
- by rewrite (mx _ _ (perm_map _ (hf _))).
Qed.

(** Ritz values 1, 3, 10 with residual norms 1, 0, 0; the first one is chosen: delta = 2,
    mu_min = 1, the intervals are [3/2, 9/2] and [17/2, 23/2]. *)
Section Example.
Variable F : rcfType.
Let ritz := RitzData [:: (1 : F); 3%:R; 10%:R] [:: 1; 0; 0].
Let order (s : seq nat) := rev s.
Let orders (n : nat) (s : itvs F) := s.

Example C63_example : exists2 s, apriori_arg order orders Inclusion ritz [:: 0%N] = Ok (BaItvs s) &
  [/\ mem_union s 2%:R, mem_union s 9%:R, ~ mem_union s 5%:R & ~ mem_union s 1].
Proof.
have ho : orders_ok order orders by split=> [s|n s] //; rewrite /order perm_rev.
have hr : ritz_ok ritz.
  by split=> // r /=; rewrite !inE => /or3P[]/eqP->; rewrite ?ler01.
have hq : subset_ok ritz [:: 0%N] by split=> // i; rewrite inE => /eqP->.
have [dl [mm [d [[[i [j [h1 h2 h3 h4]]] h5] [[k k1 k2] _] [d0 ed] [_ _ H]]]]] :=
  C63_intervals ho hr hq isT isT.
have n2 : 1 - 3%:R = - 2%:R :> F by ring.
have n9 : 1 - 10%:R = - 9%:R :> F by ring.
have edl : dl = 2%:R.
  apply/eqP; rewrite eq_le; apply/andP; split.
    by rewrite -[2%:R]normr_nat -normrN -n2; apply: h5; exists 0%N, 1%N.
  move: h1; rewrite inE h4 => /eqP->; case: j h2 h3 h4 => [|[|[|//]]] //= _ _ _.
    by rewrite n2 normrN normr_nat.
  by rewrite n9 normrN normr_nat ler_nat.
have em : mm = 1 by move: k1; rewrite k2 inE => /eqP->; rewrite /= normr1.
have e1 : d = 1.
  apply/eqP; rewrite -(@eqr_expn2 _ 2) // ?ler01 //.
  by rewrite ed big_seq1 /= expr1n.
have [||s -> [_ hs]] := H; first by rewrite e1 edl -[1]/1%:R ltr_nat.
  by rewrite em => /eqP; rewrite oner_eq0.
exists s => //; move: hs; rewrite edl em e1 expr1n mul1r divr1 => hs.
have t0 : 0 < 2%:R :> F by rewrite ltr0n.
have ee : 1 / 2%:R + 1 = 3%:R / 2%:R :> F by field.
have P (a b : F) (n : nat) : a - b = n%:R -> (n <= 1)%N -> `|a - b| <= 1 / 2%:R + 1.
  by move=> -> hn; rewrite normr_nat ee ler_pdivl_mulr // -natrM ler_nat; case: n hn => [|[]].
have Q (a b : F) (n : nat) : `|a - b| = n%:R -> (2 <= n)%N -> `|a - b| <= 1 / 2%:R + 1 -> False.
  move=> -> hn; rewrite ee ler_pdivl_mulr // -natrM ler_nat; apply/negP; rewrite -ltnNge.
  exact: (leq_mul hn (leqnn 2)).
split.
- by apply/hs; exists 1%N; split=> //=; rewrite distrC; apply: (P _ _ 1%N) => //; ring.
- by apply/hs; exists 2%N; split=> //=; rewrite distrC; apply: (P _ _ 1%N) => //; ring.
- move=> /hs[[|[|[|jj]]]] [] //= _ _.
    by apply: (Q _ _ 2%N) => //; rewrite (_ : _ - _ = 2%:R) ?normr_nat //; ring.
  by apply: (Q _ _ 5%N) => //; rewrite distrC (_ : _ - _ = 5%:R) ?normr_nat //; ring.
move=> /hs[[|[|[|jj]]]] [] //= _ _.
  by apply: (Q _ _ 2%N) => //; rewrite distrC (_ : _ - _ = 2%:R) ?normr_nat //; ring.
by apply: (Q _ _ 9%N) => //; rewrite distrC (_ : _ - _ = 9%:R) ?normr_nat //; ring.
Qed.
End Example.

Print Assumptions C63_simple.
Print Assumptions C63_intervals.
Print Assumptions C63_nothing.
Print Assumptions C63_all.
Print Assumptions C63_unknown.
Print Assumptions C63_exact.
Print Assumptions C63_order.
Print Assumptions C63_result.
Print Assumptions C63_queries.
