(** C45: greedy selection of Ritz vectors; C46: subset generators; C47: RitzFactorySimple
    and UnionFactory; C48: recycling over a sequence of systems. *)
From mathcomp Require Import all_ssreflect all_algebra zify.
From Verif Require Import Base Model.Recycling Spec.Recycling Proof.Recycling.

Set Implicit Arguments.
Unset Strict Implicit.
Unset Printing Implicit Defensive.
Import Order.TTheory GRing.Theory Num.Theory.
Local Open Scope ring_scope.

Section C45.
Variable R : realDomainType.
Variable n : nat.
Local Notation iset := {set 'I_n}.
Variable evaluate : seq iset -> iset -> res R.
Variable generate : iset -> seq iset.
Variable resnorms : 'I_n -> R.
Local Notation value := (last_value evaluate).

(** Whatever the evaluator does: if a selection is returned, it is the empty one and no
    evaluation succeeded, or it was evaluated and its value is minimal among the values of
    all evaluated subsets.  The empty subset is evaluated first. *)
Theorem C45_best fuel print_ok sel calls :
  best_subset evaluate generate resnorms fuel print_ok = Ok (sel, calls) ->
  (exists s, calls = rcons s set0) /\
  ((sel = set0 /\ forall S, value calls S = None) \/
   exists v, value calls sel = Some v /\ forall S w, value calls S = Some w -> v <= w).
Proof.
rewrite /best_subset => E; have [t E1 {}E] := bind_ok E; have [t' E2 {E}] := bind_ok E.
case: print_ok => // -[<- <-].
have [r1 e1] := eval1_records (records0 evaluate [::]) E1.
have [[u h] [s hs]] := greedy_records r1 E2; split; first by exists s; rewrite hs e1 cats1.
have val k : value t'.1 k = get t'.2 k by rewrite h /merge; case: (get _ _).
have := dminP u; case: (dmin t'.2) => [k [v gv hv]|hn].
  by right; exists v; rewrite val; split=> // S w; rewrite val => /hv.
by left; split=> // S; rewrite val.
Qed.

(** For an evaluator without state the recorded values are simply its values. *)
Theorem C45_best_pure (f : iset -> res R) fuel print_ok sel calls :
  (forall h S, evaluate h S = f S) ->
  best_subset evaluate generate resnorms fuel print_ok = Ok (sel, calls) ->
  set0 \in calls /\
  ((sel = set0 /\ forall S, S \in calls -> f S = Err AssumptionError) \/
   exists v, [/\ sel \in calls, f sel = Ok v & forall S w, S \in calls -> f S = Ok w -> v <= w]).
Proof.
move=> hf E; have [[s es] hb] := C45_best E.
have ve h S : value h S = if S \in h then (if f S is Ok v then Some v else None) else None.
  elim: h => //= y h ->; rewrite hf inE eq_sym; case: eqP => //= <-; by case: (f S) => // e; case: ifP.
pose good k := if f k is Err e then e = AssumptionError else True.
have g1 t x t1 : eval1 evaluate t x = Ok t1 -> t1.1 = x :: t.1 /\ good x.
  by rewrite /eval1 hf /good; case: (f x) => [v|[]] // [<-].
have ae S : S \in calls -> good S.
  suff : forall fuel current t t', (forall k, k \in t.1 -> good k) ->
      greedy evaluate generate resnorms fuel current t = Ok t' -> forall k, k \in t'.1 -> good k.
    move: E; rewrite /best_subset => E; have [t E1 {}E] := bind_ok E; have [t' E2 {E}] := bind_ok E.
    case: (print_ok) => // -[_ ec] /(_ _ _ _ _ _ E2 S); rewrite ec; apply.
    by move=> k; have [-> g0] := g1 _ _ _ E1; rewrite inE => /eqP->.
  elim=> // fl IH cur t t' ht /=; case: ifP => [_ [<-]|_] //.
  move=> EE; have [[c ev] E1 {EE}] := bind_ok EE; apply: IH => /=.
  suff : forall l t0 t1, (forall k, k \in t0.1 -> good k) -> eval_list evaluate t0 l = Ok t1 ->
      forall k, k \in t1.1 -> good k by move=> H; exact: (H _ _ _ _ E1).
  elim=> [|x l IHl] t0 t1 h0 /=; first by case=> <-.
  move=> EE; have [t2 E3 E4] := bind_ok EE; apply: (IHl _ _ _ E4) => k.
  by have [-> gx] := g1 _ _ _ E3; rewrite inE => /predU1P[->|/h0].
split; first by rewrite es mem_rcons mem_head.
case: hb => [[-> hn]|[v [hv hw]]]; [left; split=> // S hS | right; exists v].
  by have := hn S; rewrite ve hS; have := ae S hS; rewrite /good; case: (f S) => // e ->.
move: hv; rewrite ve; case: ifP => // hs; case E': (f sel) => [v'|//] [ev]; split=> //; first by rewrite ev.
  move=> S w hS fS.
by apply: (hw S); rewrite ve hS fS.
Qed.

(** The loop ends after at most n rounds, for every evaluator, if the generator proposes
    non-empty subsets of the remaining indices only. *)
Theorem C45_terminates fuel print_ok :
  (forall S s, s \in generate S -> s \subset S /\ s != set0) ->
  (forall h S, evaluate h S <> Err OutOfFuel) -> (n < fuel)%N ->
  best_subset evaluate generate resnorms fuel print_ok <> Err OutOfFuel.
Proof.
move=> hg he hf; rewrite /best_subset /=.
case E1: (eval1 evaluate _ _) => [t|e] /=; last first.
  by case=> ee; have [h _] := eval1_err E1; case: (he [::] set0); rewrite -ee.
case E2: (greedy _ _ _ _ _ _) => [t'|e] /=; first by case: print_ok.
case=> ee; rewrite ee in E2; have [|h [s hs]] := greedy_fuel hg _ E2; last exact: he hs.
by rewrite cards0 subn0.
Qed.

(** Other exceptions are those of the evaluator, except AssumptionError, or come from an
    invalid print_results. *)
Theorem C45_errors fuel print_ok e :
  best_subset evaluate generate resnorms fuel print_ok = Err e -> e <> OutOfFuel ->
  ((exists h S, evaluate h S = Err e) /\ e <> AssumptionError) \/ (~~ print_ok /\ e = ArgumentError).
Proof.
move=> + ne; rewrite /best_subset /=.
case E1: (eval1 evaluate _ _) => [t|e'] /=; last first.
  by case=> <-; left; have [h na] := eval1_err E1; split=> //; exists [::], set0.
case E2: (greedy _ _ _ _ _ _) => [t'|e'] /=; first by case: print_ok => // -[<-]; right.
case=> ee; rewrite ee in E2; left; have [h [S [hS na]]] := greedy_err ne E2; split=> //; by exists h, S.
Qed.

(** Everything that holds for the empty set and is kept when proposals are added holds for
    all evaluated subsets. *)
Theorem C45_reachable (P : iset -> Prop) fuel print_ok sel calls :
  P set0 -> (forall current s, P current -> s \in generate (~: current) -> P (current :|: s)) ->
  best_subset evaluate generate resnorms fuel print_ok = Ok (sel, calls) ->
  P sel /\ forall S, S \in calls -> P S.
Proof.
move=> P0 PS E; have h : forall S, S \in calls -> P S.
  move: E; rewrite /best_subset => E; have [t E1 {}E] := bind_ok E; have [t' E2 {E}] := bind_ok E.
  case: print_ok => // -[_ <-]; apply: (greedy_inv PS P0) E2 => k.
  have [_ e1] := eval1_records (records0 evaluate [::]) E1.
  by rewrite e1 inE => /eqP->.
split=> //; have [_ [[-> //]|[v [hv _]]]] := C45_best E.
apply: h; elim: (calls) hv => //= y c IH; rewrite inE eq_sym.
by case: eqP => //= _ /IH.
Qed.
End C45.

(** A generator that proposes an empty set keeps the loop running forever. *)
Theorem C45_empty_proposal_refuted (R : realDomainType) n (v : R) fuel :
  best_subset (fun _ (_ : {set 'I_n}) => Ok v) (fun _ => [:: set0]) (fun _ => 0) fuel true = Err OutOfFuel.
Proof.
suff H : forall f cur t, greedy (fun _ (_ : {set 'I_n}) => Ok v) (fun _ => [:: set0]) (fun _ => 0) f cur t = Err OutOfFuel.
  by rewrite /best_subset /= H.
by elim=> // f IH cur t /=; exact: IH.
Qed.

Section C46.
Variable C : numClosedFieldType.
Variable argsort : seq C -> seq nat.
Hypothesis argsortP : argsort_spec argsort.
Variable n : nat.
Local Notation iset := {set 'I_n}.
(** list(S) contains every element of S once. *)
Variable order : iset -> seq 'I_n.
Hypothesis orderP : forall S, perm_eq (order S) (enum S).
Variable values : 'I_n -> C.

Let size_order S : size (order S) = #|S|.
Proof. by rewrite (perm_size (orderP S)) -cardE. Qed.
Let mem_order S i : (i \in order S) = (i \in S).
Proof. by rewrite (perm_mem (orderP S)) mem_enum. Qed.

Let at_lt (s : seq 'I_n) (i : nat) : (i < size s)%N -> exists2 x, at_ s i = Some x & x \in s.
Proof.
case: s => // x0 s hi; exists (nth x0 (x0 :: s) i); last exact: mem_nth.
by rewrite /at_ (nth_map x0).
Qed.
Let nth_vals (g : 'I_n -> C) s i x : at_ s i = Some x -> nth 0 [seq g j | j <- s] i = g x.
Proof.
rewrite /at_ => h; have hi : (i < size s)%N.
  by rewrite ltnNge; apply/negP => hi; rewrite nth_default ?size_map in h.
by move: h; rewrite !(nth_map x) // => -[->].
Qed.

Let minmaxP (g : 'I_n -> C) s : all (fun i => g i \is Num.real) s ->
  (s = [::] -> pmap (at_ s) (minmax_indices argsort [seq g i | i <- s]) = [::]) /\
  (s != [::] -> exists2 a, a \in s /\ {in s, forall j, g a <= g j} &
   exists2 b, b \in s /\ {in s, forall j, g j <= g b} &
     pmap (at_ s) (minmax_indices argsort [seq g i | i <- s]) = (if (1 < size s)%N then [:: a; b] else [:: a])).
Proof.
move=> rs; have rg : all (fun x => x \is Num.real) [seq g i | i <- s] by rewrite all_map.
split=> [-> //|ns]; have ns0 : (0 < size s)%N by case: (s) ns.
have sz : size (argsort [seq g i | i <- s]) = size s by rewrite (argsort_size argsortP rg) size_map.
have l0 : (nth 0%N (argsort [seq g i | i <- s]) 0 < size s)%N.
  by rewrite -(size_map g); apply: (argsort_lt argsortP rg); rewrite mem_nth // sz.
have l1 : (last 0%N (argsort [seq g i | i <- s]) < size s)%N.
  rewrite -(size_map g); apply: (argsort_lt argsortP rg).
  by rewrite -nth_last mem_nth // sz ltn_predL.
have [a ea ha] := at_lt l0; have [b eb hb] := at_lt l1.
exists a; [split=> // j hj | exists b; [split=> // j hj |]].
- have := @argsort_first _ _ argsortP _ rg (index j s); rewrite size_map index_mem => /(_ hj).
  by rewrite (nth_vals g ea) (nth_map j) ?index_mem // nth_index.
- have := @argsort_last _ _ argsortP _ rg (index j s); rewrite size_map index_mem => /(_ hj).
  by rewrite (nth_vals g eb) (nth_map j) ?index_mem // nth_index.
- rewrite /minmax_indices size_map eqn0Ngt ns0 /= ea; case: ifP => _ //=; by rewrite eb.
Qed.

(** RitzSmall proposes the remaining value of smallest magnitude, alone; it proposes
    nothing if at most one index remains or max_vectors are selected. *)
Theorem C46_small max_vectors (S : iset) :
  (((#|S| <= 1)%N || reached max_vectors (n - #|S|)) -> ritz_small argsort order values max_vectors S = [::]) /\
  (~~ ((#|S| <= 1)%N || reached max_vectors (n - #|S|)) ->
   exists2 i, i \in S /\ (forall j, j \in S -> `|values i| <= `|values j|) &
     ritz_small argsort order values max_vectors S = [:: [set i]]).
Proof.
rewrite /ritz_small size_order; case: ifP => // h; split=> // _.
have rg : all (fun x => x \is Num.real) [seq `|values i| | i <- order S].
  by rewrite all_map; apply/allP => i _; exact: normr_real.
have h0 : (0 < size (order S))%N by rewrite size_order; move: h; case: #|S|.
have sz : size (argsort [seq `|values i| | i <- order S]) = size (order S).
  by rewrite (argsort_size argsortP rg) size_map.
have l0 : (nth 0%N (argsort [seq `|values i|%R | i <- order S]) 0 < size (order S))%N.
  rewrite -(size_map (fun i => `|values i|%R)); apply: (argsort_lt argsortP rg).
  by rewrite mem_nth // sz.
have [a ea ha] := at_lt l0; exists a; last by rewrite /= ea.
split=> [|j]; first by rewrite -mem_order.
rewrite -mem_order => hj.
have := @argsort_first _ _ argsortP _ rg (index j (order S)); rewrite size_map index_mem => /(_ hj).
by rewrite (nth_vals (fun i => `|values i|%R) ea) (nth_map j) ?index_mem // nth_index.
Qed.

(** RitzExtremal: self-adjoint case.  All proposals are single remaining indices whose
    value is extremal among the remaining values of its sign; the least and greatest
    values of both signs are among the proposed ones. *)
Theorem C46_extremal_self_adjoint max_vectors (S : iset) :
  (forall i, values i \is Num.real) ->
  let prop := ritz_extremal argsort order values true max_vectors S in
  (((#|S| <= 1)%N || reached max_vectors (n - #|S|)) -> prop = [::]) /\
  (~~ ((#|S| <= 1)%N || reached max_vectors (n - #|S|)) ->
   (forall s, s \in prop -> exists2 i, i \in S /\ s = [set i] &
      (values i < 0 /\ ((forall j, j \in S -> values j < 0 -> values i <= values j) \/
                        (forall j, j \in S -> values j < 0 -> values j <= values i))) \/
      (0 < values i /\ ((forall j, j \in S -> 0 < values j -> values i <= values j) \/
                        (forall j, j \in S -> 0 < values j -> values j <= values i)))) /\
   (forall j, j \in S -> values j != 0 ->
      exists a b, [/\ [set a] \in prop, [set b] \in prop, values a <= values j <= values b &
                     (0 < values a) = (0 < values j) /\ (0 < values b) = (0 < values j)])).
Proof.
move=> rv; rewrite /ritz_extremal size_order; case: ifP => // h; split=> // _.
set neg := [seq i <- order S | values i < 0]; set pos := [seq i <- order S | 0 < values i].
have rneg : all (fun i => values i \is Num.real) neg by apply/allP => i _.
have rpos : all (fun i => values i \is Num.real) pos by apply/allP => i _.
have mneg j : (j \in neg) = (values j < 0) && (j \in S) by rewrite mem_filter mem_order.
have mpos j : (j \in pos) = (0 < values j) && (j \in S) by rewrite mem_filter mem_order.
have [n0 n1] := minmaxP rneg; have [p0 p1] := minmaxP rpos.
have mem2 (T : eqType) (s : seq T) (a b x : T) (c : bool) : x \in (if c then [:: a; b] else [:: a]) -> x = a \/ (c /\ x = b).
  by case: c; rewrite !inE; [case/orP => /eqP->; auto | move/eqP->; auto].
rewrite /= cats0; split.
  move=> _ /mapP[i hi ->]; exists i.
    split=> //; move: hi; rewrite mem_cat => /orP[].
      have [e|ne] := eqVneq neg [::]; first by rewrite n0.
      have [a [ha _] [b [hb _] ->]] := n1 ne => /(mem2 _ neg)[->|[_ ->]].
        by move: ha; rewrite mneg => /andP[].
      by move: hb; rewrite mneg => /andP[].
    have [e|ne] := eqVneq pos [::]; first by rewrite p0.
    have [a [ha _] [b [hb _] ->]] := p1 ne => /(mem2 _ pos)[->|[_ ->]].
      by move: ha; rewrite mpos => /andP[].
    by move: hb; rewrite mpos => /andP[].
  move: hi; rewrite mem_cat => /orP[].
    have [e|ne] := eqVneq neg [::]; first by rewrite n0.
    have [a [ha la] [b [hb lb] ->]] := n1 ne => /(mem2 _ neg)[->|[_ ->]]; left.
      split; first by move: ha; rewrite mneg => /andP[].
      by left=> j hj nj; apply: la; rewrite mneg nj.
    split; first by move: hb; rewrite mneg => /andP[].
    by right=> j hj nj; apply: lb; rewrite mneg nj.
  have [e|ne] := eqVneq pos [::]; first by rewrite p0.
  have [a [ha la] [b [hb lb] ->]] := p1 ne => /(mem2 _ pos)[->|[_ ->]]; right.
    split; first by move: ha; rewrite mpos => /andP[].
    by left=> j hj nj; apply: la; rewrite mpos nj.
  split; first by move: hb; rewrite mpos => /andP[].
  by right=> j hj nj; apply: lb; rewrite mpos nj.
have one (T : seq 'I_n) a b j : a \in T -> b \in T -> j \in T -> (1 < size T)%N = false -> b = a.
  by case: T => [|x [|y T]] //; rewrite !inE => /eqP-> /eqP->.
move=> j hj; rewrite real_neqr_lt ?real0 // => /orP[] sj.
  have jn : j \in neg by rewrite mneg sj.
  have [|a [ha la] [b [hb lb] e]] := n1; first by apply/eqP => e0; rewrite e0 in jn.
  have na : values a < 0 by move: ha; rewrite mneg => /andP[].
  have nb : values b < 0 by move: hb; rewrite mneg => /andP[].
  exists a, b; rewrite la // lb // (lt_gtF na) (lt_gtF nb) (lt_gtF sj); split=> //; apply: map_f; rewrite mem_cat e.
    by case: ifP; rewrite mem_head.
  by case: ifP => h1; [rewrite !inE eqxx orbT | rewrite (one _ _ _ _ ha hb jn h1) mem_head].
have jp : j \in pos by rewrite mpos sj.
have [|a [ha la] [b [hb lb] e]] := p1; first by apply/eqP => e0; rewrite e0 in jp.
have pa : 0 < values a by move: ha; rewrite mpos => /andP[].
have pb : 0 < values b by move: hb; rewrite mpos => /andP[].
exists a, b; rewrite la // lb // pa pb sj; split=> //; apply: map_f; rewrite mem_cat e.
  by apply/orP; right; case: ifP; rewrite mem_head.
by apply/orP; right; case: ifP => h1; [rewrite !inE eqxx orbT | rewrite (one _ _ _ _ ha hb jp h1) mem_head].
Qed.

(** RitzExtremal: other problems.  The indices of smallest and largest magnitude. *)
Theorem C46_extremal max_vectors (S : iset) :
  (((#|S| <= 1)%N || reached max_vectors (n - #|S|)) -> ritz_extremal argsort order values false max_vectors S = [::]) /\
  (~~ ((#|S| <= 1)%N || reached max_vectors (n - #|S|)) ->
   exists a b, [/\ a \in S, b \in S, forall j, j \in S -> `|values a| <= `|values j| <= `|values b| &
     ritz_extremal argsort order values false max_vectors S = [:: [set a]; [set b]]]).
Proof.
rewrite /ritz_extremal size_order; case: ifP => // h; split=> // _.
have rs : all (fun i => `|values i| \is Num.real) (order S) by apply/allP => i _; exact: normr_real.
have [_] := minmaxP rs; case.
  by apply/eqP => e; move: h; rewrite -size_order e.
move=> a [ha la] [b [hb lb]]; rewrite size_order; case: ifP; last by move: h; case: #|S| => [|[]].
move=> _ ->; exists a, b; rewrite -!mem_order; split=> // j; rewrite -mem_order => hj.
by rewrite la // lb.
Qed.

(** Both generators only propose non-empty subsets of the remaining indices, so that the
    greedy selection ends, and it never has more than max_vectors elements (nor all of
    them). *)
Theorem C46_max_vectors (R : realDomainType) (evaluate : seq iset -> iset -> res R) resnorms
    (gen : iset -> seq iset) (mv : nat) fuel print_ok sel calls :
  (forall i, values i \is Num.real) ->
  (gen = ritz_small argsort order values (Some mv) \/
   exists sa, gen = ritz_extremal argsort order values sa (Some mv)) ->
  (forall S s, s \in gen S -> s \subset S /\ s != set0) /\
  (best_subset evaluate gen resnorms fuel print_ok = Ok (sel, calls) ->
   (#|sel| <= mv)%N /\ (#|sel| <= n.-1)%N).
Proof.
move=> rv hg.
have key S s : s \in gen S -> ~~ ((#|S| <= 1)%N || reached (Some mv) (n - #|S|)) /\ exists2 i, i \in S & s = [set i].
  case: hg => [->|[sa ->]].
    have [h1 h2] := C46_small (Some mv) S; case E: (_ || _) in h1 h2 *; first by rewrite h1.
    have [i [hi _] ->] := h2 isT; rewrite inE => /eqP->; split=> //; by exists i.
  case: sa.
    have [h1 h2] := C46_extremal_self_adjoint (Some mv) S rv; case E: (_ || _) in h1 h2 *; first by rewrite h1.
    by have [h3 _] := h2 isT; move/h3 => [i [hi ->] _]; split=> //; exists i.
  have [h1 h2] := C46_extremal (Some mv) S; case E: (_ || _) in h1 h2 *; first by rewrite h1.
  have [a [b [ha hb _ ->]]] := h2 isT; rewrite !inE => /orP[] /eqP->; split=> //; by [exists a | exists b].
split.
  move=> S s /key[_ [i hi ->]]; rewrite sub1set hi; split=> //; by apply/set0Pn; exists i; rewrite inE.
move=> E; have [] := @C45_reachable _ _ evaluate gen resnorms
  (fun S => (#|S| <= mv)%N /\ (#|S| <= n.-1)%N) fuel print_ok sel calls _ _ E; [|move=> cur s [h1 h2] /key[]|by []].
  by rewrite cards0.
rewrite negb_or /reached -ltnNge -ltnNge => /andP[k1 k2] [i hi ->].
have kc : #|~: cur| = (n - #|cur|)%N by rewrite cardsCs setCK card_ord.
have cn : (#|cur| <= n)%N by rewrite -[X in (_ <= X)%N]card_ord max_card.
have : (#|cur :|: [set i]| <= #|cur|.+1)%N by rewrite setUC cardsU1; case: (_ \notin _); rewrite ?add1n.
move: k1 k2; rewrite kc; lia.
Qed.
End C46.

Section C47.
Variable C : numClosedFieldType.
Variable argsort : seq C -> seq nat.
Hypothesis argsortP : argsort_spec argsort.
Variables values resnorms : seq C.

Let parts (keys : seq C) m : all (fun x => x \is Num.real) keys ->
  forall i j, i \in take m (argsort keys) -> j \in drop m (argsort keys) -> nth 0 keys i <= nth 0 keys j.
Proof.
move=> rk i j /(nthP 0%N)[a ha <-] /(nthP 0%N)[b hb <-].
move: ha hb; rewrite size_take size_drop nth_drop => ha hb.
have sz := argsort_size argsortP rk.
have am : (a < m)%N by move: ha; case: ifP => // /negbT; rewrite -leqNgt => h1 h2; apply: leq_trans h2 h1.
rewrite nth_take //; apply: (argsortP rk).2; first by rewrite ltnW // ltn_addr.
by rewrite -sz -ltn_subRL.
Qed.

Let first_smallest k (keys : seq C) : all (fun x => x \is Num.real) keys ->
  smallest_k k keys (first_k k (argsort keys)).
Proof.
move=> rk; have u := argsort_uniq argsortP rk; have sz := argsort_size argsortP rk; split.
- exact: take_uniq.
- by move=> i /mem_take; exact: (argsort_lt argsortP rk).
- by rewrite size_take sz minnE; case: ltnP; lia.
- move=> i j hi hj nj; apply: (parts rk hi).
  have : j \in argsort keys by rewrite (perm_mem (argsortP rk).1) mem_iota.
  by rewrite -{1}(cat_take_drop k (argsort keys)) mem_cat (negbTE nj).
Qed.

Let last_largest k (keys : seq C) : all (fun x => x \is Num.real) keys ->
  largest_k k.+1 keys (last_k k.+1 (argsort keys)).
Proof.
move=> rk; have u := argsort_uniq argsortP rk; have sz := argsort_size argsortP rk.
rewrite /last_k /=; split.
- exact: drop_uniq.
- by move=> i /mem_drop; exact: (argsort_lt argsortP rk).
- by rewrite size_drop sz; lia.
- move=> i j hi hj nj; apply: (parts rk _ hi).
  have : j \in argsort keys by rewrite (perm_mem (argsortP rk).1) mem_iota.
  by rewrite -{1}(cat_take_drop (size (argsort keys) - k.+1) (argsort keys)) mem_cat (negbTE nj) orbF.
Qed.

(** sm, sr, si and smallest_res select the n_vectors Ritz pairs of smallest magnitude, real
    part, imaginary part, residual norm. *)
Theorem C47_smallest k : all (fun x => x \is Num.real) resnorms ->
  [/\ exists2 idx, simple_indices argsort k WSm values resnorms = Ok idx &
       smallest_k k [seq `|v| | v <- values] idx,
     exists2 idx, simple_indices argsort k WSr values resnorms = Ok idx &
       smallest_k k [seq 'Re v | v <- values] idx,
     exists2 idx, simple_indices argsort k WSi values resnorms = Ok idx &
       smallest_k k [seq 'Im v | v <- values] idx &
     exists2 idx, simple_indices argsort k WSmallestRes values resnorms = Ok idx &
       smallest_k k resnorms idx].
Proof.
move=> rr; split; eexists; try reflexivity; apply: first_smallest => //; rewrite all_map; apply/allP => x _ /=.
- exact: normr_real.
- exact: Creal_Re.
- exact: Creal_Im.
Qed.

(** lm, lr, li select the n_vectors >= 1 Ritz pairs of largest magnitude, real part,
    imaginary part. *)
Theorem C47_largest k :
  [/\ exists2 idx, simple_indices argsort k.+1 WLm values resnorms = Ok idx &
       largest_k k.+1 [seq `|v| | v <- values] idx,
     exists2 idx, simple_indices argsort k.+1 WLr values resnorms = Ok idx &
       largest_k k.+1 [seq 'Re v | v <- values] idx &
     exists2 idx, simple_indices argsort k.+1 WLi values resnorms = Ok idx &
       largest_k k.+1 [seq 'Im v | v <- values] idx].
Proof.
split; eexists; try reflexivity; apply: last_largest; rewrite all_map; apply/allP => x _ /=.
- exact: normr_real.
- exact: Creal_Re.
- exact: Creal_Im.
Qed.

(** An unknown selection is rejected. *)
Theorem C47_unknown k : simple_indices argsort k WOther values resnorms = Err ArgumentError.
Proof. by []. Qed.

(** For n_vectors = 0 nothing is selected by the s* selections, but everything by lm, lr
    and li. *)
Theorem C47_zero_refuted :
  simple_indices argsort 0 WSm values resnorms = Ok [::] /\
  forall w, w \in [:: 0%N; 1%N; 2%N] -> exists2 idx,
    simple_indices argsort 0 (nth WLm [:: WLm; WLr; WLi] w) values resnorms = Ok idx & size idx = size values.
Proof.
split; first by rewrite /= /first_k take0.
move=> w; rewrite !inE => /or3P[] /eqP->; eexists; try reflexivity; rewrite /last_k /= (argsort_size argsortP) ?size_map //;
  rewrite all_map; apply/allP => x _ /=.
- exact: normr_real.
- exact: Creal_Re.
- exact: Creal_Im.
Qed.
End C47.

(** UnionFactory: the vectors of all factories, in their order; the first error of a
    factory is passed on; without factories there is a ValueError. *)
Theorem C47_union (S V : Type) (fs : seq (S -> res (seq V))) s :
  (forall vs, size vs = size fs -> (0 < size fs)%N ->
     (forall i, (i < size fs)%N -> nth (fun _ => Ok [::]) fs i s = Ok (nth [::] vs i)) ->
     union_get fs s = Ok (flatten vs)) /\
  (forall i e, (i < size fs)%N -> nth (fun _ => Ok [::]) fs i s = Err e ->
     (forall j, (j < i)%N -> exists v, nth (fun _ => Ok [::]) fs j s = Ok v) ->
     union_get fs s = Err e) /\
  (fs = [::] -> union_get fs s = Err ValueError).
Proof.
split; [|split]; last by move=> ->.
  move=> vs sv s0 h; rewrite /union_get eqn0Ngt s0 /=; elim: fs vs sv {s0} h => [|f fs IH] [|v vs] //= [sv] h.
  by have /= -> := h 0%N isT; rewrite /= (IH vs) // => i hi; exact: (h i.+1).
move=> i e hi he hj; rewrite /union_get eqn0Ngt (leq_ltn_trans _ hi) //=.
elim: fs i hi he hj => [|f fs IH] [|i] //= hi he hj; first by rewrite he.
have [v /= ->] := hj 0%N isT; rewrite /= (IH i) // => j hji; exact: (hj j.+1).
Qed.

Section C48.
Variables (L A S U : Type).
Variable timed : L -> res L.
Variable noU : U.
Variable deflated : L -> U -> A -> res S.
Variable default : option (factory S U).
Local Notation rsolves := (rsolves timed noU deflated default).
Local Notation call := (call L A S U).

(** What one call has to do, given the solver of the most recent successful call: without
    one, or without a factory, no deflation vectors are used; otherwise those of the
    factory given with the call or else of the default one.  Errors of the conversion of
    the linear system, of the factory and of the solver are passed on. *)
Definition outcome (last : option S) (c : call) (r : res S) : Prop :=
  match timed (c_sys c), last, c_fac c, default with
  | Err e, _, _, _ => r = Err e
  | Ok l, None, _, _ => r = deflated l noU (c_args c)
  | Ok l, Some s, Some f, _ | Ok l, Some s, None, Some f =>
      match f s with Err e => r = Err e | Ok V => r = deflated l V (c_args c) end
  | Ok l, Some s, None, None => r = deflated l noU (c_args c)
  end.

(** Every call of a sequence of solve() calls uses the solver of the most recent successful
    call before it; last_solver is this solver, and failed calls do not change it. *)
Theorem C48_history init (cs : seq call) c0 :
  let '(rs, last) := rsolves init cs in
  [/\ size rs = size cs, last = latest init rs &
     forall i, (i < size cs)%N ->
       outcome (latest init (take i rs)) (nth c0 cs i) (nth (Err ValueError) rs i)].
Proof.
elim: cs init => [|c cs IH] init //.
have -> : rsolves init (c :: cs) = let '(r, last) := rsolve timed noU deflated default init c in
  let '(rs, last) := rsolves last cs in (r :: rs, last) by [].
have ho : outcome init c (rsolve timed noU deflated default init c).1.
  rewrite /rsolve /outcome /=; case: (timed _) => //= l; case: init => [s|] //=.
  by case: (c_fac c) => [f|] /=; [case: (f s)|case: default => [f|] //=; case: (f s)].
have hl : (rsolve timed noU deflated default init c).2 =
    latest init [:: (rsolve timed noU deflated default init c).1] by [].
case: (rsolve _ _ _ _ _ _) ho hl => r last /= ho hl.
move: (IH last); case: (Model.Recycling.rsolves _ _ _ _ _ _) => rs lst [sz el h]; split=> /=.
- by rewrite sz.
- by rewrite el hl.
- by move=> [|i] hi //=; rewrite /latest /= -hl; exact: h.
Qed.

(** The first solve of a fresh solver is undeflated; the vectors of the next one come from
    the first. *)
Theorem C48_two c1 c2 s1 V f l1 l2 :
  timed (c_sys c1) = Ok l1 -> timed (c_sys c2) = Ok l2 ->
  deflated l1 noU (c_args c1) = Ok s1 ->
  (if c_fac c2 is Some g then Some g else default) = Some f -> f s1 = Ok V ->
  (rsolves None [:: c1; c2]).1 = [:: Ok s1; deflated l2 V (c_args c2)].
Proof.
move=> t1 t2 d1 ef ev; rewrite /= /rsolve t1 /= d1 /=.
by rewrite t2 ef /= ev /=.
Qed.
End C48.

(** Concrete cases. *)

(** C45: two indices; the generator proposes {0} at the beginning, the evaluator fails for
    the empty set and gives 1 for {0}; {0} is selected. *)
Example C45_example :
  best_subset (R := rat_realDomainType) (fun _ (S : {set 'I_2}) => if S == set0 then Err AssumptionError else Ok 1)
    (fun S => if S == setT then [:: [set ord0]] else [::]) (fun _ => 0) 3 true = Ok ([set ord0], [:: [set ord0]; set0]).
Proof.
have n0 : ([set ord0] == set0 :> {set 'I_2}) = false by apply/negbTE/set0Pn; exists ord0; rewrite inE.
have nT : (~: [set ord0] == setT :> {set 'I_2}) = false.
  by apply/negbTE/eqP => /setP /(_ ord0); rewrite !inE.
by rewrite /best_subset /eval1 /= eqxx /= setC0 eqxx /= set0U /eval1 /= n0 /= nT.
Qed.

(** The hypotheses of C45_terminates are met by these generators. *)
Example C45_generator_example : forall S s, s \in (if S == setT then [:: [set ord0]] else [::] : seq {set 'I_2}) ->
  s \subset S /\ s != set0.
Proof.
move=> S s; case: eqP => // ->; rewrite inE => /eqP->; split; first exact: subsetT.
by apply/set0Pn; exists ord0; rewrite inE.
Qed.

Section Examples.
Variable C : numClosedFieldType.

(** argsort exists; C46: the values -2, 1, 3 *)
Example C46_example : exists argsort : seq C -> seq nat, argsort_spec argsort /\
  let values (i : 'I_3) : C := nth 0 [:: -2%:R; 1; 3%:R] i in
  [/\ forall i, values i \is Num.real,
      ritz_small argsort (fun S => enum (mem S)) values (Some 1%N) setT = [:: [set Ordinal (isT : 1 < 3)%N]],
      ritz_small argsort (fun S => enum (mem S)) values (Some 1%N) (~: [set ord0]) = [::] &
      [set ord0] \in ritz_extremal argsort (fun S => enum (mem S)) values true None setT].
Proof.
exists (@some_argsort C); split; first exact: some_argsortP.
set values := fun i : 'I_3 => _.
have rv i : values i \is Num.real by case: i => -[|[|[]]] //= h; rewrite /values /= ?rpredN ?realn ?real1.
split=> //.
- have [_ [|i [_ hi] ->]] := C46_small (@some_argsortP C) (order := fun S => enum (mem S)) (fun S => perm_refl _) values (Some 1%N) setT.
    by rewrite cardsT card_ord.
  congr [:: [set _]]; apply/val_inj => /=; have /= := hi (Ordinal (isT : 1 < 3)%N) (in_setT _).
  by case: i {hi} => -[|[|[]]] //= h; rewrite /values /= ?normrN normr1 ger0_norm ?ler0n // -[1]/(1%:R) ler_nat.
- have [-> //] := C46_small (@some_argsortP C) (order := fun S => enum (mem S)) (fun S => perm_refl _) values (Some 1%N) (~: [set ord0]).
  by rewrite cardsC1 card_ord.
- have [_ [|_ h]] := C46_extremal_self_adjoint (@some_argsortP C) (order := fun S => enum (mem S)) (fun S => perm_refl _) None setT rv.
    by rewrite cardsT card_ord.
  have [|a [b [ha _ /andP[hle _] _]]] := h ord0 (in_setT _).
    by rewrite /values /= oppr_eq0 pnatr_eq0.
  suff -> : ord0 = a by [].
  have n2 : -2%:R < 0 :> C by rewrite oppr_lt0 ltr0n.
  apply/val_inj => /=; move: hle; case: a {ha} => -[|[|[]]] //= h'; rewrite /values /=.
    by rewrite lt_geF // (lt_trans n2 ltr01).
  by rewrite lt_geF // (lt_trans n2) // ltr0n.
Qed.

(** C47: two of three values. *)
Example C47_example : exists argsort : seq C -> seq nat, argsort_spec argsort /\
  exists idx, [/\ simple_indices argsort 1 WLm [:: 1; -3%:R; 2%:R] [:: 0; 0; 0] = Ok idx, idx = [:: 1%N] &
    exists2 idx', simple_indices argsort 2 WSr [:: 1; -3%:R; 2%:R] [:: 0; 0; 0] = Ok idx' & size idx' = 2%N].
Proof.
exists (@some_argsort C); split; first exact: some_argsortP.
have [[idx e [u lt sz lg]] _ _] := C47_largest (@some_argsortP C) [:: 1; -3%:R; 2%:R] [:: 0; 0; 0] 0.
exists idx; split=> //; last first.
  have [|_ [idx' e' [_ _ s' _]] _ _] := C47_smallest (@some_argsortP C) [:: 1; -3%:R; 2%:R] (resnorms := [:: 0; 0; 0]) 2.
    by rewrite /= real0.
  by exists idx'.
case: idx sz u lt lg {e} => [|i [|]] // _ _ lt lg; have := lt i; rewrite mem_head => /(_ isT) /= li.
have := lg i 1%N; rewrite mem_head => /(_ isT isT); rewrite inE.
have e3 : `|-3%:R| = 3%:R :> C by rewrite normrN normr_nat.
case: i li {lt lg} => [|[|[|]]] //= _ /(_ isT); rewrite e3 ?normr1 ?normr_nat.
  by rewrite lt_geF // ltr1n.
by rewrite ler_nat.
Qed.
End Examples.

(** C48: systems, arguments, solvers and deflation vectors are numbers; the solver of system
    l with vectors U is l + U, system 0 fails; the default factory doubles. *)
Example C48_example :
  (rsolves (fun l : nat => Ok l) 0%N (fun l U (_ : unit) => if l == 0%N then Err ConvergenceErr else Ok (l + U)%N)
     (Some (fun s => Ok s.*2)) None
     [:: Call 3%N None tt; Call 0%N None tt; Call 1%N None tt; Call 1%N (Some (fun s => Err ArgumentError)) tt; Call 1%N (Some (fun s => Ok s)) tt]) =
  ([:: Ok 3%N; Err ConvergenceErr; Ok 7%N; Err ArgumentError; Ok 8%N], Some 8%N).
Proof. by []. Qed.
