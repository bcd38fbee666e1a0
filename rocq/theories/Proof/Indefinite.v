(** The choice of Ritz vectors with RitzAprioriMinres when the Ritz value of largest magnitude
    is negative (C83). *)
From mathcomp Require Import all_ssreflect all_algebra zify.
From Verif Require Import Base Model.Projection Model.Recycling Spec.Recycling Proof.Recycling Model.Bounds Proof.Bounds Proof.Shortcuts.
From Verif Require Properties.Bounds Properties.Recycling.

Set Implicit Arguments.
Unset Strict Implicit.
Unset Printing Implicit Defensive.
Import Order.TTheory GRing.Theory Num.Theory.
Local Open Scope ring_scope.

Section Dominant.
Variable C : numClosedFieldType.
Variable R : realDomainType.
Variable n : nat.
Local Notation iset := {set 'I_n}.
Variable argsort : seq C -> seq nat.
Hypothesis argsortP : argsort_spec argsort.
Variable order : iset -> seq 'I_n.
Hypothesis orderP : forall S : iset, perm_eq (order S) (enum S).
Variable values : 'I_n -> C.
Variable resnorms : 'I_n -> R.
Variable time : bound C -> nat -> R.
Definition minres_eval (_ : seq iset) (S : iset) : res R :=
  let! b := bound_minres (EList [seq values i | i <- order (~: S)]) in Ok (time b (size (order S))).

Lemma must_err (o : option C) e : mustC o = Err e -> e = ValueError.
Proof. by case: o => // -[<-]. Qed.

Lemma bound_minres_err (v : seq C) e : bound_minres (EList v) = Err e -> e = AssumptionError \/ e = ValueError.
Proof.
rewrite /bound_minres /=; case: ifP => _; last first.
  case E: (minres_init _) => [//|x] /= [<-]; move: E; rewrite /minres_init /=.
  case: ifP => _; first by case=> <-; left.
  case: ifP => _; first by case=> <-; left.
  case E0: (mustC _) => [?|y0] /=; last by case=> <-; right; exact: must_err E0.
  case E1: (mustC _) => [?|y1] /=; last by case=> <-; right; exact: must_err E1.
  case E2: (mustC _) => [?|y2] /=; last by case=> <-; right; exact: must_err E2.
  case E3: (mustC _) => [?|y3] /=; last by case=> <-; right; exact: must_err E3.
  case E4: (mustC _) => [?|y4] /=; last by case=> <-; right; exact: must_err E4.
  by [].
by case E: (bound_cg _ _) => [//|x] /= [<-]; left; exact: bound_cg_err E.
Qed.

Variable m : 'I_n.
Hypothesis neg : values m <= - eps15 C.
Hypothesis dom : forall j, j != m -> `|values j| < `|values m|.

Lemma eval_last h (S : iset) : ~: S = [set m] -> minres_eval h S = Err ValueError.
Proof.
move=> e; rewrite /minres_eval e Properties.Bounds.C39_negative_refuted //.
  by rewrite -size_eq0 size_map (perm_size (orderP _)) -cardE cards1.
by apply/allP => x /mapP[i]; rewrite (perm_mem (orderP _)) mem_enum inE => /eqP-> ->.
Qed.

Lemma greedy_dominant fuel (cur : iset) t : m \notin cur -> (1 < #|~: cur| <= fuel)%N ->
  greedy minres_eval (ritz_small argsort order values None) resnorms fuel cur t = Err ValueError.
Proof.
elim: fuel cur t => [|fuel IH] cur t mc /andP[c1 c2]; first by move: c1; rewrite ltnNge (leq_trans c2).
have [_ h] := Properties.Recycling.C46_small argsortP orderP values None (~: cur).
have [|i [hi hmin] eg] := h; first by rewrite /= leqNgt c1.
have im : i != m.
  apply/eqP => ei; have [j] : exists j, j \in (~: cur) :\ m.
    by apply/set0Pn; rewrite -card_gt0 -ltnS; move: c1; rewrite (cardsD1 m (~: cur)) inE mc.
  by rewrite in_setD1 => /andP[jm /hmin]; rewrite ei (lt_geF (dom jm)).
have mS : m \notin cur :|: [set i] by rewrite !inE negb_or mc eq_sym.
have card : #|~: (cur :|: [set i])| = #|~: cur|.-1.
  rewrite (cardsD1 i (~: cur)) hi /=; congr #|pred_of_set _|; apply/setP => k.
  by rewrite !inE negb_or andbC.
have next t' : minres_eval t.1 (cur :|: [set i]) <> Err ValueError ->
    greedy minres_eval (ritz_small argsort order values None) resnorms fuel (cur :|: [set i]) t' = Err ValueError.
  move=> ne; apply: IH => //; rewrite card; apply/andP; split; last by move: c2; case: #|_|.
  case E: (#|~: cur|) c1 => [|[|[|k]]] // _; case: ne; apply: eval_last.
  have /eqP/cards1P[x ex] : #|~: (cur :|: [set i])| = 1%N by rewrite card E.
  by rewrite ex; congr [set _]; apply/eqP; rewrite eq_sym -in_set1 -ex inE.
rewrite /= eg /= /eval1 /=; case E: (minres_eval t.1 _) next => [v|e] next /=.
  by rewrite /dset /=; apply: next.
have [ee|ee] : e = AssumptionError \/ e = ValueError.
  by move: E; rewrite /minres_eval; case Eb: (bound_minres _) => [//|x] /= [<-]; exact: bound_minres_err Eb.
  rewrite ee /= eqxx; apply: next; by rewrite ee.
by rewrite ee.
Qed.

Lemma best_dominant : best_subset minres_eval (ritz_small argsort order values None) resnorms n.+1 true = Err ValueError.
Proof.
have c0 : #|~: (finset.set0 : iset)| = n by rewrite setC0 cardsT card_ord.
have g t : (1 < n)%N -> greedy minres_eval (ritz_small argsort order values None) resnorms n.+1 finset.set0 t = Err ValueError.
  by move=> n1; apply: greedy_dominant; rewrite ?inE // c0 n1 leqnSn.
have n1 : minres_eval [::] finset.set0 <> Err ValueError -> (1 < n)%N.
  move=> ne; rewrite ltnNge; apply/negP => n1; case: ne; apply: eval_last.
  apply/setP => j; rewrite !inE; apply/esym/eqP/val_inj => /=.
  by move: (ltn_ord j) (ltn_ord m) n1; case: (j : nat) (m : nat) => [|a] [|b] //=; lia.
have b1 (A B : Type) (x : A) (f : A -> res B) : bind (Ok x) f = f x by [].
rewrite /best_subset /eval1 [in X in bind X _]/=; case E: (minres_eval [::] finset.set0) n1 => [v|e] n1.
  by rewrite b1 g //; apply: n1.
have [ee|ee] : e = AssumptionError \/ e = ValueError.
  by move: E; rewrite /minres_eval; case Eb: (bound_minres _) => [//|x] /= [<-]; exact: bound_minres_err Eb.
  by rewrite ee b1 g //; apply: n1; rewrite ee.
by rewrite ee.
Qed.
End Dominant.

Section Positive.
Variable C : numClosedFieldType.
Variable R : realDomainType.
Variable n : nat.
Local Notation iset := {set 'I_n}.
Variable argsort : seq C -> seq nat.
Hypothesis argsortP : argsort_spec argsort.
Variable order : iset -> seq 'I_n.
Hypothesis orderP : forall S : iset, perm_eq (order S) (enum S).
Variable values : 'I_n -> C.
Variable resnorms : 'I_n -> R.
Variable time : bound C -> nat -> R.
Local Notation eval := (minres_eval order values time).
Variable m : 'I_n.
Hypothesis pos : 0 < values m.
Hypothesis rv : forall i, values i \is Num.real.
Hypothesis dom : forall j, j != m -> `|values j| < `|values m|.
Hypothesis gap : forall i, - eps15 C < values i \/ values i < - eps15 C * values m.

Lemma eval_positive h (S : iset) : m \notin S -> eval h S <> Err ValueError.
Proof.
move=> mS; rewrite /minres_eval; set s := [seq _ | _ <- _].
have ms : values m \in s by apply: map_f; rewrite (perm_mem (orderP _)) mem_enum inE.
have rs : all (fun x => x \is Num.real) s by apply/allP => x /mapP[i _ ->].
have dm i : `|values i| <= values m.
  by case: (eqVneq i m) => [->|/dom]; rewrite (gtr0_norm pos) // => /ltW.
case: (boolP (all (fun x => - eps15 C < x) s)) => [/allP h1|].
  rewrite Properties.Bounds.C39_nonnegative //.
  by case E: (bound_cg _ _) => [//|e] /=; rewrite (bound_cg_err E).
case/allPn => x hx nx.
have e0 := @eps_gt0 C; have e1 := eps_lt1 C.
have [i ei] : exists i, x = values i by case/mapP: hx => i _ ->; exists i.
have xl : x < - eps15 C * values m by rewrite ei; case: (gap i) nx => // h1; rewrite ei h1.
have xe : x <= - eps15 C by rewrite real_leNgt // ?rpredN ?(gtr0_real e0) // ei rv.
have hmx : greatest [seq `|x| | x <- s] (values m).
  split; first by apply/mapP; exists (values m) => //; rewrite gtr0_norm.
  by move=> y /mapP[z /mapP[j _ ->] ->]; exact: dm.
have rn : all (fun x => x \is Num.real) [seq x <- s | x < - eps15 C * values m].
  by apply/allP => y; rewrite mem_filter => /andP[_ /(allP rs)].
have rp : all (fun x => x \is Num.real) [seq x <- s | eps15 C * values m < x].
  by apply/allP => y; rewrite mem_filter => /andP[_ /(allP rs)].
have nn : [seq x <- s | x < - eps15 C * values m] != [::].
  by rewrite -has_filter; apply/hasP; exists x.
have np : [seq x <- s | eps15 C * values m < x] != [::].
  by rewrite -has_filter; apply/hasP; exists (values m) => //; rewrite gtr_pmull.
have [l1 h1] := has_least rn nn; have [ls hs] := has_greatest rn nn.
have [lt ht] := has_least rp np; have [lN hN] := has_greatest rp np.
by have [b -> _] := Properties.Bounds.C39_indefinite rs (ex_intro2 _ _ x hx xe) hmx h1 hs ht hN.
Qed.

Lemma greedy_positive fuel (cur : iset) t : m \notin cur ->
  greedy eval (ritz_small argsort order values None) resnorms fuel cur t <> Err ValueError.
Proof.
elim: fuel cur t => [//|fuel IH] cur t mc.
have [h1 h2] := Properties.Recycling.C46_small argsortP orderP values None (~: cur).
case: (boolP ((#|~: cur| <= 1)%N || reached None (n - #|~: cur|))) => [/h1|/[dup] /norP[c1 _] /h2].
  by move=> /= ->.
case=> i [hi hmin] eg.
have im : i != m.
  apply/eqP => ei; have [j] : exists j, j \in (~: cur) :\ m.
    by apply/set0Pn; rewrite -card_gt0 -ltnS; move: c1; rewrite -ltnNge (cardsD1 m (~: cur)) inE mc.
  by rewrite in_setD1 => /andP[jm /hmin]; rewrite ei (lt_geF (dom jm)).
have mS : m \notin cur :|: [set i] by rewrite !inE negb_or mc eq_sym.
rewrite /= eg /= /eval1 /=; case E: (eval t.1 _) => [v|e] /=.
  by rewrite /dset /=; apply: IH.
have [ee|ee] : e = AssumptionError \/ e = ValueError.
  by move: E; rewrite /minres_eval; case Eb: (bound_minres _) => [//|x] /= [<-]; exact: bound_minres_err Eb.
  rewrite ee /= eqxx; exact: IH.
by case: (eval_positive (h := t.1) mS); rewrite E ee.
Qed.

Lemma best_positive : exists q, best_subset eval (ritz_small argsort order values None) resnorms n.+1 true = Ok q.
Proof.
have er h S e : eval h S = Err e -> e = AssumptionError \/ e = ValueError.
  by rewrite /minres_eval; case Eb: (bound_minres _) => [//|x] /= [<-]; exact: bound_minres_err Eb.
case E: (best_subset _ _ _ _ _) => [q|e]; first by eexists.
exfalso; case: (exn_eqb e OutOfFuel) / idP => he; last first.
  have ne : e <> OutOfFuel by move=> h; rewrite h in he.
  case: (Properties.Recycling.C45_errors E ne) => [[[h [S /er[] // ee]] _]|[]] //.
  move: E; rewrite ee /best_subset.
  have b1 (A B : Type) (x : A) (f : A -> res B) : bind (Ok x) f = f x by [].
  case E1: (eval1 _ _ _) => [t|x]; last first.
    move=> /= [ex]; move: E1; rewrite ex /eval1 /=.
    case E2: (eval _ _) => [//|y]; case: (er _ _ _ E2) => ey; rewrite ey // => _.
    by case: (eval_positive (h := [::]) (S := finset.set0)); rewrite ?inE // E2 ey.
  rewrite b1; case E2: (greedy _ _ _ _ _ _) => [//|y] /= [ey].
  by case: (greedy_positive (fuel := n.+1) (cur := finset.set0) (t := t)); rewrite ?inE // E2 ey.
have ee : e = OutOfFuel by case: (e) he.
rewrite ee in E; case: (@Properties.Recycling.C45_terminates _ _ _ _ _ _ _ _ _ _ E) => //; last first.
  by move=> h S /er[].
move=> S t; have [h1 h2] := Properties.Recycling.C46_small argsortP orderP values None S.
case: (boolP ((#|S| <= 1)%N || reached None (n - #|S|))) => [/h1->|/h2[i [hi _] ->]] //.
by rewrite inE => /eqP->; rewrite sub1set hi -card_gt0 cards1.
Qed.
End Positive.
