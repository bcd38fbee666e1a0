(** Lemmas about dictionaries, the greedy loop and argsort. *)
From mathcomp Require Import all_ssreflect all_algebra zify.
From Verif Require Import Base Model.Recycling Spec.Recycling.

Set Implicit Arguments.
Unset Strict Implicit.
Unset Printing Implicit Defensive.
Import Order.TTheory GRing.Theory Num.Theory.
Local Open Scope ring_scope.

Section Greedy.
Variable R : realDomainType.
Variable n : nat.
Local Notation iset := {set 'I_n}.
Local Notation dict := (dict R n).
Variable evaluate : seq iset -> iset -> res R.
Variable generate : iset -> seq iset.
Variable resnorms : 'I_n -> R.

Implicit Types (d : dict) (k j s : iset) (v w : R) (t : evst R n).

Definition get (d : dict) (k : iset) : option R :=
  if [seq p.2 | p <- d & p.1 == k] is v :: _ then Some v else None.

Lemma get_cons p d k : get (p :: d) k = if p.1 == k then Some p.2 else get d k.
Proof. by rewrite /get /=; case: eqP. Qed.

Lemma get_mem d k : isSome (get d k) = (k \in unzip1 d).
Proof. by elim: d => // p d IH; rewrite get_cons /= inE eq_sym; case: eqP => //= _; rewrite IH. Qed.

Lemma get_rcons d p k : get (rcons d p) k = if get d k is Some v then Some v else if p.1 == k then Some p.2 else None.
Proof.
elim: d => [|q d IH]; first by rewrite get_cons.
by rewrite rcons_cons !get_cons; case: eqP.
Qed.

Lemma get_set d k v j : get (dset d k v) j = if k == j then Some v else get d j.
Proof.
rewrite /dset; case: ifP => h.
  elim: d h => // p d IH; rewrite /= inE !get_cons.
  have [e|ne] := eqVneq k p.1.
    move=> _; rewrite -e /=; have [_ //|nj] := eqVneq k j.
    elim: d {IH} => // q d IH'; rewrite /= !get_cons.
    have [e'|_] := eqVneq q.1 k => /=; last by rewrite IH'.
    by rewrite e' (negbTE nj) IH'.
  rewrite /= => /IH ->.
  have [ej|_] := eqVneq p.1 j => //; have [ek|//] := eqVneq k j.
  by rewrite ek ej eqxx in ne.
rewrite get_rcons /=; case: (get d j) (get_mem d j) => [v'|] //= hm.
have [ek|//] := eqVneq k j; by rewrite -ek h in hm.
Qed.

Lemma get_update d (e : dict) j : uniq (unzip1 e) -> get (dupdate d e) j = if get e j is Some v then Some v else get d j.
Proof.
elim: e d => // p e IH d /= /andP[np ue]; rewrite IH // get_set get_cons.
have [ek|//] := eqVneq p.1 j; rewrite -ek.
by case: (get e p.1) (get_mem e p.1) => //= v; rewrite (negbTE np).
Qed.

Lemma unzip1_set d k v : unzip1 (dset d k v) = if k \in unzip1 d then unzip1 d else rcons (unzip1 d) k.
Proof.
rewrite /dset; case: ifP => _; last by rewrite /unzip1 map_rcons.
by rewrite /unzip1 -map_comp; apply: eq_map => p /=; case: eqP => /= [->|].
Qed.

Lemma uniq_set d k v : uniq (unzip1 d) -> uniq (unzip1 (dset d k v)).
Proof. by rewrite unzip1_set; case: ifP => // h u; rewrite rcons_uniq h u. Qed.

Lemma uniq_update d (e : dict) : uniq (unzip1 d) -> uniq (unzip1 (dupdate d e)).
Proof. by elim: e d => // p e IH d u /=; apply: IH; exact: uniq_set. Qed.

Lemma get_in d p : uniq (unzip1 d) -> p \in d -> get d p.1 = Some p.2.
Proof.
elim: d => // q d IH /= /andP[nq u]; rewrite inE get_cons => /predU1P[->|hp]; first by rewrite eqxx.
case: eqP => [e|_]; last exact: IH.
by rewrite e map_f in nq.
Qed.

Lemma get_some d k v : get d k = Some v -> (k, v) \in d.
Proof.
elim: d => // q d IH; rewrite get_cons inE; case: eqP => [<- [<-]|_ /IH ->]; last by rewrite orbT.
by rewrite -surjective_pairing eqxx.
Qed.

Lemma dminP d : uniq (unzip1 d) ->
  match dmin d with
  | Some k => exists2 v, get d k = Some v & forall j w, get d j = Some w -> v <= w
  | None => forall j, get d j = None
  end.
Proof.
case: d => // p d u; rewrite /dmin.
suff [hm hl] : let q := foldl (fun a b => if b.2 < a.2 then b else a) p d in
    q \in p :: d /\ forall r, r \in p :: d -> q.2 <= r.2.
  exists (foldl (fun a b => if b.2 < a.2 then b else a) p d).2; first exact: get_in.
  by move=> j w /get_some /hl.
elim: d p {u} => [|q d IH] p /=; first by split=> [|r]; rewrite inE // => /eqP->.
have [h1 h2] := IH (if q.2 < p.2 then q else p); split.
  by move: h1; rewrite !inE; case: ifP => _ /orP[->|->]; rewrite ?orbT.
move=> r; rewrite !inE => /or3P[/eqP->|/eqP->|hr].
- apply: le_trans (h2 _ (mem_head _ _)) _; case: ifP => // /ltW //.
- by apply: le_trans (h2 _ (mem_head _ _)) _; case: ltP.
- by apply: h2; rewrite inE hr orbT.
Qed.

Local Notation lv := (last_value evaluate).

Definition merge (o o' : option R) := if o is Some v then Some v else o'.

(** the dictionary records what happened after the calls h0 *)
Definition records (h0 : seq iset) (t : evst R n) :=
  uniq (unzip1 t.2) /\ forall k, lv t.1 k = merge (get t.2 k) (lv h0 k).

Lemma records0 h : records h (h, [::]).
Proof. by []. Qed.

Lemma eval1_records h0 t s t' : records h0 t -> eval1 evaluate t s = Ok t' ->
  records h0 t' /\ t'.1 = s :: t.1.
Proof.
move=> [u h]; rewrite /eval1; case E: (evaluate t.1 s) => [v|[]] // [<-]; split=> //; split=> //=.
- exact: uniq_set.
- by move=> k; rewrite get_set h; case: eqP => //= _; rewrite E.
- by move=> k; rewrite E h; case: eqP.
Qed.

Lemma eval_list_records h0 t l t' : records h0 t -> eval_list evaluate t l = Ok t' ->
  records h0 t' /\ t'.1 = rev l ++ t.1.
Proof.
elim: l t => [|x l IH] t ht /=; first by case=> <-.
move=> E; have [t1 E1 E2] := bind_ok E; have [h1 e1] := eval1_records ht E1.
have [h2 e2] := IH _ h1 E2; split=> //.
by rewrite e2 e1 rev_cons cat_rcons.
Qed.

(** Errors come from the evaluator. *)
Lemma eval1_err t s e : eval1 evaluate t s = Err e -> evaluate t.1 s = Err e /\ e <> AssumptionError.
Proof. by rewrite /eval1; case E: (evaluate t.1 s) => [v|[]] // [<-]. Qed.

Lemma eval_list_err t l e : eval_list evaluate t l = Err e ->
  exists h s, evaluate h s = Err e /\ e <> AssumptionError.
Proof.
elim: l t => [|x l IH] t //=; case E: (eval1 evaluate t x) => [t1|e'] /=; first exact: IH.
by case=> <-; have [] := eval1_err E; exists t.1, x.
Qed.

(** keys of the evaluations of one round *)
Lemma eval_list_keys t l t' k : eval_list evaluate t l = Ok t' ->
  k \in unzip1 t'.2 -> (k \in unzip1 t.2) || (k \in l).
Proof.
elim: l t => [|x l IH] t /=; first by case=> <- ->.
move=> E; have [t1 E1 E2] := bind_ok E; move=> /(IH _ E2) /orP[|h]; last by rewrite inE h !orbT.
move: E1; rewrite /eval1; case: (evaluate t.1 x) => [v|[]] // [<-] /=; last by move=> ->.
rewrite unzip1_set inE; case: ifP => _; first by move=> ->.
by rewrite mem_rcons inE => /orP[->|->]; rewrite ?orbT.
Qed.

Lemma dmin_key d k : dmin d = Some k -> k \in unzip1 d.
Proof.
case: d => // p d; rewrite /dmin => -[<-]; apply: map_f.
elim: d p => [|q d IH] p /=; first by rewrite mem_head.
have := IH (if q.2 < p.2 then q else p); rewrite !inE; case: ifP => _ /orP[->|->]; rewrite ?orbT //.
Qed.

Lemma argmin_lt (x : seq R) : x != [::] -> (argmin x < size x)%N.
Proof.
case: x => // x s _; rewrite /argmin index_mem.
elim: s x => [|y s IH] x /=; first by rewrite mem_head.
by have := IH (Num.min x y); rewrite !inE minEle; case: ifP => _ /orP[->|->]; rewrite ?orbT.
Qed.

(** what the loop does in one round: the next current subset *)
Lemma next_current current (t : seq iset) t' : generate (~: current) != [::] ->
  eval_list evaluate (t, [::]) [seq current :|: s | s <- generate (~: current)] = Ok t' ->
  exists2 s, s \in generate (~: current) &
    (if dmin t'.2 is Some k then k
     else current :|: nth set0 (generate (~: current)) (argmin [seq \sum_(i in (s : iset)) resnorms i | s <- generate (~: current)]))
    = current :|: s.
Proof.
move=> ng E; case D: (dmin t'.2) => [k|].
  have /= := eval_list_keys E (dmin_key D); by move/mapP => [s hs ->]; exists s.
exists (nth set0 (generate (~: current)) (argmin [seq \sum_(i in (s : iset)) resnorms i | s <- generate (~: current)])) => //.
apply: mem_nth; rewrite -(size_map (fun s : iset => \sum_(i in s) resnorms i)).
by apply: argmin_lt; case: (generate _) ng.
Qed.

Lemma greedy_records fuel current t t' : records [::] t ->
  greedy evaluate generate resnorms fuel current t = Ok t' ->
  records [::] t' /\ exists s : seq iset, t'.1 = s ++ t.1.
Proof.
elim: fuel current t => [|fuel IH] current t ht //=.
case: ifP => _; first by case=> <-; split=> //; exists [::].
move=> EE; have [[calls ev] E E'] := bind_ok EE.
have [[u hr] /= hc] := eval_list_records (records0 t.1) E.
have [|h1 [s hs]] := IH _ _ _ E'; last first.
  by split=> //; exists (s ++ rev [seq current :|: s | s <- generate (~: current)]); rewrite hs /= hc catA.
split=> /= [|k]; first by apply: uniq_update; case: ht.
by rewrite hr get_update // ht.2; case: (get ev k).
Qed.

(** the loop ends if every proposed subset is a non-empty subset of the remaining ones *)
Hypothesis gen_ok : forall S s, s \in generate S -> s \subset S /\ s != set0.

Lemma next_card (current : iset) s : s \in generate (~: current) -> (#|current| < #|current :|: s|)%N.
Proof.
case/gen_ok => hs /set0Pn[i hi]; apply: proper_card; apply/properP; split; first exact: subsetUl.
exists i; first by rewrite inE hi orbT.
by move/subsetP: hs => /(_ i hi); rewrite inE.
Qed.

Lemma greedy_fuel fuel (current : iset) t : (n - #|current| < fuel)%N ->
  greedy evaluate generate resnorms fuel current t = Err OutOfFuel ->
  exists h s, evaluate h s = Err OutOfFuel.
Proof.
elim: fuel current t => [|fuel IH] current t // hf /=.
case: ifP => // ng; case E: (eval_list _ _ _) => [[calls ev]|e] /=; last first.
  by case=> ee; have [h [s [E' _]]] := eval_list_err E; exists h, s; rewrite E' ee.
apply: IH; have [|s hs ->] := next_current _ E; first by move: ng; case: (generate _).
have := next_card hs; have : (#|current :|: s| <= n)%N by rewrite -[X in (_ <= X)%N]card_ord max_card.
by move: hf; lia.
Qed.

Lemma greedy_err fuel current t e : e <> OutOfFuel ->
  greedy evaluate generate resnorms fuel current t = Err e ->
  exists h s, evaluate h s = Err e /\ e <> AssumptionError.
Proof.
move=> ne; elim: fuel current t => [|fuel IH] current t /=; first by case=> h; rewrite h in ne.
case: ifP => // _; case E: (eval_list _ _ _) => [[calls ev]|e'] /=; first exact: IH.
by case=> <-; exact: eval_list_err E.
Qed.
End Greedy.

(** invariants of the evaluated subsets *)
Section Invariant.
Variable R : realDomainType.
Variable n : nat.
Local Notation iset := {set 'I_n}.
Variable evaluate : seq iset -> iset -> res R.
Variable generate : iset -> seq iset.
Variable resnorms : 'I_n -> R.
Variable P : iset -> Prop.
Hypothesis P0 : P set0.
Hypothesis PS : forall current s, P current -> s \in generate (~: current) -> P (current :|: s).

Lemma greedy_inv fuel current t t' : P current -> (forall k, k \in t.1 -> P k) ->
  greedy evaluate generate resnorms fuel current t = Ok t' -> forall k, k \in t'.1 -> P k.
Proof.
elim: fuel current t => [|fuel IH] current t hc ht //=.
case: ifP => [_ [<-]|ng] //; move=> EE; have [[calls ev] E E2] := bind_ok EE; move: E2.
have ng' : generate (~: current) != [::] by move: ng; case: (generate _).
have [s hs es] := next_current resnorms ng' E.
apply: IH => [|k] /=; first by rewrite es; exact: PS.
have [_ /= ->] := eval_list_records (records0 evaluate t.1) E.
by rewrite mem_cat mem_rev => /orP[/mapP[s' hs' ->]|/ht //]; apply: PS.
Qed.
End Invariant.

Section Argsort.
Variable C : numClosedFieldType.

Definition some_argsort (s : seq C) : seq nat :=
  sort (fun i j => nth 0 s i <= nth 0 s j) (iota 0 (size s)).

Lemma some_argsortP : argsort_spec some_argsort.
Proof.
move=> s /allP rs; split; first by rewrite perm_sort.
move=> i j ij jn.
have ss : sorted (fun i j => nth 0 s i <= nth 0 s j) (some_argsort s).
  apply: (sort_sorted_in (P := fun i => i \in iota 0 (size s))); last by apply/allP.
  move=> a b; rewrite !mem_iota !add0n => /andP[_ ha] /andP[_ hb].
  by apply: real_leVge; apply: rs; exact: mem_nth.
apply: (sorted_leq_nth _ _ 0%N ss) => //; rewrite ?inE ?size_sort ?size_iota //.
- by move=> a b c; exact: le_trans.
- exact: leq_ltn_trans ij jn.
Qed.

Variable argsort : seq C -> seq nat.
Hypothesis aP : argsort_spec argsort.
Variable s : seq C.
Hypothesis rs : all (fun x => x \is Num.real) s.

Lemma argsort_size : size (argsort s) = size s.
Proof. by rewrite (perm_size (aP rs).1) size_iota. Qed.

Lemma argsort_lt i : i \in argsort s -> (i < size s)%N.
Proof. by rewrite (perm_mem (aP rs).1) mem_iota. Qed.

Lemma argsort_uniq : uniq (argsort s).
Proof. by rewrite (perm_uniq (aP rs).1) iota_uniq. Qed.

(** a position p of s is some place in argsort s *)
Lemma argsort_place p : (p < size s)%N -> exists2 i, (i < size s)%N & nth 0%N (argsort s) i = p.
Proof.
move=> hp; have : p \in argsort s by rewrite (perm_mem (aP rs).1) mem_iota.
by move=> h; exists (index p (argsort s)); rewrite ?nth_index // -argsort_size index_mem.
Qed.

Lemma argsort_first p : (p < size s)%N -> nth 0 s (nth 0%N (argsort s) 0) <= nth 0 s p.
Proof. by case/argsort_place => i hi <-; apply: (aP rs).2. Qed.

Lemma argsort_last p : (p < size s)%N -> nth 0 s p <= nth 0 s (last 0%N (argsort s)).
Proof.
case/argsort_place => i hi <-; rewrite -nth_last argsort_size; apply: (aP rs).2; last by rewrite ltn_predL (leq_trans _ hi).
by rewrite -ltnS prednK // (leq_trans _ hi).
Qed.
End Argsort.
