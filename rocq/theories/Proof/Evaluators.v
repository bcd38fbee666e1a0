(** The evaluators: intervals around Ritz values, time estimates. *)
From mathcomp Require Import all_ssreflect all_algebra.
From Verif Require Import Base Model.Interval Spec.Interval Proof.Interval Proof.IntervalSpec.
From Verif Require Import Model.Timings Proof.Timings Model.Evaluators.

Set Implicit Arguments.
Unset Strict Implicit.
Unset Printing Implicit Defensive.
Import Order.TTheory GRing.Theory Num.Theory.
Local Open Scope ring_scope.

Section Intervals.
Variable F : rcfType.
Implicit Types (ritz : ritzdata F) (q rest : seq nat) (s : seq F).

Lemma take_idxE s q : all (fun i => i < size s)%N q -> take_idx s q = Ok [seq nth 0 s i | i <- q].
Proof. by rewrite /take_idx => ->. Qed.

Lemma mk_itvsE (a b : F) s : a <= b -> mk_itvs a b s = Ok [seq Itv (mu + a) (mu + b) | mu <- s].
Proof.
move=> ab; elim: s => //= mu s ->.
by rewrite /mk_itv ltr_add2l ltNge ab.
Qed.

Lemma mk_itvs_zipE (s : seq (F * F)) : all (fun p => 0 <= p.2) s ->
  mk_itvs_zip s = Ok [seq Itv (p.1 - p.2) (p.1 + p.2) | p <- s].
Proof.
elim: s => //= -[mu r] s IH /andP[/= r0 /IH ->].
by rewrite /mk_itv ltNge (le_trans (_ : _ <= mu)) ?ler_addl ?ger_addl ?oppr_le0.
Qed.

Lemma norm2_ge0 s : 0 <= norm2 s. Proof. exact: sqrtr_ge0. Qed.

Lemma norm2_sqr s : norm2 s ^+ 2 = \sum_(x <- s) x ^+ 2.
Proof. by rewrite sqr_sqrtr // sumr_ge0 // => x _; rewrite sqr_ge0. Qed.

Lemma norm2_perm s t : perm_eq s t -> norm2 s = norm2 t.
Proof. by move=> h; rewrite /norm2 (perm_big _ h). Qed.

(** The half width eta of the intervals for eps_min = eps_max = 0 *)
Definition eta (d delta mumin : F) : F := d ^+ 2 * (1 / delta + 1 / mumin).

Definition is_min (P : F -> Prop) (m : F) : Prop := P m /\ forall x, P x -> m <= x.
Lemma is_min_uniq (P Q : F -> Prop) a b : (forall x, P x <-> Q x) -> is_min P a -> is_min Q b -> a = b.
Proof.
move=> h [p1 p2] [q1 q2]; apply/eqP; rewrite eq_le p2 ?q2 //; [exact/h|exact/h].
Qed.

Definition dists (sel rest : seq F) (d : F) : Prop := exists x y, [/\ x \in sel, y \in rest & d = `|x - y|].
Definition mods (sel : seq F) (d : F) : Prop := exists2 x, x \in sel & d = `|x|.

Lemma estE (orders : nat -> itvs F -> itvs F) ritz q rest :
  (forall n, some_order (orders n)) ->
  size (rz_resnorms ritz) = size (rz_values ritz) ->
  all (fun i => i < size (rz_values ritz))%N q -> all (fun i => i < size (rz_values ritz))%N rest ->
  size q <> size (rz_values ritz) -> q != [::] -> rest != [::] ->
  let V := [seq nth 0 (rz_values ritz) i | i <- q] in
  let W := [seq nth 0 (rz_values ritz) i | i <- rest] in
  let d := norm2 [seq nth 0 (rz_resnorms ritz) i | i <- q] in
  exists delta mumin, [/\ is_min (dists V W) delta, is_min (mods V) mumin &
    estimate_intervals orders ritz q rest 0 0 None =
      if delta <= d then Err AssumptionError else if mumin == 0 then Err AssumptionError else
      adds orders [::] [seq Itv (mu - eta d delta mumin) (mu + eta d delta mumin) | mu <- W]].
Proof.
move=> Ho sz aq ar nq q0 r0 V W d.
have V0 : V != [::] by rewrite -size_eq0 size_map size_eq0.
have W0 : W != [::] by rewrite -size_eq0 size_map size_eq0.
have [delta Ed [d1 d2]] := gap_individualP V0 W0.
have nV : mk_itvs 0 0 V = Ok [seq Itv mu mu | mu <- V].
  by rewrite mk_itvsE //; congr Ok; apply: eq_map => mu; rewrite addr0.
have wV : all (@wf F) [seq Itv mu mu | mu <- V].
  by rewrite all_map; apply/allP => mu _; rewrite /= /wf /=.
have [mi Ei [gi Hi]] := addsP Ho (good0 _) wV.
have ci x : itvs_contains mi x = (x \in V).
  rewrite Hi /= has_map; apply/hasP/idP => [[mu hmu /= /andP[/= h1 h2]]|hx].
    by rewrite (_ : x = mu) //; apply/eqP; rewrite eq_le h1 h2.
  by exists x => //=; rewrite /itv_contains /= lexx.
have mi0 : mi != [::].
  by case: (mi) ci => // ci; case: (V) V0 ci => // v V' _ /(_ v); rewrite inE eqxx.
have [mm Em [[x0 hx0 ex0] hm]] := min_absP gi mi0.
exists delta, mm; split.
- split; first by case: d1 => l [t [h1 h2 ->]]; exists l, t.
  by move=> x [l [t [h1 h2 ->]]]; apply: d2.
- by split; [exists x0; rewrite // -ci|move=> x [y hy ->]; apply: hm; rewrite ci].
rewrite /estimate_intervals size_eq0 (negbTE q0) eq_sym (introF eqP nq).
do 4!rewrite take_idxE ?sz //=.
rewrite -/V -/W; rewrite /gap in Ed; rewrite Ed /= nV /= Ei /= Em /=.
rewrite !addr0 !subr0 normr0 maxxx; case: ifP => // _; case: ifP => // mm0; rewrite addr0 -/d.
rewrite -/(eta d delta mm); have e0 : 0 <= eta d delta mm.
  rewrite mulr_ge0 ?exprn_ge0 ?norm2_ge0 // addr_ge0 // divr_ge0 ?ler01 //.
    by case: d1 => l [t [_ _ ->]].
  by rewrite ex0.
rewrite mk_itvsE; last by rewrite !add0r (le_trans (_ : _ <= 0)) // oppr_le0.
by rewrite /=; congr (adds _ _ _); apply: eq_map => mu; rewrite !add0r.
Qed.

Lemma mem_ball s (e x : F) : mem_union [seq Itv (mu - e) (mu + e) | mu <- s] x <->
  exists2 mu, mu \in s & `|x - mu| <= e.
Proof.
split=> [[a /mapP[mu hmu ->] [/= h1 h2]]|[mu hmu h]].
  by exists mu => //; rewrite ler_distl h1 h2.
exists (Itv (mu - e) (mu + e)); first by apply/mapP; exists mu.
by move: h; rewrite ler_distl => /andP[].
Qed.
End Intervals.

Section Time.
Variable F : rcfType.
Variable K : eqType.

Lemma tget_ge0 (tm : timings F K) k : (forall t, tm k = Some t -> all (fun x => 0 <= x) (t_list t)) -> 0 <= tget tm k.
Proof.
rewrite /tget; case: (tm k) => [[t0 [|x s]]|] // h; have [h1 _] := Proof.Timings.foldl_min x s.
exact: (allP (h _ erefl) _ h1).
Qed.

Lemma tget_le (tm : timings F K) k t : tm k = Some t ->
  tget tm k * (size (t_list t))%:R <= \sum_(x <- t_list t) x.
Proof.
rewrite /tget => ->; case: t => t0 [|x s] /=; first by rewrite mul0r big_nil.
have [_ h2] := Proof.Timings.foldl_min x s; set m := foldl _ _ _ in h2 *.
rewrite -[(size s).+1]/(size (x :: s)) -sum1_size natr_sum mulr_sumr big_seq [X in _ <= X]big_seq.
by apply: ler_sum => y hy; rewrite mulr1; apply: h2.
Qed.
End Time.
