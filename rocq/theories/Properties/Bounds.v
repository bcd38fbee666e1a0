(** C38: BoundCG; C39: BoundMinres. *)
From Coq Require Import Reals Lra.
From mathcomp Require Import all_ssreflect all_algebra.
From Verif Require Import Base Model.Projection Model.Bounds Proof.Bounds.

Set Implicit Arguments.
Unset Strict Implicit.
Unset Printing Implicit Defensive.
Import Order.TTheory GRing.Theory Num.Theory.
Local Open Scope ring_scope.

Section C38.
Variable C : numClosedFieldType.
Local Notation eps := (eps15 C).
Local Notation isreal := (fun x : C => x \is Num.real).

(** [least s m], [greatest s l]: m is the least, l the greatest member of s. *)

(** For a list of eigenvalues with greatest member l > 0, base is computed from l and the
    least eigenvalue m above the threshold; it lies in [0, 1). *)
Theorem C38_base (s : seq C) (exclude_zeros : bool) (l m : C) :
  all isreal s -> greatest s l -> 0 < l -> least [seq x <- s | eps * l < x] m ->
  (forall x, x \in s -> - eps * l < x) ->
  (exclude_zeros \/ forall x, x \in s -> eps * l < x) ->
  exists2 base, bound_cg (EList s) exclude_zeros = Ok base &
    base * (sqrtC (l / m) + 1) = sqrtC (l / m) - 1 /\ 0 <= base < 1.
Proof.
move=> rs hl l0 hm hn hz.
have ns : s != [::] by case: (s) hl => // -[]; rewrite in_nil.
have [m0 hm0] := has_least rs ns.
have mp : 0 < m.
  have := hm.1; rewrite mem_filter => /andP[h _]; apply: lt_trans h.
  by rewrite mulr_gt0 // eps_gt0.
have k1 : 1 <= l / m by rewrite ler_pdivl_mulr // mul1r; apply: hl.2; have := hm.1; rewrite mem_filter => /andP[].
exists (cg_base (l / m)); last split; last exact: cg_base_range.
  rewrite (bound_cgE _ rs hl l0 hm0 hm) hn ?hm0.1 //=.
  case: hz => [->//|h]; rewrite h ?hm0.1 ?andbF //.
rewrite divfK // gt_eqF // ltr_spaddr ?ltr01 // sqrtC_ge0; exact: le_trans ler01 k1.
Qed.

(** Spectra that are not non-negative (or contain zeros that are not excluded) raise. *)
Theorem C38_rejected (s : seq C) (l x : C) :
  all isreal s -> greatest s l -> 0 <= l -> x \in s ->
  (x <= eps * l -> bound_cg (EList s) false = Err AssumptionError) /\
  (x <= - eps * l -> bound_cg (EList s) true = Err AssertionError).
Proof.
move=> rs hl; rewrite le_eqVlt => /predU1P[e|l0] hx.
  by rewrite -e in hl; rewrite (bound_cg0 false rs hl) (bound_cg0 true rs hl).
have ns : s != [::] by case: (s) hl => // -[]; rewrite in_nil.
have [m hm] := has_least rs ns.
have pf : [seq x <- s | eps * l < x] != [::].
  apply/eqP => h; have : l \in [seq x <- s | eps * l < x].
    by rewrite mem_filter hl.1 andbT -[X in _ < X]mul1r ltr_pmul2r // eps_lt1.
  by rewrite h.
have [m' hm'] := has_least (all_filter_sub _ rs) pf.
have mx : m <= x by apply: hm.2.
split=> h; rewrite (bound_cgE _ rs hl l0 hm hm') /=.
  by rewrite (le_gtF (le_trans mx h)).
by rewrite (le_gtF (le_trans mx h)).
Qed.

Theorem C38_rejected_input (s : seq C) ez :
  s = [::] \/ has (fun x => x \isn't Num.real) s -> bound_cg (EList s) ez = Err AssumptionError.
Proof.
case=> [->//|h]; rewrite /bound_cg /= -has_predC.
case: eqP => // _; by have -> : has (predC isreal) s.
Qed.

(** An Intervals object behaves like its two end points. *)
Theorem C38_intervals (q : itvq C) ez :
  q_min q \is Num.real -> q_min q <= q_max q -> ~~ q_empty q ->
  (q_min q <= 0 -> bound_cg (EItv q) ez = Err AssumptionError) /\
  (0 < q_min q -> bound_cg (EItv q) ez = bound_cg (EList [:: q_min q; q_max q]) ez).
Proof.
move=> rm mm ne; rewrite /bound_cg (negbTE ne) /=; split=> [-> //|h].
by rewrite lt_geF.
Qed.

(** The order and a positive factor do not matter. *)
Theorem C38_invariant (s t : seq C) (c : C) ez :
  perm_eq s t -> 0 < c -> bound_cg (EList [seq c * x | x <- t]) ez = bound_cg (EList s) ez.
Proof. by move=> st c0; rewrite bound_cg_scale // (bound_cg_perm ez st). Qed.

(** The claim "non-positive spectra are rejected" is false: every spectrum of negative
    numbers is accepted, with base 0. *)
Theorem C38_negative_refuted (s : seq C) ez :
  s != [::] -> all (fun x => x < 0) s -> bound_cg (EList s) ez = Ok 0.
Proof.
move=> ns /allP h; have rs : all isreal s by apply/allP => x /h /ltr0_real.
have [l hl] := has_greatest rs ns.
by apply: (bound_cg_neg ez rs hl); apply: h; exact: hl.1.
Qed.

(** The bound starts with 2 and does not grow. *)
Theorem C38_steps (base : C) n : 0 <= base < 1 ->
  cg_eval_step base 0 = 2%:R /\ 0 <= cg_eval_step base n.+1 <= cg_eval_step base n
  /\ (0 < base -> cg_eval_step base n.+1 < cg_eval_step base n).
Proof.
move=> /andP[b0 b1]; rewrite /cg_eval_step expr0 mulr1; split=> //.
rewrite mulr_ge0 ?exprn_ge0 ?ler0n //=; split.
  by rewrite ler_pmul2l ?ltr0n // exprS ler_pimull ?exprn_ge0 // ltW.
move=> bp; rewrite ltr_pmul2l ?ltr0n // exprS -[X in _ < X]mul1r ltr_pmul2r //.
by rewrite exprn_gt0.
Qed.

(** Example: the eigenvalues 4, 1, 4 give 1/3; with a zero, 1/3 only if zeros are
    excluded. *)
Example C38_ex : bound_cg (EList [:: 4%:R; 1; 4%:R : C]) false = Ok (1 / 3%:R) /\
  bound_cg (EList [:: 4%:R; 0; 1 : C]) true = Ok (1 / 3%:R) /\
  bound_cg (EList [:: 4%:R; 0; 1 : C]) false = Err AssumptionError.
Proof.
have l4 : eps * 4%:R < 1.
  rewrite ltr_pdivr_mull ?exprn_gt0 ?ltr0n // mulr1.
  apply: lt_le_trans (_ : 10%:R <= _); first by rewrite ltr_nat.
  by rewrite -[X in X <= _]expr1 ler_eexpn2l // ltr1n.
have e0 : 0 < eps * 4%:R by rewrite mulr_gt0 ?eps_gt0 ?ltr0n.
have e4 : eps * 4%:R < 4%:R by apply: lt_trans l4 _; rewrite ltr1n.
have s4 : sqrtC (4%:R : C) = 2%:R by have -> : 4%:R = 2%:R ^+ 2 :> C by [rewrite -natrX]; rewrite sqrCK ?ler0n.
have ra (b : C) : b * (sqrtC (4%:R / 1) + 1) = sqrtC (4%:R / 1) - 1 -> b = 1 / 3%:R.
  rewrite divr1 s4 => h; apply: (mulIf (_ : 3%:R != 0)); first by rewrite pnatr_eq0.
  rewrite divfK ?pnatr_eq0 //; move: h; have -> : 2%:R + 1 = 3%:R :> C by rewrite -mulrSr.
  by move=> ->; rewrite mulrSr addrK.
have ne4 : - eps * 4%:R < 0 by rewrite mulNr oppr_lt0.
split; last split.
- have [||||||x -> [/ra -> _] //] := @C38_base [:: 4%:R; 1; 4%:R] false 4%:R 1.
  + by rewrite /= !ger0_real ?ler0n ?ler01.
  + split; first by rewrite mem_head.
    by move=> x; rewrite !inE => /or3P[] /eqP->; rewrite ?ler1n.
  + by rewrite ltr0n.
  + rewrite /= e4 l4; split; first by rewrite !inE eqxx orbT.
    by move=> x; rewrite !inE => /or3P[] /eqP->; rewrite ?ler1n.
  + by move=> x; rewrite !inE => /or3P[] /eqP->; apply: lt_trans ne4 _; rewrite ?ltr0n ?ltr01.
  + by right=> x; rewrite !inE => /or3P[] /eqP->.
- have [||||||x -> [/ra -> _] //] := @C38_base [:: 4%:R; 0; 1] true 4%:R 1.
  + by rewrite /= !ger0_real ?ler0n ?ler01.
  + split; first by rewrite mem_head.
    by move=> x; rewrite !inE => /or3P[] /eqP->; rewrite ?ler1n ?ler0n.
  + by rewrite ltr0n.
  + rewrite /= e4 l4 lt_gtF //; split; first by rewrite !inE eqxx orbT.
    by move=> x; rewrite !inE => /orP[] /eqP->; rewrite ?ler1n.
  + by move=> x; rewrite !inE => /or3P[] /eqP->; [apply: lt_trans ne4 _; rewrite ltr0n | | apply: lt_trans ne4 _; rewrite ltr01].
  + by left.
- have [||||h _] := @C38_rejected [:: 4%:R; 0; 1] 4%:R 0.
  + by rewrite /= !ger0_real ?ler0n ?ler01.
  + split; first by rewrite mem_head.
    by move=> x; rewrite !inE => /or3P[] /eqP->; rewrite ?ler1n ?ler0n.
  + by rewrite ler0n.
  + by rewrite !inE eqxx orbT.
  + by rewrite h // ltW.
Qed.
End C38.

Section C38steps.
Local Open Scope R_scope.

Let np_log_pos x : 0 < x -> np_log x = Fin (ln x).
Proof. by rewrite /np_log; case: Rlt_dec. Qed.
Let np_log_zero : np_log 0 = NegInf.
Proof. by rewrite /np_log; case: Rlt_dec => h /=; [lra | case: Req_EM_T]. Qed.
Let np_pow_pos b x : 0 < b -> np_pow b x = Some (Rpower b x).
Proof. by rewrite /np_pow; case: Rlt_dec. Qed.

(** get_step(tol) is the real number where the bound equals tol; for natural steps, the
    bound is at most tol from there on. *)
Theorem C38_get_step (base tol : R) : 0 < base < 1 -> 0 < tol ->
  exists2 t, cg_get_step base tol = Fin t &
    cg_eval_real base t = Some tol /\
    forall n : nat, 2 * base ^ n <= tol <-> t <= INR n.
Proof.
move=> [b0 b1] t0; have t2 : 0 < tol / 2 by lra.
have lb : ln base < 0 by rewrite -ln_1; apply: ln_increasing.
exists (ln (tol / 2) / ln base); last split.
- by rewrite /cg_get_step !np_log_pos //=; case: Req_EM_T => h //=; lra.
- rewrite /cg_eval_real np_pow_pos //; congr Some.
  rewrite /Rpower /Rdiv Rmult_assoc Rinv_l; last lra.
  by rewrite Rmult_1_r exp_ln //; lra.
- move=> n; have -> : 2 * base ^ n <= tol <-> INR n * ln base <= ln (tol / 2).
    rewrite -Rpower_pow // /Rpower; split=> h.
      have h' : exp (INR n * ln base) <= tol / 2 by lra.
      rewrite -[X in X <= _]ln_exp; case: h' => [h'|->]; last by right.
      by left; apply: ln_increasing => //; exact: exp_pos.
    have : exp (INR n * ln base) <= tol / 2.
      rewrite -[X in _ <= X](exp_ln _ t2); case: h => [h|->]; last by right.
      by left; apply: exp_increasing.
    lra.
  split=> h.
    apply: (Rmult_le_reg_r (- ln base)); first lra.
    have -> : ln (tol / 2) / ln base * - ln base = - ln (tol / 2) by field; lra.
    by lra.
  have h' : - ln base * (ln (tol / 2) / ln base) <= - ln base * INR n by apply: Rmult_le_compat_l => //; lra.
  have e : - ln base * (ln (tol / 2) / ln base) = - ln (tol / 2) by field; lra.
  lra.
Qed.

(** With base 0 (all eigenvalues equal) get_step returns 0 for every tolerance, although
    the bound is 2 there. *)
Theorem C38_get_step_refuted (tol : R) : 0 < tol < 2 ->
  cg_get_step 0 tol = Fin 0 /\ cg_eval_real 0 0 = Some 2 /\ ~ (2 <= tol).
Proof.
move=> [t0 t2]; split; last split; last lra.
- by rewrite /cg_get_step np_log_zero np_log_pos //; lra.
- rewrite /cg_eval_real /np_pow; case: Rlt_dec => h /=; first lra.
  by case: Req_EM_T => // h' /=; congr Some; ring.
Qed.

Example C38_get_step_ex : cg_get_step (1 / 3) (2 / 9) = Fin 2.
Proof.
have [t -> [e h]] := @C38_get_step (1 / 3) (2 / 9) ltac:(lra) ltac:(lra).
congr Fin; have h2 : t <= 2 by have := proj1 (h 2%N); rewrite /=; lra.
have h1 : ~ (t < 2).
  move=> h1; have hb : 0 < 1 / 3 by lra.
  move: e; rewrite /cg_eval_real np_pow_pos // => -[] e.
  have hl : ln (1 / 3) < 0 by rewrite -ln_1; apply: ln_increasing; lra.
  have : exp (2 * ln (1 / 3)) < exp (t * ln (1 / 3)).
    apply: exp_increasing; have : 0 < (2 - t) * - ln (1 / 3) by apply: Rmult_lt_0_compat; lra.
    lra.
  move: e; rewrite /Rpower => e; have -> : 2 = INR 2 by [].
  rewrite -/(Rpower _ _) Rpower_pow //=; lra.
lra.
Qed.
End C38steps.

Section C39.
Variable C : numClosedFieldType.
Local Notation eps := (eps15 C).
Local Notation isreal := (fun x : C => x \is Num.real).

(** Non-negative spectra: a BoundCG object is returned (or its exception raised). *)
Theorem C39_nonnegative (s : seq C) : all isreal s -> (forall x, x \in s -> - eps < x) ->
  bound_minres (EList s) = rmap (@BCg C) (bound_cg (EList s) false).
Proof.
move=> rs h; rewrite /bound_minres /=; have -> // : all (fun x => gt_lex x (- eps)) s.
apply/allP => x hx; rewrite /gt_lex (Creal_ReP x (allP rs x hx)) h //.
Qed.

Let not_pos (s : seq C) x : all isreal s -> x \in s -> x <= - eps ->
  bound_minres (EList s) = rmap (@BMinres C) (minres_init (EList s)).
Proof.
move=> rs hx h; rewrite /bound_minres /=; case: allP => // /(_ x hx).
have rx := allP rs x hx; rewrite /gt_lex (Creal_ReP x rx) (Creal_ImP x rx) ltxx andbF orbF.
by rewrite (le_gtF h).
Qed.

(** Indefinite spectra.  mx is the greatest absolute value; l1, ls are the extremal
    negative, lt, lN the extremal positive eigenvalues (relative to the threshold). *)
Theorem C39_indefinite (s : seq C) (mx l1 ls lt lN : C) :
  all isreal s -> (exists2 x, x \in s & x <= - eps) ->
  greatest [seq `|x| | x <- s] mx ->
  least [seq x <- s | x < - eps * mx] l1 -> greatest [seq x <- s | x < - eps * mx] ls ->
  least [seq x <- s | eps * mx < x] lt -> greatest [seq x <- s | eps * mx < x] lN ->
  exists2 base, bound_minres (EList s) = Ok (BMinres base) &
    base * (sqrtC `|l1 * lN| + sqrtC `|ls * lt|) = sqrtC `|l1 * lN| - sqrtC `|ls * lt| /\
    0 <= base < 1.
Proof.
move=> rs [x hx xe] hmx h1 hs ht hN; rewrite (not_pos rs hx xe).
have mx0 : 0 < mx.
  have x0 : x < 0 by apply: le_lt_trans xe _; rewrite oppr_lt0 eps_gt0.
  apply: lt_le_trans (_ : `|x| <= _); first by rewrite normr_gt0 lt_eqF.
  by apply: hmx.2; apply: map_f.
have rg := minres_init_range mx0 h1 hs ht hN.
exists ((sqrtC `|l1 * lN| - sqrtC `|ls * lt|) / (sqrtC `|l1 * lN| + sqrtC `|ls * lt|)).
  by rewrite (minres_init_val rs hmx mx0 h1 hs ht hN).
split=> //; apply: divfK; apply/eqP => h0.
have e0 : 0 < eps * mx by rewrite mulr_gt0 // eps_gt0.
have hs0 : sqrtC `|ls * lt| == 0.
  by move/eqP: h0; rewrite paddr_eq0 ?sqrtC_ge0 ?normr_ge0 // => /andP[].
move: hs0; rewrite sqrtC_eq0 normr_eq0 mulf_eq0 => /orP[] /eqP z.
  by have := hs.1; rewrite z mem_filter mulNr oppr_gt0 (lt_gtF e0).
by have := ht.1; rewrite z mem_filter (lt_gtF e0).
Qed.

(** The order does not matter. *)
Theorem C39_order (s t : seq C) : perm_eq s t -> bound_minres (EList s) = bound_minres (EList t).
Proof. exact: bound_minres_perm. Qed.

(** Intervals: positive ones are treated by BoundCG; 0 is rejected; otherwise the four
    end points next to 0 and at the ends count. *)
Theorem C39_intervals (q : itvq C) : ~~ q_empty q -> q_min q \is Num.real ->
  (0 < q_min q -> bound_minres (EItv q) = rmap (@BCg C) (bound_cg (EItv q) false)) /\
  (q_min q <= 0 -> q_has0 q -> bound_minres (EItv q) = Err AssumptionError) /\
  (forall n p, q_min q <= - eps -> ~~ q_has0 q -> q_max_neg q = Some n -> q_min_pos q = Some p ->
    all isreal [:: q_min q; n; p; q_max q] ->
    bound_minres (EItv q) = bound_minres (EList [:: q_min q; n; p; q_max q])).
Proof.
move=> ne rm; split; last split.
- by rewrite /bound_minres (negbTE ne) /= => ->.
- by move=> h h0; rewrite /bound_minres (negbTE ne) /= (le_gtF h) /minres_init h0.
- move=> n p h h0 en ep rs; rewrite (@not_pos _ (q_min q) rs) ?mem_head //.
  have m0 : q_min q <= 0 by apply: le_trans h _; rewrite oppr_le0 ltW ?eps_gt0.
  by rewrite /bound_minres (negbTE ne) /= (le_gtF m0) /minres_init (negbTE h0) en ep.
Qed.

(** eval_step is constant on pairs of steps and does not grow. *)
Theorem C39_steps (base : C) n : 0 <= base < 1 ->
  minres_eval_step base n.*2.+1 = minres_eval_step base n.*2 /\
  minres_eval_step base n.*2 = 2%:R * base ^+ n /\
  0 <= minres_eval_step base n.+1 <= minres_eval_step base n.
Proof.
move=> /andP[b0 b1]; rewrite /minres_eval_step -[n.*2.+1./2]/(uphalf n.*2) uphalf_double doubleK.
split=> //; split=> //; rewrite mulr_ge0 ?ler0n ?exprn_ge0 //=.
rewrite ler_pmul2l ?ltr0n //= uphalf_half; case: (odd n) => //=.
by rewrite add1n exprS ler_pimull ?exprn_ge0 // ltW.
Qed.

(** The claim about spectra without positive part is false: negative definite spectra
    raise a ValueError of numpy, which is not an exception of krypy. *)
Theorem C39_negative_refuted (s : seq C) : s != [::] -> all (fun x => x <= - eps) s ->
  bound_minres (EList s) = Err ValueError.
Proof.
move=> ns /allP h.
have neg x : x \in s -> x < 0 by move/h => hx; apply: le_lt_trans hx _; rewrite oppr_lt0 eps_gt0.
have rs : all isreal s by apply/allP => x /neg /ltr0_real.
have [x hx] : exists x, x \in s by case: (s) ns => // y t _; exists y; rewrite mem_head.
rewrite (not_pos rs hx (h x hx)).
have ra : all isreal [seq `|x| | x <- s] by rewrite all_map; apply/allP => y _; exact: normr_real.
have [|mx hmx] := has_greatest ra; first by case: (s) ns.
have mx0 : 0 < mx.
  apply: lt_le_trans (_ : `|x| <= _); first by rewrite normr_gt0 lt_eqF ?neg.
  by apply: hmx.2; apply: map_f.
have e0 : 0 < eps * mx by rewrite mulr_gt0 // eps_gt0.
rewrite (minres_init_nopos rs hmx mx0) //.
- have /mapP[y hy e] := hmx.1; apply/eqP => h0.
  have : y \in [seq x <- s | x < - eps * mx].
    rewrite mem_filter hy andbT e (ltr0_norm (neg y hy)) mulrNN -[X in X < _]mul1r.
    by rewrite (ltr_nmul2r (neg y hy)) eps_lt1.
  by rewrite h0.
- case E: (filter _ s) => [//|y t]; have : y \in [seq x <- s | eps * mx < x] by rewrite E mem_head.
  by rewrite mem_filter => /andP[h1 /neg h2]; have := lt_trans (lt_trans e0 h1) h2; rewrite ltxx.
Qed.

(** Neither does BoundMinres depend on the eigenvalues up to scaling only: -1, 1 is
    accepted with base 0, while multiples close to zero are rejected. *)
Theorem C39_scaling_refuted :
  bound_minres (EList [:: -1; 1 : C]) = Ok (BMinres 0) /\
  forall c : C, 0 < c < eps ->
    bound_minres (EList [seq c * x | x <- [:: -1; 1]]) = Err AssumptionError.
Proof.
have r2 : all isreal [:: -1; 1 : C] by rewrite /= rpredN !rpred1.
have e1 := eps_lt1 C; have e0 := eps_gt0 C.
have mx1 : greatest [seq `|x| | x <- [:: -1; 1 : C]] 1.
  rewrite /= normrN normr1; split; first by rewrite mem_head.
  by move=> x; rewrite !inE => /orP[] /eqP->.
split.
  have fn : [seq x <- [:: -1; 1 : C] | x < - eps * 1] = [:: -1].
    by rewrite /= mulr1 ltr_opp2 e1 lt_gtF // (lt_trans _ ltr01) // oppr_lt0.
  have fp : [seq x <- [:: -1; 1 : C] | eps * 1 < x] = [:: 1].
    by rewrite /= mulr1 e1 lt_gtF // (lt_trans _ e0) // oppr_lt0 ltr01.
  have l1 (x : C) : least [:: x] x /\ greatest [:: x] x.
    by split; split; rewrite ?mem_head // => y; rewrite inE => /eqP->.
  have [|||||b -> [hb _]] := @C39_indefinite [:: -1; 1] 1 (-1) (-1) 1 1 r2 _ mx1.
  - by exists (-1); rewrite ?mem_head // ler_opp2 ltW.
  - by rewrite fn; case: (l1 (-1)).
  - by rewrite fn; case: (l1 (-1)).
  - by rewrite fp; case: (l1 1).
  - by rewrite fp; case: (l1 1).
  congr (Ok (BMinres _)); apply/eqP; move/eqP: hb; rewrite subrr mulf_eq0 => /orP[//|].
  by rewrite mulN1r normrN normr1 sqrtC1 -mulr2n pnatr_eq0.
move=> c /andP[c0 ce]; rewrite C39_nonnegative; last 2 first.
- by rewrite real_scale.
- move=> x /mapP[y]; rewrite !inE => /orP[] /eqP-> ->; first by rewrite mulrN1 ltr_opp2.
  by rewrite mulr1; apply: lt_trans c0; rewrite oppr_lt0.
rewrite bound_cg_scale //.
have [|||h _] := @C38_rejected _ [:: -1; 1] 1 (-1) r2.
- split; first by rewrite !inE eqxx orbT.
  by move=> x; rewrite !inE => /orP[] /eqP-> //; rewrite (le_trans _ ler01) // oppr_le0 ler01.
- exact: ler01.
- by rewrite mem_head.
by rewrite h // mulr1 (le_trans _ (ltW e0)) // oppr_le0 ler01.
Qed.

(** Example: -4, -1, 1, 4 give base (4 - 1) / (4 + 1). *)
Example C39_ex : bound_minres (EList [:: -1; 4%:R; 1; - 4%:R : C]) = Ok (BMinres (3%:R / 5%:R)).
Proof.
have e4 : eps * 4%:R < 1.
  rewrite ltr_pdivr_mull ?exprn_gt0 ?ltr0n // mulr1.
  apply: lt_le_trans (_ : 10%:R <= _); first by rewrite ltr_nat.
  by rewrite -[X in X <= _]expr1 ler_eexpn2l // ltr1n.
have e0 : 0 < eps * 4%:R by rewrite mulr_gt0 ?eps_gt0 ?ltr0n.
have e44 : eps * 4%:R < 4%:R by apply: lt_trans e4 _; rewrite ltr1n.
have n0 (x : C) : 0 < x -> - x < eps * 4%:R.
  by move=> x0; apply: lt_trans (_ : 0 < _); rewrite ?oppr_lt0.
have p0 (x : C) : 0 < x -> - eps * 4%:R < x.
  by move=> x0; apply: lt_trans x0; rewrite mulNr oppr_lt0.
have r4 : all isreal [:: -1; 4%:R; 1; - 4%:R : C].
  by rewrite /= !rpredN !rpred1 !rpred_nat.
have fn : [seq x <- [:: -1; 4%:R; 1; - 4%:R : C] | x < - eps * 4%:R] = [:: -1; - 4%:R].
  have h1 : -1 < - eps * 4%:R by rewrite mulNr ltr_opp2.
  have h2 : (4%:R < - eps * 4%:R) = false by rewrite lt_gtF // p0 // ltr0n.
  have h3 : (1 < - eps * 4%:R) = false by rewrite lt_gtF // p0 // ltr01.
  have h4 : - 4%:R < - eps * 4%:R by rewrite mulNr ltr_opp2.
  by rewrite /= h1 h2 h3 h4.
have fp : [seq x <- [:: -1; 4%:R; 1; - 4%:R : C] | eps * 4%:R < x] = [:: 4%:R; 1].
  have h1 : (eps * 4%:R < -1) = false by rewrite lt_gtF // n0 // ltr01.
  have h2 : (eps * 4%:R < - 4%:R) = false by rewrite lt_gtF // n0 // ltr0n.
  by rewrite /= h1 h2 e4 e44.
have [||||||b -> [hb _]] := @C39_indefinite [:: -1; 4%:R; 1; - 4%:R] 4%:R (- 4%:R) (-1) 1 4%:R r4.
- exists (-1); rewrite ?mem_head // ler_opp2 ltW ?eps_lt1 //.
- rewrite /= !normrN !normr1 !normr_nat; split; first by rewrite !inE eqxx orbT.
  by move=> x; rewrite !inE => /or4P[] /eqP->; rewrite ?ler1n.
- rewrite fn; split; first by rewrite !inE eqxx orbT.
  by move=> x; rewrite !inE => /orP[] /eqP->; rewrite ?ler_opp2 ?ler1n.
- rewrite fn; split; first by rewrite !inE eqxx.
  by move=> x; rewrite !inE => /orP[] /eqP->; rewrite ?ler_opp2 ?ler1n.
- rewrite fp; split; first by rewrite !inE eqxx orbT.
  by move=> x; rewrite !inE => /orP[] /eqP->; rewrite ?ler1n.
- rewrite fp; split; first by rewrite !inE eqxx.
  by move=> x; rewrite !inE => /orP[] /eqP->; rewrite ?ler1n.
move: hb; rewrite mulNr normrN mulN1r normrN normr1 sqrtC1 -expr2 normrX normr_nat sqrCK ?ler0n //.
have -> : 4%:R + 1 = 5%:R :> C by rewrite -mulrSr.
have -> : 4%:R - 1 = 3%:R :> C by rewrite mulrSr addrK.
by move=> hb; congr (Ok (BMinres _)); rewrite -hb mulfK // pnatr_eq0.
Qed.
End C39.

Section C39steps.
Local Open Scope R_scope.
(** get_step(tol) is twice the step of the CG bound; the bound at an even step 2n is at
    most tol if and only if get_step(tol) <= 2n. *)
Theorem C39_get_step (base tol : R) : 0 < base < 1 -> 0 < tol ->
  exists2 t, minres_get_step base tol = Fin t &
    forall n : nat, 2 * base ^ n <= tol <-> t <= INR n.*2.
Proof.
move=> hb ht; have [t ht' [_ h]] := C38_get_step hb ht.
exists (2 * t) => [|n].
  move: ht'; rewrite /cg_get_step /minres_get_step.
  case: (np_log (tol / 2)) => [a||] //; case: (np_log base) => [b||] //=.
    by case: Req_EM_T => //= _ [<-]; congr Fin; rewrite /Rdiv Rmult_assoc.
  by move=> [<-]; congr Fin; lra.
rewrite h -muln2 mult_INR /=; lra.
Qed.
End C39steps.
