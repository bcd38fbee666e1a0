(** C64: the number of steps used by the evaluator RitzApproxKrylov. *)
From Coq Require Import Reals Lra.
From mathcomp Require Import all_ssreflect.
From Verif Require Import Base Model.Bounds Model.Evaluators.

Set Implicit Arguments.
Unset Strict Implicit.
Unset Printing Implicit Defensive.
Local Open Scope R_scope.

Section C64.
Implicit Types (b : seq R) (tol : R).

Lemma np_log_pos x : 0 < x -> np_log x = Fin (ln x).
Proof. by rewrite /np_log; case: Rlt_dec. Qed.

Lemma root_ge0 x j : 0 <= root x j.
Proof. by rewrite /root; case: Rlt_dec => h; [left; apply: exp_pos|right]. Qed.

Lemma powM a c n : 0 <= a -> a <= c -> a ^ n <= c ^ n.
Proof. by move=> a0 ac; apply: pow_incr; split. Qed.

Lemma rootK x j : 0 <= x -> root x j.+1 ^ j.+1 = x.
Proof.
rewrite /root; case: Rlt_dec => h x0.
  rewrite -Rpower_pow; last exact: exp_pos.
  by rewrite Rpower_mult Rinv_l ?Rpower_1 //; apply: not_0_INR.
by rewrite /= Rmult_0_l; lra.
Qed.

Lemma pow_le_0 a n : 0 <= a -> 0 <= a ^ n.
Proof. by move=> a0; apply: Rfunctions.pow_le. Qed.
Lemma powlt a c n : 0 <= a -> a < c -> a ^ n.+1 < c ^ n.+1.
Proof.
move=> a0 ac; elim: n => [|n IH]; first by rewrite /=; lra.
rewrite -[a ^ n.+2]/(a * a ^ n.+1) -[c ^ n.+2]/(c * c ^ n.+1).
have := Rmult_lt_compat_l c _ _ (Rle_lt_trans _ _ _ a0 ac) IH.
have := Rmult_le_compat_r (a ^ n.+1) a c (pow_le_0 _ a0) (Rlt_le _ _ ac); lra.
Qed.

Lemma root_le x j a : 0 <= x -> 0 <= a -> root x j.+1 <= a <-> x <= a ^ j.+1.
Proof.
move=> x0 a0; split=> h; first by rewrite -(rootK j x0); apply: powM => //; apply: root_ge0.
apply: Rnot_lt_le => hl; have := powlt j a0 hl; rewrite rootK //; lra.
Qed.

Lemma maxRP s i : (i < size s)%N -> nth 0 s i <= maxR s.
Proof.
case: s => // x s; rewrite /maxR.
have h1 y t : y <= foldl Rmax y t.
  elim: t y => [|z t IH] y /=; [by right|].
  by apply: Rle_trans (IH _); apply: Rmax_l.
have h2 y t k : (k < size t)%N -> nth 0 t k <= foldl Rmax y t.
  elim: t y k => [|z t IH] y [|k] //= h; last exact: IH.
  by apply: Rle_trans (h1 _ _); apply: Rmax_r.
case: i => [|i] h /=; [exact: h1|exact: h2].
Qed.
Lemma maxR_in s : s <> [::] -> exists2 i, (i < size s)%N & nth 0 s i = maxR s.
Proof.
case: s => // x s _; rewrite /maxR.
elim: s x => [|y s IH] x; first by exists 0%N.
have [[|i] hi e] := IH (Rmax x y); last by exists i.+2.
move: e => /= <-; rewrite /Rmax; case: Rle_dec => h; [by exists 1%N|by exists 0%N].
Qed.

Lemma red_size (b0 : R) b : size (reductions b0 b) = size b.
Proof. by rewrite size_map size_iota. Qed.
Lemma red_nth (b0 : R) b j : (j < size b)%N -> nth 0 (reductions b0 b) j = root (nth 0 b j / b0) j.+1.
Proof. by move=> h; rewrite (nth_map 0%N) ?size_iota // nth_iota. Qed.

Lemma Div_ge0 x y : 0 <= x -> 0 < y -> 0 <= x / y.
Proof.
move=> x0 y0; apply: Rmult_le_pos => //; left; exact: Rinv_0_lt_compat.
Qed.

Lemma alpha_le (b0 : R) b a : 0 < b0 -> (forall j, 0 <= nth 0 b j) -> b <> [::] -> 0 <= a ->
  maxR (reductions b0 b) <= a <-> forall j, (j < size b)%N -> nth 0 b j <= b0 * a ^ j.+1.
Proof.
move=> b00 bn be a0; have e x y : x <= b0 * y <-> x / b0 <= y.
  split=> h.
    apply: (Rmult_le_reg_l b0) => //; rewrite /Rdiv Rmult_comm Rmult_assoc Rinv_l ?Rmult_1_r //; lra.
  have := Rmult_le_compat_l b0 _ _ (Rlt_le _ _ b00) h; rewrite /Rdiv Rmult_comm Rmult_assoc Rinv_l ?Rmult_1_r //; lra.
split=> [h j hj|h].
  apply/e/root_le => //; first exact: Div_ge0.
  rewrite -red_nth //; apply: Rle_trans h; apply: maxRP; by rewrite red_size.
have [|i hi <-] := @maxR_in (reductions b0 b).
  by move=> /(congr1 size); rewrite red_size; case: (b) be.
rewrite red_size in hi; rewrite red_nth //; apply/root_le => //; first exact: Div_ge0.
exact/e/h.
Qed.

Lemma extE (b0 : R) b tol stol : b <> [::] -> 0 < b0 ->
  approx_steps Extrapolate stol tol (b0 :: b) =
  if Rge_dec (maxR (reductions b0 b)) 1 then Err AssumptionError else
  if Req_EM_T (maxR (reductions b0 b)) 0 then Err AssumptionError else
  Ok (np_div (np_log (tol / b0)) (np_log (maxR (reductions b0 b)))).
Proof. by rewrite /approx_steps; case: b => // b1 b' _ h; case: Rlt_dec. Qed.

(** C64, mode "extrapolate".  b0 > 0 is the first entry of the array, b >= 0 are the other
    ones.  If they are less than b0 and not all 0, there is a factor alpha < 1 such that
    b[j] <= b0 alpha^j with equality for some j; the number of steps n satisfies
    b0 alpha^n = tol, and for natural m, b0 alpha^m <= tol holds from n on. *)
Theorem C64_extrapolate (b0 : R) b tol stol : b <> [::] -> 0 < b0 -> (forall j, 0 <= nth 0 b j) -> 0 < tol ->
  (forall j, (j < size b)%N -> nth 0 b j < b0) -> (exists2 j, (j < size b)%N & nth 0 b j <> 0) ->
  exists alpha n, [/\ 0 < alpha < 1, approx_steps Extrapolate stol tol (b0 :: b) = Ok (Fin n),
    forall j, (j < size b)%N -> nth 0 b j <= b0 * alpha ^ j.+1,
    exists2 j, (j < size b)%N & nth 0 b j = b0 * alpha ^ j.+1
  & b0 * Rpower alpha n = tol /\ forall m : nat, b0 * alpha ^ m <= tol <-> n <= INR m].
Proof.
move=> be b00 bn t0 hl [i hi ni]; set alpha := maxR (reductions b0 b).
have rn : reductions b0 b <> [::] by move=> /(congr1 size); rewrite red_size; case: (b) be.
have [k hk ek] := maxR_in rn; rewrite red_size in hk; rewrite -/alpha red_nth // in ek.
have a0 : 0 <= alpha by rewrite -ek; apply: root_ge0.
have ab : forall j, (j < size b)%N -> nth 0 b j <= b0 * alpha ^ j.+1.
  by apply/alpha_le => //; right.
have eq : nth 0 b k = b0 * alpha ^ k.+1.
  by rewrite -ek rootK; [field; lra|exact: Div_ge0].
have ap : 0 < alpha.
  case: a0 => // /esym a0; case: ni; have := ab i hi; have := bn i; rewrite a0 /= Rmult_0_l; lra.
have a1 : alpha < 1.
  apply: Rnot_le_lt => h; have := hl k hk; rewrite eq.
  have := pow_R1_Rle _ k.+1 h; move: (alpha ^ k.+1) => q hq; nra.
have la : ln alpha < 0 by rewrite -ln_1; apply: ln_increasing.
have tb : 0 < tol / b0 by apply: Rdiv_lt_0_compat.
exists alpha, (ln (tol / b0) / ln alpha); split=> //.
- rewrite extE // -/alpha; case: Rge_dec => [h|_] /=; first lra.
  case: Req_EM_T => [h|_] /=; first lra.
  rewrite !np_log_pos //=; case: Req_EM_T => // h; lra.
- by exists k.
have e : Rpower alpha (ln (tol / b0) / ln alpha) = tol / b0.
  rewrite /Rpower /Rdiv Rmult_assoc Rinv_l; last lra.
  by rewrite Rmult_1_r exp_ln.
split; first by rewrite e; field; lra.
move=> m; rewrite -Rpower_pow //; have : tol = b0 * Rpower alpha (ln (tol / b0) / ln alpha) by rewrite e; field; lra.
move: (ln (tol / b0) / ln alpha) => n ->; rewrite /Rpower; split=> h.
  apply: Rnot_lt_le => hm; have : exp (n * ln alpha) < exp (INR m * ln alpha).
    by apply: exp_increasing; have := Rmult_lt_gt_compat_neg_l (ln alpha) _ _ la hm; lra.
  by move=> /(Rmult_lt_compat_l b0 _ _ b00); lra.
case: h => [h|->]; last by right.
left; apply: Rmult_lt_compat_l => //; apply: exp_increasing.
by have := Rmult_lt_gt_compat_neg_l (ln alpha) _ _ la h; lra.
Qed.

(** C64.  If some entry is not less than the first one or all others are 0, AssumptionError
    is raised. *)
Theorem C64_extrapolate_rejected (b0 : R) b tol stol : b <> [::] -> 0 < b0 -> (forall j, 0 <= nth 0 b j) ->
  (exists2 j, (j < size b)%N & b0 <= nth 0 b j) \/ (forall j, (j < size b)%N -> nth 0 b j = 0) ->
  approx_steps Extrapolate stol tol (b0 :: b) = Err AssumptionError.
Proof.
move=> be b00 bn h; suff : 1 <= maxR (reductions b0 b) \/ maxR (reductions b0 b) = 0.
  rewrite extE // => {}h; case: Rge_dec => // h1 /=; case: Req_EM_T => // h2 /=.
  by case: h => h; [case: h1; apply: Rle_ge|].
have rn : reductions b0 b <> [::] by move=> /(congr1 size); rewrite red_size; case: (b) be.
have a0 : 0 <= maxR (reductions b0 b).
  by have [k hk <-] := maxR_in rn; rewrite red_size in hk; rewrite red_nth //; apply: root_ge0.
case: h => [[j hj h]|h].
  left; apply: Rnot_lt_le => hm.
  have /alpha_le H : maxR (reductions b0 b) <= maxR (reductions b0 b) by right.
  have := H b00 bn be a0 j hj; have := @powlt _ 1 j a0 hm; rewrite pow1.
  by move: (_ ^ _) => q; nra.
right; apply: Rle_antisym => //; apply/alpha_le => //; first by right.
by move=> j hj; rewrite h // /= Rmult_0_l Rmult_0_r; right.
Qed.

(** Finding: if the first entry and another one are 0, the number of steps is nan. *)
Theorem C64_nan_refuted b tol stol : (exists2 j, (j < size b)%N & nth 0 b j = 0) ->
  approx_steps Extrapolate stol tol (0 :: b) = Ok NaN.
Proof.
case: b => [|b1 b'] [j hj e] //; rewrite /approx_steps; case: Rlt_dec => [h|_] /=; first lra.
case: j hj e => [|j] hj e; first by case: Req_EM_T.
have h : has (fun x => if Req_EM_T x 0 then true else false) b'.
  by apply/(has_nthP 0); exists j => //=; case: Req_EM_T.
by rewrite h orbT.
Qed.

Lemma dirE b t tol : (1 < size b)%N -> approx_steps Direct (Some t) tol b =
  if all (fun x => gtb x t) b then Err AssumptionError else Ok (Fin (INR (count (fun x => gtb x tol) b))).
Proof. by case: b => [|b0 [|b1 b']]. Qed.

(** C64, mode "direct", for an array that does not grow: the number of steps is the first
    index with an entry that is at most tol; if there is none, AssumptionError is raised. *)
Theorem C64_direct b tol : (1 < size b)%N ->
  (forall i j, (i <= j < size b)%N -> nth 0 b j <= nth 0 b i) ->
  (forall n : nat, (n < size b)%N -> nth 0 b n <= tol -> (forall i, (i < n)%N -> tol < nth 0 b i) ->
    approx_steps Direct (Some tol) tol b = Ok (Fin (INR n))) /\
  ((forall i, (i < size b)%N -> tol < nth 0 b i) ->
    approx_steps Direct (Some tol) tol b = Err AssumptionError).
Proof.
move=> b1 hm; rewrite dirE //; have gP x y : gtb x y <-> y < x by rewrite /gtb; case: Rgt_dec.
split=> [n hn h1 h2|h].
  have -> : all (fun x => gtb x tol) b = false.
    by apply/negbTE/(all_nthP 0) => /(_ n hn)/gP; lra.
  congr (Ok (Fin (INR _))).
  rewrite -[in count _ b](cat_take_drop n b) count_cat.
  have -> : count (fun x => gtb x tol) (take n b) = size (take n b).
    apply/eqP; rewrite -all_count; apply/(all_nthP 0) => i.
    rewrite size_takel ?(ltnW hn) // => hi; rewrite nth_take //; exact/gP/h2.
  have -> : count (fun x => gtb x tol) (drop n b) = 0%N.
    apply/eqP; rewrite eqn0Ngt -has_count; apply/(has_nthP 0) => -[i].
    rewrite size_drop nth_drop => hi /gP; have := hm n (n + i)%N.
    by rewrite leq_addr -ltn_subRL hi => /(_ isT); lra.
  by rewrite addn0 size_takel // (ltnW hn).
by have -> : all (fun x => gtb x tol) b by apply/(all_nthP 0) => i hi; apply/gP/h.
Qed.

(** Finding: with the default tol=None, mode "direct" compares the array with None. *)
Theorem C64_direct_default_refuted b tol : (1 < size b)%N -> approx_steps Direct None tol b = Err TypeError.
Proof. by case: b => [|b0 [|b1 b']]. Qed.

(** C64.  Without at least two entries, AssumptionError is raised; unknown modes are rejected. *)
Theorem C64_short mode b tol stol : (size b <= 1)%N -> approx_steps mode stol tol b = Err AssumptionError.
Proof. by case: b => [|b0 [|b1 b']]. Qed.
Theorem C64_unknown b tol stol : (1 < size b)%N -> approx_steps OtherMode stol tol b = Err ArgumentError.
Proof. by case: b => [|b0 [|b1 b']]. Qed.

(** The array 1, 1/2, 1/8 and tol = 1/16: alpha = 1/2, 4 steps. *)
Example C64_example : approx_steps Extrapolate None (/ 16) [:: 1; / 2; / 8] = Ok (Fin 4).
Proof.
have [||j||||alpha [n [[a0 a1] -> h1 [[|[|//]] _ h2] [h3 h4]]]] := @C64_extrapolate 1 [:: / 2; / 8] (/ 16) None => //; try lra.
- by case: j => [|[|[|j]]] /=; lra.
- by move=> [|[|//]] _ /=; lra.
- by exists 0%N => //=; lra.
- have ea : alpha = / 2 by move: h2 => /=; lra.
  have e4 : INR 4 = 4 by rewrite /=; lra.
  have e : Rpower alpha n = Rpower alpha 4.
    rewrite -e4 Rpower_pow // ea /=; rewrite ea in h3; lra.
  do 2!congr (_ _); have la : ln alpha < 0 by rewrite -ln_1; apply: ln_increasing.
  move: e => /exp_inv e; nra.
have := h1 0%N isT; move: h2 => /=; nra.
Qed.
End C64.

Print Assumptions C64_extrapolate.
Print Assumptions C64_extrapolate_rejected.
Print Assumptions C64_nan_refuted.
Print Assumptions C64_direct.
Print Assumptions C64_direct_default_refuted.
Print Assumptions C64_short.
Print Assumptions C64_unknown.
