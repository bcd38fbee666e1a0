(** Model of _DeflationMixin.estimate_time (krypy/deflation.py 191-233), of the dictionaries
    returned by operations (linsys.py 698-708, 864-874, 1008-1018), and of RitzApriori and
    RitzApproxKrylov (krypy/recycling/evaluators.py 13-134 and 137-238).

    Exact arithmetic in a real closed field; in particular the number of steps is a real
    number (get_step returns one).  Ritz values and residual norms are real numbers (the
    evaluator RitzApriori is meant for self-adjoint problems; for others it only warns).
    The class Bound is a parameter: its constructor, applied to an array or to an Intervals
    object, and its method get_step.  A subset is a frozenset of indices, given as a list in
    its iteration order; [order] is the iteration order of the set of the other indices. *)
From Coq Require Import Reals.
From mathcomp Require Import all_ssreflect all_algebra.
From Verif Require Import Base Model.Timings Model.Interval Model.Bounds.

Set Implicit Arguments.
Unset Strict Implicit.
Unset Printing Implicit Defensive.
Import Order.TTheory GRing.Theory Num.Theory.
Local Open Scope ring_scope.

Section Evaluators.
Variable F : rcfType.
Variable K : eqType.
(** The keys "A", "M", "Ml", "Mr", "ip_B", "axpy". *)
Variables (kA kM kMl kMr kB kX : K).

(** The solver classes that define operations. *)
Inductive solver_class := SCg | SMinres | SGmres.

(** The number of applications of Ml, the entry "Ml" of operations(nsteps). *)
Definition ops_Ml (n : F) : F := 2%:R + n.

(** operations(nsteps); linsys.py 698-708, 864-874, 1008-1018 *)
Definition operations (s : solver_class) (n : F) : seq (K * F) :=
  match s with
  | SCg => [:: (kA, 1 + n); (kM, 2%:R + n); (kMl, ops_Ml n); (kMr, 1 + n);
               (kB, 2%:R + 2%:R * n); (kX, 2%:R + 2%:R * n)]
  | SMinres => [:: (kA, 1 + n); (kM, 2%:R + n); (kMl, ops_Ml n); (kMr, 1 + n);
               (kB, 2%:R + 2%:R * n); (kX, 4%:R + 8%:R * n)]
  | SGmres => [:: (kA, 1 + n); (kM, 2%:R + n); (kMl, ops_Ml n); (kMr, 1 + n);
               (kB, 2%:R + n + n * (n + 1) / 2%:R); (kX, 4%:R + 2%:R * n + n * (n + 1) / 2%:R)]
  end.

(** proj_ops, deflation.py 212-226 *)
Definition proj_operations (d : F) (nMl : F) : seq (K * F) :=
  [:: (kA, d); (kM, d); (kMl, d); (kMr, d);
      (kB, d * (d + 1) / 2%:R + d ^+ 2 + 2%:R * d * nMl);
      (kX, d * (d + 1) / 2%:R + d * d + (2%:R * d + 2%:R) * nMl)].

(** estimate_time, deflation.py 191-233; [tm] are the timings of the linear system, None if
    it is not a TimedLinearSystem. *)
Definition estimate_time (tm : option (timings F K)) (s : solver_class) (nsteps : F) (ndefl : nat) (w : F) : res F :=
  if tm is Some tm then
    Ok (tget_ops tm (operations s nsteps) + w * tget_ops tm (proj_operations ndefl%:R (ops_Ml nsteps)))
  else Err RuntimeErr.

(** The attributes values and resnorms of a Ritz object *)
Record ritzdata := RitzData { rz_values : seq F; rz_resnorms : seq F }.

(** x[indices] for a list of indices that are not negative *)
Definition take_idx (s : seq F) (q : seq nat) : res (seq F) :=
  if all (fun i => i < size s)%N q then Ok [seq nth 0 s i | i <- q] else Err IndexError.

(** numpy.linalg.norm(x, 2) *)
Definition norm2 (s : seq F) : F := Num.sqrt (\sum_(x <- s) x ^+ 2).

(** [Interval(mu + a, mu + b) for mu in mus] *)
Fixpoint mk_itvs (a b : F) (mus : seq F) : res (seq (itv F)) :=
  if mus is mu :: mus' then
    let! i := mk_itv (mu + a) (Some (mu + b)) in let! r := mk_itvs a b mus' in Ok (i :: r)
  else Ok [::].
(** [Interval(mu - r, mu + r) for mu, r in zip(values, resnorms)] *)
Fixpoint mk_itvs_zip (mr : seq (F * F)) : res (seq (itv F)) :=
  if mr is (mu, r) :: mr' then
    let! i := mk_itv (mu - r) (Some (mu + r)) in let! s := mk_itvs_zip mr' in Ok (i :: s)
  else Ok [::].

(** _estimate_eval_intervals, evaluators.py 72-134; [orders]: see Model/Interval.v.  eps_res
    = None is the default. *)
Definition estimate_intervals (orders : nat -> itvs F -> itvs F) (ritz : ritzdata)
    (indices remaining : seq nat) (eps_min eps_max : F) (eps_res : option F) : res (itvs F) :=
  if size indices == 0%N then
    let! news := mk_itvs_zip (zip (rz_values ritz) (rz_resnorms ritz)) in adds orders [::] news else
  if size (rz_values ritz) == size indices then Err AssumptionError else
  let eps_res := if eps_res is Some e then e else Num.max `|eps_min| `|eps_max| in
  let! r1 := take_idx (rz_resnorms ritz) indices in
  let delta_sel := norm2 r1 in
  let! r2 := take_idx (rz_resnorms ritz) remaining in
  let! sel := take_idx (rz_values ritz) indices in
  let! rest := take_idx (rz_values ritz) remaining in
  let! delta := gap sel rest Individual in
  let! news := mk_itvs eps_min eps_max sel in
  let! mu_ints := adds orders [::] news in
  let! mu_min := itvs_min_abs mu_ints in
  match delta, mu_min with
  | GNum delta, PyNum mu_min =>
    if delta <= delta_sel + eps_max - eps_min then Err AssumptionError else
    if mu_min == 0 then Err AssumptionError else
    let eta := (delta_sel + eps_res) ^+ 2 * (1 / (delta - eps_max + eps_min) + 1 / mu_min) in
    let! news := mk_itvs (eps_min - eta) (eps_max + eta) rest in
    adds orders [::] news
  | _, _ => Err TypeError
  end.

Inductive strategy := Simple | Inclusion | OtherStrategy.
(** What Bound is applied to *)
Inductive barg := BaList of seq F | BaItvs of itvs F.

Section Apriori.
Variable Bd : Type.
Variable Bound : barg -> res Bd.
Variable get_step : Bd -> F -> res F.
Variables (order : seq nat -> seq nat) (orders : nat -> itvs F -> itvs F).

(** set(range(n)).difference(subset) as a list *)
Definition remaining (n : nat) (subset : seq nat) : seq nat :=
  order [seq i <- iota 0 n | i \notin subset].

(** What is passed to Bound, evaluators.py 50-66 *)
Definition apriori_arg (st : strategy) (ritz : ritzdata) (subset : seq nat) : res barg :=
  let rest := remaining (size (rz_values ritz)) subset in
  match st with
  | Simple => rmap BaList (take_idx (rz_values ritz) rest)
  | Inclusion => rmap BaItvs (estimate_intervals orders ritz subset rest 0 0 None)
  | OtherStrategy => Err ArgumentError
  end.

(** RitzApriori.evaluate, evaluators.py 37-70; [tol] is self.tol, [stol] the tolerance of the
    deflated solver. *)
Definition apriori_evaluate (st : strategy) (tol : option F) (stol : F) (ritz : ritzdata) (subset : seq nat)
    (est : F -> nat -> res F) : res F :=
  let tol := if tol is Some t then t else stol in
  let! a := apriori_arg st ritz subset in
  let! bound := Bound a in
  let! nsteps := get_step bound tol in
  est nsteps (size subset).
End Apriori.
End Evaluators.

(** RitzApproxKrylov.evaluate, evaluators.py 177-238, after the call of bound_pseudo: the number
    of steps from its result [b], an array of numbers >= 0.  [stol] is the attribute tol,
    [tol] the tolerance that is used (181-185).  The real numbers of the standard library; the
    comparisons with nan are false. *)
Section Approx.
Local Open Scope R_scope.

Inductive approx_mode := Extrapolate | Direct | OtherMode.

Definition gtb (x y : R) : bool := if Rgt_dec x y then true else false.

(** x ** (1.0 / j) for x >= 0 and j >= 1 *)
Definition root (x : R) (j : nat) : R := if Rlt_dec 0 x then Rpower x (/ INR j) else 0.

(** The quotients b[j] / b[0] to the power 1/j, j = 1, ..., for b[0] > 0 *)
Definition reductions (b0 : R) (b : seq R) : seq R :=
  [seq root (nth 0 b j / b0) j.+1 | j <- iota 0 (size b)].
Definition maxR (s : seq R) : R := if s is x :: s' then foldl Rmax x s' else 0.

Definition approx_steps (mode : approx_mode) (stol : option R) (tol : R) (b : seq R) : res npfloat :=
  if b is b0 :: b1 :: b' then
    match mode with
    | Direct =>
      if stol is Some t then
        if all (fun x => gtb x t) b then Err AssumptionError
        else Ok (Fin (INR (count (fun x => gtb x tol) b)))
      else Err TypeError
    | Extrapolate =>
      if Rlt_dec 0 b0 then
        let alpha := maxR (reductions b0 (b1 :: b')) in
        if Rge_dec alpha 1 then Err AssumptionError else
        if Req_EM_T alpha 0 then Err AssumptionError else
        Ok (np_div (np_log (tol / b0)) (np_log alpha))
      else
        (* b[j] / 0 is inf or, for b[j] = 0, nan *)
        if has (fun x => if Req_EM_T x 0 then true else false) (b1 :: b') then Ok NaN else Err AssumptionError
    | OtherMode => Err ArgumentError
    end
  else Err AssumptionError.
End Approx.
