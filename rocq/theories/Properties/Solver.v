(** Properties C23-C27: the contract of the Krylov solvers and of the restarted
    solver.  Everything here holds for arbitrary scalars and arbitrary comparison
    operations; in particular for floating point numbers with nan. *)
From mathcomp Require Import all_ssreflect.
From Verif Require Import Base Model.Solver Spec.Solver Proof.Solver.

Set Implicit Arguments.
Unset Strict Implicit.
Unset Printing Implicit Defensive.

Section Contract.
Variables (S X : Type).
Variables (gt le : S -> S -> bool) (isz : S -> bool) (div : S -> S -> S) (zero : S).
Variable zeroX : X.
Variables (y : sys S X) (o : opts S) (m : method S X).
Local Notation run := (run gt le isz div zero zeroX y o m).

(** A normal return sets xk; resnorms[-1] does not exceed tol, unless maxiter is 0 or
    the Krylov subspace was flagged invariant. *)
Theorem C23_normal_return x0 s : good_method m -> run x0 = Returns s ->
  [/\ s_xk s <> None & gt (last zero (s_res s)) (o_tol o) -> o_maxiter o = 0%N \/ m_inv (s_st s)].
Proof.
move=> gm E; have /= := run_spec gt le isz div zero zeroX y o gm x0; rewrite E.
move=> [n [x [[-> hn _] _ _ h1 h2]]]; split=> // hg.
case: h2 => [|e|]; [by rewrite hg| |by right].
left; case: h1 => [[n0 _]|[_ /(_ e)]|[h _]]; [by rewrite -e n0|by rewrite hg|by rewrite e ltnn in h].
Qed.

(** With ordered scalars (no nan), maxiter > 0 and no invariant subspace, a normal
    return means resnorms[-1] <= tol. *)
Theorem C23_converged x0 s : good_method m -> (forall a b, ~~ gt a b -> le a b) ->
  (0 < o_maxiter o)%N -> run x0 = Returns s -> m_inv (s_st s) = false ->
  le (last zero (s_res s)) (o_tol o).
Proof.
move=> gm tot m0 E hi; have [_ h] := C23_normal_return gm E.
by apply: tot; apply/negP => /h[e|]; [rewrite e in m0|rewrite hi].
Qed.

(** ConvergenceError: maxiter iterations were done, none reached the tolerance, and the
    exception carries the last approximation with its explicit residual norm. *)
Theorem C23_convergence_error x0 s : good_method m -> run x0 = NoConvergence s ->
  [/\ (0 < o_maxiter o)%N, m_iter (s_st s) = o_maxiter o,
      size (s_res s) = (o_maxiter o).+1, forall i, (i <= o_maxiter o)%N -> gt (nth zero (s_res s) i) (o_tol o)
    & exists2 x, m_getx (s_st s) = Ok x & s_xk s = Some x /\ explicit_last div zero y x (s_res s)].
Proof.
move=> gm E; have := run_spec gt le isz div zero zeroX y o gm x0; rewrite E.
move=> [x [[ex m0 hi] hh [gx hm] hl hg]].
split=> //; [exact: h_size hh| |by exists x].
move=> i; rewrite leq_eqVlt => /orP[/eqP->|]; last exact: (h_gt hh).
by move: hg; rewrite (last_nth zero); case: (s_res s) (h_size hh) => //= a l [->].
Qed.

(** Iteration accounting.  n is the number of iterations. *)
Theorem C24_accounting x0 s : good_method m -> run x0 = Returns s ->
  exists x, s_xk s = Some x /\ history gt zero y o (m_iter (s_st s)) x (s_res s) (s_err s) /\
    s_iter s = (if m_incr m then m_iter (s_st s) else (m_iter (s_st s)).-1).
Proof.
move=> gm E; have := run_spec gt le isz div zero zeroX y o gm x0; rewrite E.
by move=> [n [x [[-> en ei] hh _ _ _]]]; exists x; rewrite en ei.
Qed.

Theorem C24_accounting_error x0 s : good_method m -> run x0 = NoConvergence s ->
  exists x, s_xk s = Some x /\ history gt zero y o (o_maxiter o) x (s_res s) (s_err s) /\
    s_iter s = (o_maxiter o).-1.
Proof.
move=> gm E; have := run_spec gt le isz div zero zeroX y o gm x0; rewrite E.
by move=> [x [[-> _ ei] hh _ _ _]]; exists x.
Qed.

(** The loop terminates: the model never runs out of fuel. *)
Theorem C24_terminates x0 : good_method m -> no_fuel_method y m -> run x0 <> Raises _ _ _ OutOfFuel.
Proof.
move=> gm nf; have := @run_nf S X gt le isz div zero zeroX y o m gm x0 nf.
by case: (run x0) => // e h [e1]; apply: h.
Qed.

(** A sufficiently good initial guess gives zero iterations. *)
Theorem C24_good_guess x0 r0 t x : isz (y_bnorm y) = false ->
  m_r0 m x0 = Ok r0 -> gt (div r0 (y_bnorm y)) (o_tol o) = false ->
  m_start m x0 (if x0 is Some x then x else zeroX) = Ok t -> m_getx t = Ok x -> y_errnorm y = None ->
  exists2 s, run x0 = Returns s &
    [/\ s_xk s = Some x, s_st s = t & s_res s = [:: div r0 (y_bnorm y)]].
Proof. exact: run_good_guess. Qed.

(** The last recorded residual norm is the explicit one of xk if the solver has
    iterated and converged (or used explicit_residual). *)
Theorem C25_explicit x0 s : good_method m -> run x0 = Returns s -> (0 < m_iter (s_st s))%N ->
  le (last zero (s_res s)) (o_tol o) ->
  exists2 x, s_xk s = Some x & explicit_last div zero y x (s_res s).
Proof.
move=> gm E hn hl; have := run_spec gt le isz div zero zeroX y o gm x0; rewrite E.
move=> [n [x [[ex en _] _ _ h _]]]; exists x => //; rewrite en in hn.
by case: h => [[n0 _]|[]//|[_]]; [rewrite n0 in hn|rewrite hl].
Qed.

Theorem C25_explicit_error x0 s : good_method m -> run x0 = NoConvergence s ->
  exists2 x, s_xk s = Some x & explicit_last div zero y x (s_res s).
Proof.
move=> gm E; have := run_spec gt le isz div zero zeroX y o gm x0; rewrite E.
by move=> [x [[ex _ _] _ _ h _]]; exists x.
Qed.

(** errnorms[-1] is the error norm of the returned xk. *)
Theorem C25_error_norm x0 s en : good_method m -> y_errnorm y = Some en ->
  run x0 = Returns s \/ run x0 = NoConvergence s -> (0 < m_iter (s_st s))%N ->
  exists2 x, s_xk s = Some x & en x = Ok (last zero (s_err s)).
Proof.
move=> gm ee [] E hn.
  have [x [ex [hh _]]] := C24_accounting gm E; exists x => //.
  by have := h_err hh; rewrite ee => -[_]; apply.
have [x [ex [hh _]]] := C24_accounting_error gm E; exists x => //.
have [m0 _ _ _ _] := C23_convergence_error gm E.
by have := h_err hh; rewrite ee => -[_]; apply.
Qed.

(** Zero right hand side. *)
Theorem C26_zero_rhs x0 r0 t : isz (y_bnorm y) -> gt zero (o_tol o) = false ->
  m_r0 m x0 = Ok r0 -> m_start m x0 zeroX = Ok t ->
  (forall en, y_errnorm y = Some en -> exists2 x, m_getx0 m zeroX = Ok x & exists e, en x = Ok e) ->
  exists2 s, run x0 = Returns s &
    [/\ s_xk s = Some zeroX, s_x0 s = zeroX & s_res s = [:: zero]].
Proof. exact: run_zero. Qed.

(** x0=None is x0=0, if the method's initial residual does not distinguish them (which
    is proved of LinearSystem.get_residual). *)
Theorem C26_no_guess : m_r0 m None = m_r0 m (Some zeroX) ->
  m_start m None zeroX = m_start m (Some zeroX) zeroX -> run None = run (Some zeroX).
Proof. by move=> e1 e2; rewrite /Model.Solver.run e1; case: isz; rewrite e2. Qed.
End Contract.

Section Restarted.
Variables (S X : Type) (gt : S -> S -> bool) (zero inf : S).
Variables (inner : option X -> res (inner_sol S X)) (tol : S) (max_restarts : nat).
Hypothesis ne : forall x s, inner x = Ok s -> i_res s <> [::].
Local Notation restarted := (restarted gt zero inner tol max_restarts inf).

(** l ++ [t] are the runs of the inner solver, each started with the result of the
    previous one; there are at most max_restarts+1 of them, all but the last ended
    above the tolerance and the residual norms are concatenated. *)
Definition restart_history (s : inner_sol S X) l t : Prop :=
  [/\ runs inner (Some (i_xk s)) (rcons l t), (size l <= max_restarts)%N,
      i_res s = flatten (map (fun s => chop (i_res s)) l) ++ i_res t &
      forall u, List.In u l -> gt (last zero (i_res u)) tol].

Theorem C27_restarted_returns s : restarted = RReturns s ->
  (exists l t, restart_history s l t) /\ gt (last zero (i_res s)) tol = false.
Proof. by move=> E; have [] := restarted_spec gt zero tol max_restarts ne inf; rewrite E. Qed.

Theorem C27_restarted_error s : restarted = RNoConvergence s ->
  (exists l t, restart_history s l t /\ size l = max_restarts) /\ gt (last zero (i_res s)) tol.
Proof.
move=> E; have [] := restarted_spec gt zero tol max_restarts ne inf; rewrite E => -[[l [t [h1 /eqP h2 h3 h4]]] h5] _.
by split=> //; exists l, t; split=> //; split=> //; rewrite h2.
Qed.

Theorem C27_terminates : restarted = RRaises _ _ OutOfFuel -> exists x, inner x = Err OutOfFuel.
Proof. by have [] := restarted_spec gt zero tol max_restarts ne inf. Qed.

(** The inner solver performs at most maxiter iterations per run (C24). *)
Theorem C27_length s maxiter : (forall x s, inner x = Ok s -> (size (i_res s) <= maxiter.+1)%N) ->
  restarted = RReturns s \/ restarted = RNoConvergence s ->
  (size (i_res s) <= max_restarts.+1 * maxiter + 1)%N.
Proof.
move=> hs h; have [l [t [hr hl -> _]]] : exists l t, restart_history s l t.
  by case: h => [/C27_restarted_returns[]|/C27_restarted_error[[l [t []]]]] //; exists l, t.
apply: leq_trans (joined_size (m := maxiter) _) _ => [u hu|]; first by have [z /hs] := runs_in hr hu.
by rewrite leq_add2r leq_mul2r ltnS hl orbT.
Qed.

(** The exceptions of the inner solver other than ConvergenceError are passed on, and
    nothing else is raised. *)
Theorem C27_raises e : restarted = RRaises _ _ e -> e = OutOfFuel \/ exists x, inner x = Err e.
Proof. exact: restarted_raises. Qed.
End Restarted.

(** Concrete runs.  Scalars: option nat, None is nan (every comparison false);
    the iterates are the iteration numbers, with explicit residual norms [ex] and
    updated residual norms [up]; the Krylov space becomes invariant at step [iv]. *)
Module Toy.
Definition gt (a b : option nat) := if (a, b) is (Some a, Some b) then (b < a)%N else false.
Definition le (a b : option nat) := if (a, b) is (Some a, Some b) then (a <= b)%N else false.
Definition isz (a : option nat) := a == Some 0%N.
Definition div (a b : option nat) := if (a, b) is (Some a, Some b) then Some (a %/ b)%N else None.
Definition zero : option nat := Some 0%N.

Definition ys bn (ex : seq (option nat)) : sys (option nat) nat :=
  Sys (Some bn) (fun x => Ok (nth zero ex x)) (Some (fun x => Ok (Some x))).
Definition meth (ex up : seq (option nat)) (iv : nat) : method (option nat) nat :=
  Method (fun _ => Ok (nth zero ex 0)) (fun _ _ => Ok 0%N) id (fun k => k == iv)
    (fun k => Ok (k.+1, nth zero up k.+1)) (fun k => Ok k) (fun x => Ok x) (fun k _ => k) false.
Definition run ex up iv tol maxiter expl :=
  run gt le isz div zero 0%N (ys 1 ex) (Opts (Some tol) maxiter expl) (meth ex up iv) None.

Lemma good ex up iv : good_method (meth ex up iv).
Proof. by split=> //= [? ? ? [<-]|? ? ? [<- _]]. Qed.
Lemma nofuel ex up iv bn : no_fuel_method (ys bn ex) (meth ex up iv).
Proof. by split=> //= en x [<-]. Qed.
End Toy.

(** Convergence after an updated residual that was too optimistic; ConvergenceError. *)
Example C23_C25_run :
  let ex := map Some [:: 9; 8; 7; 2]%N in let up := map Some [:: 9; 8; 3; 2]%N in
  (exists2 s, Toy.run ex up 10 3 5 false = Returns s & s_res s = ex /\ s_xk s = Some 3%N) /\
  (exists2 s, Toy.run ex up 10 1 3 false = NoConvergence s &
      s_res s = map Some [:: 9; 8; 3; 2]%N /\ s_xk s = Some 3%N /\ s_iter s = 2%N).
Proof. by move=> ex up; split; (eexists; first by vm_compute; reflexivity). Qed.

(** The contract fails in three cases: maxiter=0, an invariant Krylov subspace, nan. *)
Theorem C23_maxiter_zero_refuted :
  exists2 s, Toy.run [:: Some 9%N] [::] 10 1 0 false = Returns s &
    Toy.gt (last Toy.zero (s_res s)) (Some 1%N).
Proof. by eexists; first by vm_compute; reflexivity. Qed.

Theorem C23_invariant_refuted : let ex := map Some [:: 9; 8; 7; 6]%N in
  exists2 s, Toy.run ex ex 2 1 3 false = Returns s & Toy.gt (last Toy.zero (s_res s)) (Some 1%N).
Proof. by move=> ex; eexists; first by vm_compute; reflexivity. Qed.

Theorem C23_nan_refuted : let ex := [:: Some 9%N; None] in
  exists2 s, Toy.run ex ex 10 1 1 false = Returns s & last Toy.zero (s_res s) = None.
Proof. by move=> ex; eexists; first by vm_compute; reflexivity. Qed.

(** Iterations that end by an invariant subspace record the updated residual norm, not
    the explicit one. *)
Theorem C25_invariant_not_explicit_refuted :
  let ex := map Some [:: 9; 8; 7]%N in let up := map Some [:: 9; 8; 5]%N in
  exists s x, [/\ Toy.run ex up 2 1 3 false = Returns s, s_xk s = Some x &
    ~ explicit_last Toy.div Toy.zero (Toy.ys 1 ex) x (s_res s)].
Proof. by move=> ex up; do 2 eexists; split; [by vm_compute; reflexivity|reflexivity|move=> [r [<-]]]. Qed.

Example C26_zero_run ex up iv tol maxiter :
  exists2 s, Solver.run Toy.gt Toy.le Toy.isz Toy.div Toy.zero 0%N (Toy.ys 0 ex)
      (Opts (Some tol) maxiter false) (Toy.meth ex up iv) (Some 7%N) = Returns s &
    [/\ s_xk s = Some 0%N, s_x0 s = 0%N & s_res s = [:: Toy.zero]].
Proof. by apply: C26_zero_rhs => //= en [<-]; do 2 eexists. Qed.

(** Restarts: an inner solver that halves the residual in two steps. *)
Definition toy_inner (x : option nat) : res (inner_sol (option nat) nat) :=
  let r := if x is Some r then r else 16%N in
  Ok (InnerSol (r %/ 4) (map Some [:: r; r %/ 2; r %/ 4]%N) [::]).

Example C27_run :
  restarted Toy.gt Toy.zero toy_inner (Some 1%N) 3 None =
    RReturns (InnerSol 1%N (map Some [:: 16; 8; 4; 2; 1]%N) [::]) /\
  restarted Toy.gt Toy.zero toy_inner (Some 1%N) 0 None =
    RNoConvergence (InnerSol 4%N (map Some [:: 16; 8; 4]%N) [::]).
Proof. by []. Qed.

Print Assumptions C23_normal_return.
Print Assumptions C23_converged.
Print Assumptions C23_convergence_error.
Print Assumptions C24_accounting.
Print Assumptions C24_terminates.
Print Assumptions C24_good_guess.
Print Assumptions C25_explicit.
Print Assumptions C25_explicit_error.
Print Assumptions C25_error_norm.
Print Assumptions C26_zero_rhs.
Print Assumptions C26_no_guess.
Print Assumptions C27_restarted_returns.
Print Assumptions C27_restarted_error.
Print Assumptions C27_length.
