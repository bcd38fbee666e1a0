(** The error norms of the restarted solvers. *)
From mathcomp Require Import all_ssreflect.
From Verif Require Import Base Model.Solver Spec.Solver Proof.Solver.

Set Implicit Arguments.
Unset Strict Implicit.
Unset Printing Implicit Defensive.

Section Restart.
Variables (S X : Type) (gt : S -> S -> bool) (zero : S).
Variables (inner : option X -> res (inner_sol S X)) (tol : S) (max_restarts : nat).
Hypothesis ne : forall x s, inner x = Ok s -> i_res s <> [::].
Hypothesis nr : forall x s, inner x = Ok s -> size (i_err s) = size (i_res s).
Local Notation ires := (@i_res S X).
Local Notation ierr := (@i_err S X).

Definition epost (out : router S X) : Prop :=
  match out with
  | RReturns s | RNoConvergence s => exists l t,
     [/\ runs inner (Some (i_xk s)) (rcons l t), i_res s = joined ires l t & i_err s = joined ierr l t]
  | RRaises _ => True
  end.

Lemma ne_err x s : inner x = Ok s -> i_err s <> [::].
Proof.
by move=> h e; have := nr h; have := ne h; rewrite e; case: (i_res s).
Qed.

Lemma rloop_err f n l t : runs inner (Some (i_xk t)) (rcons l t) -> i_res t <> [::] -> i_err t <> [::] ->
  epost (rloop gt zero inner tol max_restarts f n (Some (i_xk t)) (joined ires l t) (joined ierr l t)).
Proof.
elim: f n l t => [|f IH] n l t hr nt et /=; case: ifP => _ //.
- by case: ifP => _ /=; exists l, t.
- case E: (inner _) => [s|//]; rewrite !joined_rcons //; apply: IH; [exact: runsS hr E|exact: ne E|exact: ne_err E].
by case: ifP => _ /=; exists l, t.
Qed.

Lemma restarted_err inf : epost (restarted gt zero inner tol max_restarts inf).
Proof.
rewrite /restarted /=; case E: (inner None) => [s|//]; apply: (@rloop_err _ _ [::]).
- exact: (runsS (runs0 _) E).
- exact: ne E.
- exact: ne_err E.
Qed.

Lemma rloop_noerr f n x rs : (forall x s, inner x = Ok s -> i_err s = [::]) ->
  match rloop gt zero inner tol max_restarts f n x rs [::] with
  | RReturns s | RNoConvergence s => i_err s = [::] | RRaises _ => True end.
Proof.
move=> h; elim: f n x rs => [|f IH] n x rs /=; case: ifP => _ //.
- by case: x => [x|//]; case: ifP.
- by case E: (inner x) => [s|//]; rewrite (h _ _ E); apply: IH.
by case: x => [x|//]; case: ifP.
Qed.

Lemma joined_err_size l t y : runs inner y (rcons l t) -> size (joined ierr l t) = size (joined ires l t).
Proof.
move=> hr; have e u : List.In u (rcons l t) -> size (i_err u) = size (i_res u).
  by move=> /(runs_in hr)[z /nr].
rewrite /joined !size_cat (e t); last by rewrite -cats1; apply: List.in_or_app; right; left.
congr addn; rewrite !size_flatten /shape -!map_comp; congr sumn.
have {}e u : List.In u l -> size (i_err u) = size (i_res u).
  by move=> hu; apply: e; rewrite -cats1; apply: List.in_or_app; left.
elim: l e {hr} => //= u l IH e; rewrite IH => [|w hw]; last by apply: e; right.
by congr cons; rewrite /chop !size_take e //; left.
Qed.
End Restart.

(** Exchanging the two lists. *)
Section Swap.
Variables (S X : Type) (inner : option X -> res (inner_sol S X)).
Definition sw (s : inner_sol S X) : inner_sol S X := InnerSol (i_xk s) (i_err s) (i_res s).
Definition inner_sw x : res (inner_sol S X) := match inner x with Ok s => Ok (sw s) | Err e => Err e end.

Lemma inner_swE x u : inner_sw x = Ok u -> exists2 s, inner x = Ok s & u = sw s.
Proof. by rewrite /inner_sw; case: (inner x) => // s [<-]; exists s. Qed.

Lemma runs_sw y l : runs inner y l -> runs inner_sw y (map sw l).
Proof.
elim=> [|x l' s hr IH hi]; first exact: runs0.
by rewrite map_rcons; apply: (runsS (s := sw s) IH); rewrite /inner_sw hi.
Qed.

Lemma joined_sw l t : joined (@i_res S X) (map sw l) (sw t) = joined (@i_err S X) l t.
Proof. by rewrite /joined -map_comp. Qed.
End Swap.
