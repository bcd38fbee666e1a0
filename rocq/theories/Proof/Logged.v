(** A method with a log computes what the method without the log computes; invariants of
    the log. *)
From mathcomp Require Import all_ssreflect all_algebra.
From Verif Require Import Base Model.Inner Model.Arnoldi Model.Solver Spec.Solver Proof.Solver Proof.SolverInv Model.LinearSystem Model.Krylov.
From Verif Require Import Model.Projection Model.Deflation Proof.Gmres.

Set Implicit Arguments.
Unset Strict Implicit.
Unset Printing Implicit Defensive.
Import Order.TTheory GRing.Theory Num.Theory.
Local Open Scope ring_scope.

Section Logged.
Variable C : numClosedFieldType.
Variable N : nat.
Local Notation vec := 'cV[C]_N.
Variables (L : Type) (m : method C vec) (l0 : L) (up : m_st m -> L -> L).
Local Notation lm := (logged l0 up).
Variables (ys : sys C vec) (o : opts C) (x0 : option vec).

Definition unlog_sol (s : sol C vec (m_st m * L)) : sol C vec (m_st m) :=
  Sol (s_st s).1 (s_iter s) (s_x0 s) (s_xk s) (s_res s) (s_err s).
Definition unlog (out : outcome C vec (m_st m * L)) : outcome C vec (m_st m) :=
  match out with
  | Returns s => Returns (unlog_sol s)
  | NoConvergence s => NoConvergence (unlog_sol s)
  | Raises e => Raises _ _ _ e
  end.

Lemma unlog_bind A (r : res A) k k' : (forall a, unlog (k a) = k' a) -> unlog (bindO r k) = bindO r k'.
Proof. by case: r => //= a; apply. Qed.

Local Notation gt := (fun a b : C => b < a).
Local Notation le := (fun a b : C => a <= b).
Local Notation div := (fun a b : C => a / b).

Lemma unlog_loop f (s : sol C vec (m_st lm)) :
  unlog (loop gt le div 0 ys o f s) = loop gt le div 0 ys o f (unlog_sol s).
Proof.
elim: f s => [|f IH] s; rewrite /loop -/loop.
  rewrite -[more _ _ _ (unlog_sol s)]/(more gt 0 o s); case: ifP => // _.
  by case: s => [t i x [xk|] rs es] //=; case: (m_getx t.1).
rewrite -[more _ _ _ (unlog_sol s)]/(more gt 0 o s); case: ifP => _; last first.
  by case: s => [t i x [xk|] rs es] //=; case: (m_getx t.1).
rewrite /body /=; case: (m_step (s_st s).1) => [[t r]|e] //=.
rewrite /finalize_iteration /=; apply: unlog_bind => -[xk err].
case: ifP => _; last by rewrite IH.
apply: unlog_bind => x; apply: unlog_bind => rkn.
by case: ifP => // _; rewrite IH.
Qed.

Lemma unlog_run : unlog (krun ys o lm x0) = krun ys o m x0.
Proof.
rewrite /krun /run /=; apply: unlog_bind => r; apply: unlog_bind => e.
by case: (m_start m x0 _) => [t|//]; rewrite [bind _ _]/= [bindO _ _]/= unlog_loop.
Qed.

Lemma unlog_of s : of_run (krun ys o lm x0) s -> of_run (krun ys o m x0) (unlog_sol s).
Proof. by rewrite -unlog_run => -[->|->]; [left|right]. Qed.

Lemma of_unlog s : krun ys o m x0 = Returns s ->
  exists2 s', krun ys o lm x0 = Returns s' & unlog_sol s' = s.
Proof. by rewrite -unlog_run; case: (krun ys o lm x0) => //= s' [<-]; exists s'. Qed.

Lemma logged_good : good_method m -> good_method lm.
Proof.
case=> h1 h2 h3 h4; split=> /=.
- by move=> x x' t; case E: (m_start m x x') => [t1|//] /= [<-] /=; apply: h1 E.
- by move=> [t lg] [t' lg'] r /=; case E: (m_step t) => [[t1 r1]|//] /= [<- _ _]; apply: h2 E.
- by move=> t r; apply: h3.
- by move=> t r; apply: h4.
Qed.

(** An invariant of the method and one of the log. *)
Variables (Inv : m_st m -> Prop) (J : m_st m -> L -> Prop).
Hypothesis gm : good_method m.
Hypothesis nb : y_bnorm ys != 0.
Hypothesis H0 : forall t, m_start m x0 (if x0 is Some x then x else 0) = Ok t -> Inv t /\ J t l0.
Hypothesis Hs : forall (t t' : m_st m) r lg, Inv t -> J t lg -> m_inv t = false ->
  (m_iter t < o_maxiter o)%N -> m_step t = Ok (t', r) -> Inv t' /\ J t' (up t lg).
Hypothesis Hx : forall (t : m_st m) x r lg, Inv t -> J t lg -> (0 < m_iter t)%N ->
  m_getx t = Ok x -> y_resnorm ys x = Ok r -> Inv (m_feed t r) /\ J (m_feed t r) lg.

Lemma logged_inv s : of_run (krun ys o lm x0) s -> Inv (s_st s).1 /\ J (s_st s).1 (s_st s).2.
Proof.
move=> hs; pose I (t : m_st lm) := Inv t.1 /\ J t.1 t.2.
have := @run_good C vec gt le (fun a => a == 0) div 0 (0 : vec) ys o lm x0 (logged_good gm) I (fun _ _ => True).
move=> h; have {h} : goodo div 0 ys I (fun _ _ => True) (krun ys o lm x0).
  apply: h => //=; last exact: negbTE.
  - by move=> t; case E: (m_start _ _ _) => [t1|//] /= [<-]; apply: H0.
  - move=> [t lg] [t' lg'] r [h1 h2] /= h3 h4; case E: (m_step t) => [[t1 r1]|//] /= [<- <- _].
    by split=> //; apply: Hs E.
  - by move=> [t lg] x r [/= h1 h2] h3 h4 h5; split=> //; apply: Hx h5.
by case: hs => -> /= [].
Qed.
End Logged.
