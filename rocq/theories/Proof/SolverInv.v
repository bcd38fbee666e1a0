(** Invariants of the iteration carried through the solver skeleton. *)
From mathcomp Require Import all_ssreflect.
From Verif Require Import Base Model.Solver Spec.Solver Proof.Solver.

Set Implicit Arguments.
Unset Strict Implicit.
Unset Printing Implicit Defensive.

Section Inv.
Variables (S X : Type).
Variables (gt le : S -> S -> bool) (isz : S -> bool) (div : S -> S -> S) (zero : S).
Variable zeroX : X.
Variables (y : sys S X) (o : opts S) (m : method S X) (x0 : option X).
Hypothesis gm : good_method m.
Local Notation st := (m_st m).
Variables (Inv : st -> Prop) (Q : nat -> S -> Prop).
Let x0' := if x0 is Some x then x else zeroX.
Hypothesis H0 : forall t, m_start m x0 x0' = Ok t -> Inv t.
Hypothesis Hq : forall r, m_r0 m x0 = Ok r -> Q 0 r.
Hypothesis Hs : forall (t t' : st) r, Inv t -> m_inv t = false -> (m_iter t < o_maxiter o)%N ->
  m_step t = Ok (t', r) -> Inv t' /\ (m_inv t' = false \/ is_ok (m_getx t') -> Q (m_iter t') r).
Hypothesis Hx : forall (t : st) x r, Inv t -> (0 < m_iter t)%N ->
  m_getx t = Ok x -> y_resnorm y x = Ok r -> Q (m_iter t) r /\ Inv (m_feed t r).
Hypothesis bn : isz (y_bnorm y) = false.

Definition allQ (rs : seq S) : Prop :=
  forall i, (i < size rs)%N -> exists2 q, Q i q & nth zero rs i = div q (y_bnorm y).

Definition good (s : sol S X st) : Prop :=
  [/\ Inv (s_st s), m_inv (s_st s) = false \/ is_ok (m_getx (s_st s)) -> allQ (s_res s), size (s_res s) = (m_iter (s_st s)).+1
    & forall x, s_xk s = Some x -> m_getx (s_st s) = Ok x].

Definition goodo (out : outcome S X st) : Prop :=
  match out with
  | Returns s | NoConvergence s => [/\ Inv (s_st s), allQ (s_res s),
      size (s_res s) = (m_iter (s_st s)).+1
    & exists2 x, s_xk s = Some x & m_getx (s_st s) = Ok x]
  | Raises _ => True end.

Lemma allQ_rcons rs q : allQ rs -> Q (size rs) q -> allQ (rcons rs (div q (y_bnorm y))).
Proof.
move=> h hq i; rewrite size_rcons ltnS leq_eqVlt nth_rcons => /orP[/eqP->|hi].
  by rewrite ltnn eqxx; exists q.
by rewrite hi; apply: h.
Qed.

Lemma body_good s k : good s -> more gt zero o s -> (forall s', good s' -> goodo (k s')) ->
  goodo (body gt le div y o s k).
Proof.
move=> [h1 h2 h3 h4] /and3P[_ hit /negbTE hinv] hk; rewrite /body.
case Es: (m_step (s_st s)) => [[t r]|e] //=; have it := gm_step gm Es.
have [i1 q1] := Hs h1 hinv hit Es; have {}h2 := h2 (or_introl hinv).
rewrite /finalize_iteration /=.
set E := (if y_errnorm y is Some en then _ else _).
have hE xk es : E = Ok (xk, es) -> forall x, xk = Some x -> m_getx t = Ok x.
  rewrite /E; case: (y_errnorm y) => [en|]; last by move=> [<-].
  by case: (m_getx t) => //= x; case: (en x) => //= e [<- _] x' [->].
case: E hE => [[xk es]|e] //= /(_ xk es erefl) hxk.
case: ifP => _; last first.
  apply: hk; split=> //=; last by rewrite size_rcons h3 it.
  by move=> hh; apply: allQ_rcons => //; rewrite h3 -it; apply: q1.
case Ex: (if xk is Some x then Ok x else m_getx t) => [x|e] //=.
have gx : m_getx t = Ok x by case: xk Ex hxk => [x' [->] h|->//]; apply: h.
case Er: (y_resnorm y x) => [rkn|e] //=.
have t0 : (0 < m_iter t)%N by rewrite it.
have [q2 i2] := Hx i1 t0 gx Er.
have aq : allQ (rcons (s_res s) (div rkn (y_bnorm y))).
  by apply: allQ_rcons => //; rewrite h3 -it.
case: ifP => _.
  by split=> //=; [rewrite size_rcons h3 it|exists x].
apply: hk; split=> //=; last by move=> x' [<-]; rewrite (gm_getx gm).
by rewrite size_rcons h3 (gm_iter gm) it.
Qed.

Lemma final_good s : good s -> goodo (match s_xk s with
    | Some _ => Returns s
    | None => bindO (m_getx (s_st s)) (fun x =>
        Returns (Sol (s_st s) (s_iter s) (s_x0 s) (Some x) (s_res s) (s_err s)))
    end).
Proof.
case=> h1 h2 h3 h4; case E: (s_xk s) => [x|].
  have gx := h4 x E; split=> //; last by exists x.
  by apply: h2; right; rewrite gx.
case E1: (m_getx (s_st s)) => [x|e] //=; split=> //=; last by exists x.
by apply: h2; right; rewrite E1.
Qed.

Lemma loop_good f s : good s -> goodo (loop gt le div zero y o f s).
Proof.
elim: f s => [|f IH] s h /=; case: ifP => [hm|_] //; try exact: final_good.
by apply: (body_good h hm) => s' h'; apply: IH.
Qed.

Lemma run_good : goodo (run gt le isz div zero zeroX y o m x0).
Proof.
rewrite /run; case E0: (m_r0 m x0) => [r0|e] //=; rewrite bn.
case: (if y_errnorm y is Some en then _ else _) => [err|e] //=.
case Es: (m_start m x0 _) => [t|e] //=; apply: loop_good; split=> //=.
- exact: H0.
- by move=> _ [|//] _; exists r0 => //; apply: Hq.
- by rewrite (gm_start gm Es).
Qed.
(** Runs that cannot fail as long as the tolerance is not reached. *)
Section TotalQ.
Hypothesis Tr : exists r, m_r0 m x0 = Ok r.
Hypothesis Tx : exists x, m_getx0 m x0' = Ok x.
Hypothesis Te : forall en x, y_errnorm y = Some en -> exists e, en x = Ok e.
Hypothesis Ts : exists t, m_start m x0 x0' = Ok t.
Hypothesis Tt : forall (t : st) q, Inv t -> m_inv t = false -> (m_iter t < o_maxiter o)%N ->
  Q (m_iter t) q -> gt (div q (y_bnorm y)) (o_tol o) -> exists t' r, m_step t = Ok (t', r).
Hypothesis Tg : forall t : st, Inv t -> exists2 x, m_getx t = Ok x &
  exists r, y_resnorm y x = Ok r.

Definition returns (out : outcome S X st) : Prop := if out is Raises _ then False else True.

Lemma body_totalq s k : good s -> more gt zero o s ->
  (forall s', good s' -> m_iter (s_st s') = (m_iter (s_st s)).+1 -> returns (k s')) ->
  returns (body gt le div y o s k).
Proof.
move=> [h1 h2 h3 h4] /and3P[hgt hit /negbTE hinv] hk; rewrite /body.
have {}h2 := h2 (or_introl hinv).
have [t [r Es]] : exists t r, m_step (s_st s) = Ok (t, r).
  have lz : last zero (s_res s) = nth zero (s_res s) (m_iter (s_st s)).
    by rewrite (last_nth zero); case: (s_res s) h3 => //= a q [->].
  have [q q1 q2] := h2 (m_iter (s_st s)) ltac:(by rewrite h3).
  by apply: (Tt h1 hinv hit q1); rewrite -q2 -lz.
have it := gm_step gm Es; rewrite Es /=.
have [i1 q1] := Hs h1 hinv hit Es.
have [x gx [rkn Er]] := Tg i1; rewrite /finalize_iteration /= gx /=.
have [E hE] : exists E, (if y_errnorm y is Some en then
      let! e := en x in Ok (Some x, rcons (s_err s) e) else Ok (None, s_err s)) = Ok E /\
      (E.1 = None \/ E.1 = Some x).
  case Ee: (y_errnorm y) => [en|]; last by exists (None, s_err s); split=> //; left.
  by have [e Ee'] := Te x Ee; rewrite Ee' /=; eexists; split; [reflexivity|right].
case: hE => -> hE /=; case: E hE => xk es /= hE.
case: ifP => _; last first.
  apply: hk => //; split=> //=; last by case: hE => -> // x' [<-].
    by move=> hh; apply: allQ_rcons => //; rewrite h3 -it; apply: q1.
  by rewrite size_rcons h3 it.
have -> : (if xk is Some x then Ok x else Ok x) = Ok x by case: hE => ->.
rewrite /= Er /=.
have t0 : (0 < m_iter t)%N by rewrite it.
have [q2 i2] := Hx i1 t0 gx Er.
have aq : allQ (rcons (s_res s) (div rkn (y_bnorm y))).
  by apply: allQ_rcons => //; rewrite h3 -it.
case: ifP => // _; apply: hk => /=; last by rewrite (gm_iter gm).
split=> //=; last by move=> x' [<-]; rewrite (gm_getx gm).
by rewrite size_rcons h3 (gm_iter gm) it.
Qed.

Lemma loop_totalq f s : good s -> (o_maxiter o - m_iter (s_st s) <= f)%N ->
  returns (loop gt le div zero y o f s).
Proof.
have fin s' : good s' -> returns (match s_xk s' with
    | Some _ => Returns s'
    | None => bindO (m_getx (s_st s')) (fun x =>
        Returns (Sol (s_st s') (s_iter s') (s_x0 s') (Some x) (s_res s') (s_err s')))
    end).
  by case=> hi _ _ _; case: (s_xk s') => //; have [x -> _] := Tg hi.
elim: f s => [|f IH] s hi hf /=; case: ifP => [hm|_]; try exact: fin.
  by case/and3P: hm => _ h; move: hf; rewrite leqn0 subn_eq0 leqNgt h.
apply: body_totalq => // s' hi' e; apply: IH => //; rewrite e subnS -ltnS.
by case: (o_maxiter o - _)%N hf => // x; rewrite ltnS.
Qed.

Lemma run_totalq : returns (run gt le isz div zero zeroX y o m x0).
Proof.
rewrite /run; have [r0 Er] := Tr; rewrite Er /= bn; have [t Et] := Ts; have [x Ex] := Tx.
have [es ->] : exists es, (if y_errnorm y is Some en then
           let! x := m_getx0 m x0' in let! e := en x in Ok [:: e] else Ok [::]) = Ok es.
  case Ee: (y_errnorm y) => [en|]; last by eexists.
  by rewrite Ex /=; have [e ->] := Te x Ee; eexists.
rewrite /= Et /=; apply: loop_totalq => //=; last by rewrite leq_subr.
split=> //=; first exact: H0.
- by move=> _ [|//] _; exists r0 => //; apply: Hq.
- by rewrite (gm_start gm Et).
Qed.
End TotalQ.
End Inv.

(** Runs that cannot fail. *)
Section Total.
Variables (S X : Type).
Variables (gt le : S -> S -> bool) (isz : S -> bool) (div : S -> S -> S) (zero : S).
Variable zeroX : X.
Variables (y : sys S X) (o : opts S) (m : method S X) (x0 : option X).
Hypothesis gm : good_method m.
Local Notation st := (m_st m).
Variable Inv : st -> Prop.
Let x0' := if x0 is Some x then x else zeroX.
Hypothesis bn : isz (y_bnorm y) = false.
Hypothesis Tr : exists r, m_r0 m x0 = Ok r.
Hypothesis Tx : exists x, m_getx0 m x0' = Ok x.
Hypothesis Te : forall en x, y_errnorm y = Some en -> exists e, en x = Ok e.
Hypothesis Ts : exists2 t, m_start m x0 x0' = Ok t & Inv t.
Hypothesis Tt : forall t : st, Inv t -> m_inv t = false -> (m_iter t < o_maxiter o)%N ->
  exists t' r, m_step t = Ok (t', r) /\ Inv t'.
Hypothesis Tg : forall t : st, Inv t -> exists2 x, m_getx t = Ok x &
  exists2 r, y_resnorm y x = Ok r & Inv (m_feed t r).

Definition no_raise (out : outcome S X st) : Prop := if out is Raises _ then False else True.

Lemma body_total s k : Inv (s_st s) -> more gt zero o s ->
  (forall s', Inv (s_st s') -> m_iter (s_st s') = (m_iter (s_st s)).+1 -> no_raise (k s')) ->
  no_raise (body gt le div y o s k).
Proof.
move=> hi /and3P[_ h1 /negbTE h2] hk; rewrite /body; have [t [r [Es it]]] := Tt hi h2 h1.
rewrite Es /=; have e1 := gm_step gm Es.
have [x gx [rk Er i2]] := Tg it.
rewrite /finalize_iteration /= gx /=.
have [E hE] : exists E, (if y_errnorm y is Some en then
      let! e := en x in Ok (Some x, rcons (s_err s) e) else Ok (None, s_err s)) = Ok E /\
      (E.1 = None \/ E.1 = Some x).
  case Ee: (y_errnorm y) => [en|]; last by exists (None, s_err s); split=> //; left.
  by have [e Ee'] := Te x Ee; rewrite Ee' /=; eexists; split; [reflexivity|right].
case: hE => -> hE /=; case: E hE => xk es /= hE.
case: ifP => _; last exact: hk.
have -> : (if xk is Some x then Ok x else Ok x) = Ok x by case: hE => ->.
rewrite /= Er /=; case: ifP => // _; apply: hk => //=.
by rewrite (gm_iter gm).
Qed.

Lemma loop_total f s : Inv (s_st s) -> (o_maxiter o - m_iter (s_st s) <= f)%N ->
  no_raise (loop gt le div zero y o f s).
Proof.
have fin s' : Inv (s_st s') -> no_raise (match s_xk s' with
    | Some _ => Returns s'
    | None => bindO (m_getx (s_st s')) (fun x =>
        Returns (Sol (s_st s') (s_iter s') (s_x0 s') (Some x) (s_res s') (s_err s')))
    end).
  by move=> hi; case: (s_xk s') => //; have [x -> _] := Tg hi.
elim: f s => [|f IH] s hi hf /=; case: ifP => [hm|_]; try exact: fin.
  by case/and3P: hm => _ h; move: hf; rewrite leqn0 subn_eq0 leqNgt h.
apply: body_total => // s' hi' e; apply: IH => //; rewrite e subnS -ltnS.
by case: (o_maxiter o - _)%N hf => // x; rewrite ltnS.
Qed.

Lemma run_total : no_raise (run gt le isz div zero zeroX y o m x0).
Proof.
rewrite /run; have [r0 ->] := Tr; rewrite /= bn; have [t Et it] := Ts; have [x Ex] := Tx.
have [es ->] : exists es, (if y_errnorm y is Some en then
           let! x := m_getx0 m x0' in let! e := en x in Ok [:: e] else Ok [::]) = Ok es.
  case Ee: (y_errnorm y) => [en|]; last by eexists.
  by rewrite Ex /=; have [e ->] := Te x Ee; eexists.
by rewrite /= Et /=; apply: loop_total => //=; rewrite leq_subr.
Qed.
End Total.
