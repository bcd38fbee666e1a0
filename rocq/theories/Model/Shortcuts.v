(** Model of the treatment of vector_factory in _RecyclingSolver.solve
    (krypy/recycling/linsys.py 73-97): the argument may also be a string.
    Simplifications: those of Model/RecyclingRun.v.  The evaluator RitzApproxKrylov() is a
    parameter (see Model/Evaluators.v), and so is the time that RitzApriori estimates for a
    bound and a number of vectors, an element of an ordered type (get_step and estimate_time
    do not fail for the timed systems that solve() uses, see C50 and C62). *)
From Coq Require Import String.
From mathcomp Require Import all_ssreflect all_algebra.
From Verif Require Import Base Model.Inner Model.Arnoldi Model.Solver Model.LinearSystem Model.Krylov.
From Verif Require Import Model.Projection Model.Deflation Model.DeflRitz Model.Recycling Model.RecyclingRun Model.Bounds.

Set Implicit Arguments.
Unset Strict Implicit.
Unset Printing Implicit Defensive.
Import Order.TTheory GRing.Theory Num.Theory.
Local Open Scope ring_scope.

Section Shortcuts.
Variable C : numClosedFieldType.
Variable N : nat.
Local Notation vec := 'cV[C]_N.
Local Notation fact := (factory (dsolver C N) (seq vec)).
Variables eig eigh : forall n, 'M[C]_n -> ('I_n -> C) * 'M[C]_n.
Variables geig geigh : forall n, 'M[C]_n -> 'M[C]_n -> ('I_n -> C) * 'M[C]_n.
Variable R : realDomainType.
Variable flt : C -> R.
Variable argsort : seq C -> seq nat.
Variable order : forall n, {set 'I_n} -> seq 'I_n.

(** An object with the method evaluate(ritz, subset) *)
Definition evaluator := forall s : dsolver C N, dritz C (ds_n s + ds_m s) ->
  seq {set 'I_(ds_n s + ds_m s)} -> {set 'I_(ds_n s + ds_m s)} -> res R.

(** RitzFactory(subset_evaluator=ev), factories.py 21-51: the other arguments have their
    default values RitzSmall(), 'ritz' and None.  The loop needs at most as many rounds as
    there are Ritz pairs (C45_terminates). *)
Definition auto_select (ev : evaluator) (s : dsolver C N) (z : dritz C (ds_n s + ds_m s)) : res (seq nat) :=
  best_select flt argsort order ev None (ds_n s + ds_m s).+1 true z.
Definition auto_factory (ev : evaluator) : fact := ritz_factory eig eigh geig geigh (auto_select ev).

(** RitzApriori(Bound=Bound).evaluate, evaluators.py 37-70, with the default strategy
    'simple': the bound for the Ritz values that are not selected *)
Definition apriori Bd (Bound : seq C -> res Bd) (time : dsolver C N -> Bd -> nat -> R) : evaluator :=
  fun s z _ S =>
  let! b := Bound [seq odflt 0 (dz_values z i) | i <- order (~: S)] in
  Ok (time s b (size (order S))).

(** RitzApproxKrylov() and the estimates of the other two evaluators *)
Variable ev_krylov : evaluator.
Variable time_cg : dsolver C N -> C -> nat -> R.
Variable time_minres : dsolver C N -> bound C -> nat -> R.
Definition ev_cg : evaluator := apriori (fun v => bound_cg (EList v) false) time_cg.
Definition ev_minres : evaluator := apriori (fun v => bound_minres (EList v)) time_minres.

(** The argument vector_factory *)
Inductive vfactory := VNone | VFactory of fact | VString of string.

(** linsys.py 77-88 *)
Definition replace (v : vfactory) : vfactory :=
  match v with
  | VString s =>
      if String.eqb s "RitzApproxKrylov" then VFactory (auto_factory ev_krylov)
      else if String.eqb s "RitzAprioriCg" then VFactory (auto_factory ev_cg)
      else if String.eqb s "RitzAprioriMinres" then VFactory (auto_factory ev_minres)
      else v
  | _ => v
  end.

(** What solve() does: a string has no attribute get. *)
Inductive outcome := SReturns of dsolver C N | SRaises of exn | SAttributeError.
Definition out (r : res (dsolver C N)) : outcome :=
  match r with Ok s => SReturns s | Err e => SRaises e end.

Record scall := SCall { sc_sys : rsys C N; sc_fac : vfactory; sc_args : rargs C N }.

Section Run.
Variable deflated : rsys C N -> seq vec -> rargs C N -> res (dsolver C N).
Variable default : vfactory.

(** solve, linsys.py 49-100; [last] is last_solver *)
Definition ssolve (last : option (dsolver C N)) (c : scall) : outcome * option (dsolver C N) :=
  let v := replace (if sc_fac c is VNone then default else sc_fac c) in
  let o :=
    match last, v with
    | Some s, VFactory f => out (let! U := f s in deflated (sc_sys c) U (sc_args c))
    | Some _, VString _ => SAttributeError
    | _, _ => out (deflated (sc_sys c) [::] (sc_args c))
    end in
  (o, if o is SReturns s then Some s else last).

Fixpoint ssolves (last : option (dsolver C N)) (cs : seq scall) : seq outcome * option (dsolver C N) :=
  if cs is c :: cs' then
    let '(o, last) := ssolve last c in
    let '(os, last) := ssolves last cs' in (o :: os, last)
  else ([::], last).
End Run.

(** RecyclingMinres and RecyclingGmres with such arguments *)
Variable sqr : forall n k, 'M[C]_(n, k) -> 'M[C]_(n, k) * 'M[C]_k.
Variable snorm : nat -> nat -> (nat -> nat -> C) -> C.
Definition shortcut_minres (default : vfactory) (cs : seq scall) := ssolves (new_minres sqr snorm) default None cs.
Definition shortcut_gmres (default : vfactory) (cs : seq scall) := ssolves (new_gmres sqr snorm) default None cs.
End Shortcuts.
