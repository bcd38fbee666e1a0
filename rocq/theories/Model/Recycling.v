(** Model of krypy/recycling/generators.py, factories.py (RitzFactory._get_best_subset,
    RitzFactorySimple, UnionFactory) and linsys.py (_RecyclingSolver).

    Indices of Ritz pairs are elements of 'I_n, n = len(ritz.values); Python sets of them
    are finite sets.  Sets are iterated in an unknown order: [order S] is list(S).
    numpy.argsort is a parameter.  Values of evaluators and residual norms are exact
    numbers (no nan).  Not modelled: printing (only whether print_results is valid). *)
From mathcomp Require Import all_ssreflect all_algebra.
From Verif Require Import Base.

Set Implicit Arguments.
Unset Strict Implicit.
Unset Printing Implicit Defensive.
Import Order.TTheory GRing.Theory Num.Theory.
Local Open Scope ring_scope.

Section Generators.
Variable C : numClosedFieldType.
Variable argsort : seq C -> seq nat.
Variable n : nat.
Local Notation iset := {set 'I_n}.
Variable order : iset -> seq 'I_n.
Variable values : 'I_n -> C.

(** max_vectors; None is numpy.Inf *)
Definition reached (max_vectors : option nat) (selected : nat) : bool :=
  if max_vectors is Some m then (m <= selected)%N else false.

(** s[i] for a list s; the model is only used with valid positions *)
Definition at_ (s : seq 'I_n) (i : nat) : option 'I_n := nth None (map Some s) i.

(** RitzSmall.generate, generators.py 21-26 *)
Definition ritz_small (max_vectors : option nat) (remaining_subset : iset) : seq iset :=
  let remaining := order remaining_subset in
  if (size remaining <= 1)%N || reached max_vectors (n - size remaining) then [::] else
  let sort := argsort [seq `|values i| | i <- remaining] in
  pmap (omap (fun i => [set i])) [:: at_ remaining (nth 0%N sort 0)].

(** get_minmax_indices, generators.py 48-56 *)
Definition minmax_indices (vals : seq C) : seq nat :=
  if size vals == 0%N then [::] else
  let sort := argsort vals in
  nth 0%N sort 0 :: (if (1 < size vals)%N then [:: last 0%N sort] else [::]).

(** RitzExtremal.generate, generators.py 42-72 *)
Definition ritz_extremal (self_adjoint : bool) (max_vectors : option nat) (remaining_subset : iset) : seq iset :=
  let remaining := order remaining_subset in
  if (size remaining <= 1)%N || reached max_vectors (n - size remaining) then [::] else
  let indices :=
    if self_adjoint then
      flatten [seq pmap (at_ selection) (minmax_indices [seq values i | i <- selection])
              | selection <- [:: [seq i <- remaining | values i < 0]; [seq i <- remaining | 0 < values i]]]
    else pmap (at_ remaining) (minmax_indices [seq `|values i| | i <- remaining]) in
  [seq [set i] | i <- indices].
End Generators.

Section Greedy.
Variable R : realDomainType.
Variable n : nat.
Local Notation iset := {set 'I_n}.
(** subset_evaluator.evaluate(ritz, subset); the result may also depend on the previous
    calls, given newest first (evaluators may have a state) *)
Variable evaluate : seq iset -> iset -> res R.
Variable generate : iset -> seq iset.
Variable resnorms : 'I_n -> R.

(** Dictionaries: association lists in the order of insertion; assignment to an existing
    key keeps its place. *)
Definition dict := seq (iset * R).
Definition dset (d : dict) (k : iset) (v : R) : dict :=
  if k \in unzip1 d then [seq if p.1 == k then (k, v) else p | p <- d] else rcons d (k, v).
Definition dupdate (d e : dict) : dict := foldl (fun d p => dset d p.1 p.2) d e.

(** min(d, key=d.get): the first key of a smallest value *)
Definition dmin (d : dict) : option iset :=
  if d is p :: d' then Some (foldl (fun a b => if b.2 < a.2 then b else a) p d').1 else None.

(** numpy.argmin, the position of the first smallest entry *)
Definition argmin (s : seq R) : nat :=
  if s is x :: s' then index (foldl Num.min x s') s else 0%N.

(** The calls of evaluate so far (newest first) and a dictionary of evaluations *)
Definition evst := (seq iset * dict)%type.

(** The inner function evaluate, factories.py 88-93 *)
Definition eval1 (t : evst) (subset : iset) : res evst :=
  match evaluate t.1 subset with
  | Ok v => Ok (subset :: t.1, dset t.2 subset v)
  | Err AssumptionError => Ok (subset :: t.1, t.2)
  | Err e => Err e
  end.

Fixpoint eval_list (t : evst) (l : seq iset) : res evst :=
  if l is x :: l' then let! t := eval1 t x in eval_list t l' else Ok t.

(** The loop, factories.py 101-131; [t.2] is overall_evaluations *)
Fixpoint greedy (fuel : nat) (current : iset) (t : evst) : res evst :=
  if fuel is fuel'.+1 then
    let subsets := generate (~: current) in
    if size subsets == 0%N then Ok t else
    let! (calls, evaluations) := eval_list (t.1, [::]) [seq current :|: s | s <- subsets] in
    let current := if dmin evaluations is Some k then k
      else current :|: nth set0 subsets (argmin [seq \sum_(i in (s : iset)) resnorms i | s <- subsets]) in
    greedy fuel' current (calls, dupdate t.2 evaluations)
  else Err OutOfFuel.

(** _get_best_subset, factories.py 82-139, and the calls of the evaluator.  [print_ok]:
    print_results is one of None, 'number', 'values', 'timings'. *)
Definition best_subset (fuel : nat) (print_ok : bool) : res (iset * seq iset) :=
  let! t := eval1 ([::], [::]) set0 in
  let! t := greedy fuel set0 t in
  let selection := if dmin t.2 is Some k then k else set0 in
  if print_ok then Ok (selection, t.1) else Err ArgumentError.
End Greedy.

Section Simple.
Variable C : numClosedFieldType.
Variable argsort : seq C -> seq nat.

Inductive which := WLm | WSm | WLr | WSr | WLi | WSi | WSmallestRes | WOther.

(** s[:k] and s[-k:] *)
Definition first_k (k : nat) (s : seq nat) : seq nat := take k s.
Definition last_k (k : nat) (s : seq nat) : seq nat :=
  if k == 0%N then s else drop (size s - k) s.

(** RitzFactorySimple.get, factories.py 166-194: the indices *)
Definition simple_indices (n_vectors : nat) (w : which) (values resnorms : seq C) : res (seq nat) :=
  match w with
  | WLm => Ok (last_k n_vectors (argsort [seq `|v| | v <- values]))
  | WSm => Ok (first_k n_vectors (argsort [seq `|v| | v <- values]))
  | WLr => Ok (last_k n_vectors (argsort [seq 'Re v | v <- values]))
  | WSr => Ok (first_k n_vectors (argsort [seq 'Re v | v <- values]))
  | WLi => Ok (last_k n_vectors (argsort [seq 'Im v | v <- values]))
  | WSi => Ok (first_k n_vectors (argsort [seq 'Im v | v <- values]))
  | WSmallestRes => Ok (first_k n_vectors (argsort resnorms))
  | WOther => Err ArgumentError
  end.
End Simple.

(** UnionFactory.get, factories.py 204-208: a factory maps a solver to a list of columns;
    numpy.block of an empty list is a ValueError. *)
Section Union.
Variables S V : Type.
Fixpoint union_blocks (fs : seq (S -> res (seq V))) (s : S) : res (seq V) :=
  if fs is f :: fs' then let! v := f s in let! vs := union_blocks fs' s in Ok (v ++ vs) else Ok [::].
Definition union_get (fs : seq (S -> res (seq V))) (s : S) : res (seq V) :=
  if size fs == 0%N then Err ValueError else union_blocks fs s.
End Union.

(** _RecyclingSolver, recycling/linsys.py 7-88.  [L]: linear systems, [A]: remaining
    arguments, [S]: solver objects, [U]: deflation vectors.  [timed] is the conversion to a
    TimedLinearSystem, [deflated] the constructor of the deflated solver with
    store_arnoldi=True.  The result is the outcome of solve() and the new value of
    last_solver. *)
Section Recycling.
Variables (L A S U : Type).
Variable timed : L -> res L.
Variable noU : U.
Variable deflated : L -> U -> A -> res S.
Definition factory := S -> res U.
(** the factory given to the constructor *)
Variable default : option factory.

Record call := Call { c_sys : L; c_fac : option factory; c_args : A }.

Definition rsolve (last : option S) (c : call) : res S * option S :=
  let r :=
    let! l := timed (c_sys c) in
    let f := if c_fac c is Some f then Some f else default in
    let! U := match last, f with
              | Some s, Some f => f s
              | _, _ => Ok noU
              end in
    deflated l U (c_args c) in
  (r, if r is Ok s then Some s else last).

(** a sequence of calls of solve() *)
Fixpoint rsolves (last : option S) (cs : seq call) : seq (res S) * option S :=
  if cs is c :: cs' then
    let '(r, last) := rsolve last c in
    let '(rs, last) := rsolves last cs' in (r :: rs, last)
  else ([::], last).
End Recycling.
