(** Specification of the shortcuts for vector_factory. *)
From Coq Require Import String.
From mathcomp Require Import all_ssreflect all_algebra.
From Verif Require Import Base Model.DeflRitz Model.Recycling Model.RecyclingRun Spec.RecyclingRun Model.Inner Model.Solver Model.LinearSystem Model.Shortcuts.

Set Implicit Arguments.
Unset Strict Implicit.
Unset Printing Implicit Defensive.
Import Order.TTheory GRing.Theory Num.Theory.
Local Open Scope ring_scope.

Section Spec.
Variable C : numClosedFieldType.
Variable N : nat.
Variable R : realDomainType.

(** The documented shortcuts *)
Definition shortcuts : seq string := [:: "RitzApproxKrylov"; "RitzAprioriCg"; "RitzAprioriMinres"]%string.
Definition valid (s : string) : Prop := List.In s shortcuts.

(** For positive Ritz values the evaluator reports problems with AssumptionErrors only. *)
Definition tame (ev : evaluator C N R) : Prop :=
  forall s z h S e, (forall i, exists2 t, dz_values z i = Some t & 0 < t) ->
    ev s z h S = Err e -> e = AssumptionError.

(** vector_factory is None or a string. *)
Definition none_or_string (v : vfactory C N) : Prop := v = VNone C N \/ exists w, v = VString C N w.

(** All calls in cs are admissible, vector_factory is None or a string. *)
Definition string_calls (l : lsys C N) Minv same Bm (cs : seq (scall C N)) : Prop :=
  forall i c, nth None (map Some cs) i = Some c ->
    call_ok l Minv same Bm (sc_sys c) (sc_args c) /\ none_or_string (sc_fac c).

(** The string w is in force in the call c: it is the argument of solve(), or the one of the
    constructor. *)
Definition in_force (default : vfactory C N) (c : scall C N) (w : string) : Prop :=
  sc_fac c = VString C N w \/ sc_fac c = VNone C N /\ default = VString C N w.

(** A previous solve has succeeded, and the string is not a shortcut. *)
Definition misspelt default (last : option (dsolver C N)) c : Prop :=
  last <> None /\ exists2 w, in_force default c w & ~ valid w.

(** The last successful solve has neither iterated nor deflated, but its Ritz vectors are to
    be used. *)
Definition no_pairs default (last : option (dsolver C N)) c : Prop :=
  (exists2 s, last = Some s & ds_n s = 0%N /\ ds_m s = 0%N) /\ exists2 w, in_force default c w & valid w.

(** The outcome o of the call c *)
Definition string_outcome default last (c : scall C N) (o : outcome C N) : Prop :=
  [\/ misspelt default last c /\ o = SAttributeError C N,
      no_pairs default last c /\ o = SRaises C N IndexError
    | [/\ ~ misspelt default last c, ~ no_pairs default last c &
      exists2 s, o = SReturns s & solved (rs_l (sc_sys c)) (o_tol (ra_o (sc_args c))) s]].
End Spec.
