(** Model of Interval, Intervals and gap, krypy/utils.py 1651-1844.
    Real numbers are elements of an arbitrary real field (no rounding, no nan). *)
From mathcomp Require Import all_ssreflect all_algebra.
From Verif Require Import Base.

Set Implicit Arguments.
Unset Strict Implicit.
Unset Printing Implicit Defensive.
Import Order.TTheory GRing.Theory Num.Theory.
Local Open Scope ring_scope.

Section Interval.
Variable R : realFieldType.

(** numpy.max / numpy.min of a list; ValueError if empty. *)
Definition np_max (s : seq R) : res R :=
  if s is x :: s' then Ok (foldl Num.max x s') else Err ValueError.
Definition np_min (s : seq R) : res R :=
  if s is x :: s' then Ok (foldl Num.min x s') else Err ValueError.

(** Interval objects; the invariant left <= right is established by the constructor. *)
Record itv := Itv { left : R; right : R }.

(** Decidable equality of endpoints (only used to speak about permutations). *)
Definition itv_pair (a : itv) := (left a, right a).
Definition pair_itv (p : R * R) := Itv p.1 p.2.
Lemma itv_pairK : cancel itv_pair pair_itv. Proof. by case. Qed.
Definition itv_eqMixin := CanEqMixin itv_pairK.
Canonical itv_eqType := EqType itv itv_eqMixin.

(** Interval.__init__, utils.py 1714-1720. *)
Definition mk_itv (l : R) (r : option R) : res itv :=
  let r := if r is Some r then r else l in
  if r < l then Err ArgumentError else Ok (Itv l r).

(** Interval.__and__, utils.py 1722-1728; Python's None is [Ok None]. *)
Definition itv_and (a b : itv) : res (option itv) :=
  let! l := np_max [:: left a; left b] in
  let! r := np_min [:: right a; right b] in
  if l <= r then rmap Some (mk_itv l (Some r)) else Ok None.

(** Truth value of [a & b]: Interval objects are always true, None is false. *)
Definition itv_meets (a b : itv) : res bool := rmap isSome (itv_and a b).

(** Interval.__or__, utils.py 1730-1736. *)
Definition itv_or (a b : itv) : res (option itv) :=
  let! t := itv_meets a b in
  if t then
    let! l := np_min [:: left a; left b] in
    let! r := np_max [:: right a; right b] in
    rmap Some (mk_itv l (Some r))
  else Ok None.

(** Interval.contains, utils.py 1741-1743. *)
Definition itv_contains (a : itv) (x : R) : bool := (left a <= x) && (x <= right a).

(** Interval.distance, utils.py 1745-1749. *)
Definition itv_distance (a b : itv) : res R :=
  let! t := itv_meets a b in
  if t then Ok 0 else np_max [:: left b - right a; left a - right b].

(** An Intervals object is the list of the members of its set attribute, in
    some order.  Python sets of Interval objects hash by object identity, so
    distinct objects with equal endpoints are distinct members. *)
Definition itvs := seq itv.

(** Filter with a condition that may raise. *)
Fixpoint filterE (p : itv -> res bool) (s : itvs) : res itvs :=
  if s is x :: s' then
    let! b := p x in let! r := filterE p s' in Ok (if b then x :: r else r)
  else Ok [::].

(** The loop "for interval in intersecting: new = new | interval",
    utils.py 1764-1765; [None | interval] is a TypeError. *)
Fixpoint or_all (new : option itv) (s : itvs) : res (option itv) :=
  if s is x :: s' then
    if new is Some a then let! u := itv_or a x in or_all u s' else Err TypeError
  else Ok new.

(** Intervals.add, utils.py 1761-1767.  [order] is the iteration order of the
    set "intersecting"; it is an arbitrary function constrained by the
    properties to return a permutation of its argument. *)
Definition add (order : itvs -> itvs) (s : itvs) (new : itv) : res itvs :=
  let! inter := filterE (fun i => itv_meets i new) s in
  let! rest := filterE (fun i => rmap negb (itv_meets i new)) s in
  let! u := or_all (Some new) (order inter) in
  if u is Some a then Ok (a :: rest) else Err TypeError.

(** Intervals.__init__, utils.py 1755-1759, with one order per insertion. *)
Fixpoint adds (orders : nat -> itvs -> itvs) (s : itvs) (news : seq itv) : res itvs :=
  if news is x :: news' then
    let! s' := add (orders (size news')) s x in adds orders s' news'
  else Ok s.

(** Intervals.contains, utils.py 1769-1773. *)
Definition itvs_contains (s : itvs) (x : R) : bool := has (fun i => itv_contains i x) s.

(** Intervals.get_endpoints, utils.py 1775-1783. *)
Definition endpoints (s : itvs) : seq R :=
  sort <=%R (flatten [seq if left i == right i then [:: left i] else [:: left i; right i] | i <- s]).

(** Values returned by the queries: a number, None, or an exception *object*
    (the code says [return ArgumentError(..)]). *)
Inductive pyret := PyNum of R | PyNone | ErrObject of exn.

Definition ret (r : res R) : res pyret := rmap PyNum r.

(** utils.py 1794-1797 *)
Definition itvs_min (s : itvs) : res pyret :=
  if size s == 0%N then Ok (ErrObject ArgumentError) else ret (np_min [seq left i | i <- s]).
(** utils.py 1799-1802 *)
Definition itvs_max (s : itvs) : res pyret :=
  if size s == 0%N then Ok (ErrObject ArgumentError) else ret (np_max [seq right i | i <- s]).
(** utils.py 1804-1813 *)
Definition itvs_min_pos (s : itvs) : res pyret :=
  if size s == 0%N then Ok (ErrObject ArgumentError) else
  if itvs_contains s 0 then Ok PyNone else
  let positive := [seq i <- s | 0 < left i] in
  if size positive == 0%N then Ok PyNone else ret (np_min [seq left i | i <- positive]).
(** utils.py 1815-1824 *)
Definition itvs_max_neg (s : itvs) : res pyret :=
  if size s == 0%N then Ok (ErrObject ArgumentError) else
  if itvs_contains s 0 then Ok PyNone else
  let negative := [seq i <- s | right i < 0] in
  if size negative == 0%N then Ok PyNone else ret (np_max [seq right i | i <- negative]).

(** The list comprehension filter "if val is not None" followed by numpy.abs;
    numpy.abs of an exception object is a TypeError. *)
Fixpoint abs_vals (l : seq pyret) : res (seq R) :=
  match l with
  | [::] => Ok [::]
  | PyNum x :: l' => let! r := abs_vals l' in Ok (`|x| :: r)
  | PyNone :: l' => abs_vals l'
  | ErrObject _ :: _ => Err TypeError
  end.
(** utils.py 1826-1838 *)
Definition itvs_min_abs (s : itvs) : res pyret :=
  if size s == 0%N then Ok (ErrObject ArgumentError) else
  if itvs_contains s 0 then Ok (PyNum 0) else
  let! a := itvs_max_neg s in let! b := itvs_min_pos s in
  let! vals := abs_vals [:: a; b] in ret (np_min vals).
(** utils.py 1840-1844 *)
Definition itvs_max_abs (s : itvs) : res pyret :=
  if size s == 0%N then Ok (ErrObject ArgumentError) else
  let! a := itvs_max s in let! b := itvs_min s in
  let! vals := abs_vals [:: a; b] in ret (np_max vals).

(** gap, utils.py 1651-1708, for real input (scalars are one-element lists).
    Result: a number, numpy.Infinity, or None. *)
Inductive gapmode := Individual | IntervalMode | OtherMode.
Inductive gapval := GNum of R | GInf | GNone.

Definition gap (lamda sigma : seq R) (mode : gapmode) : res gapval :=
  match mode with
  | Individual =>
    rmap GNum (np_min [seq `|l - s| | l <- lamda, s <- sigma])
  | IntervalMode =>
    let! lmin := np_min lamda in let! lmax := np_max lamda in
    if ~~ all (fun s => (s <= lmin) || (s >= lmax)) sigma then Ok GNone else
    let! delta := (if has (fun s => s <= lmin) sigma then
                let! m := np_max [seq s <- sigma | s <= lmin] in Ok (GNum (lmin - m))
              else Ok GInf) in
    if has (fun s => s >= lmax) sigma then
      let! m := np_min [seq s <- sigma | s >= lmax] in
      Ok (GNum (if delta is GNum d then Num.min d (m - lmax) else m - lmax))
    else Ok delta
  | OtherMode => Ok GNone
  end.
End Interval.
