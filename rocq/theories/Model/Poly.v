(** Model of NormalizedRootsPolynomial (krypy/utils.py 2036-2100) and strakos (1639-1648).

    Simplifications: exact arithmetic; roots and points are lists (arrays with more than
    one dimension, which are rejected with an ArgumentError, are not modelled).
    numpy.argsort is a parameter [argsort]: nothing but what the properties assume of it is
    known about it. *)
From mathcomp Require Import all_ssreflect all_algebra.
From Verif Require Import Base.

Set Implicit Arguments.
Unset Strict Implicit.
Unset Printing Implicit Defensive.
Import Order.TTheory GRing.Theory Num.Theory.
Local Open Scope ring_scope.

Section Poly.
Variable C : numClosedFieldType.

(** a[start::2] = vals: the selected positions are start, start+2, ...; numpy raises a
    ValueError if the number of values differs, unless there is a single value to broadcast. *)
Definition set_stride2 (start : nat) (vals a : seq nat) : res (seq nat) :=
  let cnt := uphalf (size a - start) in
  if (size vals != cnt) && (size vals != 1%N) then Err ValueError else
  Ok (mkseq (fun i => if (start <= i)%N && ~~ odd (i - start)
                      then nth 0%N vals (if size vals == 1%N then 0%N else (i - start)./2)
                      else nth 0%N a i) (size a)).

(** vals[sort, j]: IndexError if an index is out of range. *)
Definition take_idx (vals : seq C) (idx : seq nat) : res (seq C) :=
  if all (fun i => (i < size vals)%N) idx then Ok [seq nth 0 vals i | i <- idx] else Err IndexError.

Section Call.
Variable argsort : seq C -> seq nat.

(** The permutation of one column, utils.py 2085-2091. *)
Definition interlace (vals : seq C) : res (seq nat) :=
  let n := size vals in
  let sort_tmp := argsort [seq `|v| | v <- vals] in
  let sort := nseq n 0%N in
  let mid := uphalf n in
  let! sort := set_stride2 0 (take mid sort_tmp) sort in
  set_stride2 1 (rev (drop mid sort_tmp)) sort.

(** One column of vals: __call__ for one point, utils.py 2080-2095.  A zero root is a
    division by zero. *)
Definition eval_at (roots : seq C) (x : C) : res C :=
  if has (fun r => r == 0) roots then Err DivZero else
  let vals := [seq 1 - x / r | r <- roots] in
  let! sort := interlace vals in
  let! vals := take_idx vals sort in
  Ok (foldl *%R 1 vals).

(** __call__ on a list of points, utils.py 2065-2099. *)
Fixpoint eval_all (roots : seq C) (points : seq C) : res (seq C) :=
  if points is x :: points' then
    let! v := eval_at roots x in let! vs := eval_all roots points' in Ok (v :: vs)
  else Ok [::].
End Call.
End Poly.

(** strakos, utils.py 1639-1648: the list d of diagonal entries and the matrix
    numpy.diag(d).  For n = 1 Python raises a ZeroDivisionError. *)
Section Strakos.
Variable R : realFieldType.

Definition strakos_d (n : nat) (l_min l_max rho : R) : res (seq R) :=
  if n == 1%N then Err DivZero else
  Ok [seq l_min + (i%:R - 1) / (n%:R - 1) * (l_max - l_min) * rho ^+ (n - i) | i <- iota 1 n].

Definition strakos (n : nat) (l_min l_max rho : R) : res 'M[R]_n :=
  let! d := strakos_d n l_min l_max rho in
  Ok (\matrix_(i < n, j < n) (if i == j then nth 0 d i else 0)).
End Strakos.

(** NormalizedRootsPolynomial.minmax_candidates, utils.py 2056-2063, for real roots.
    [proots] is numpy.polynomial.Polynomial.roots. *)
Section Candidates.
Variable R : rcfType.
Variable proots : {poly R} -> seq R.

Definition minmax_candidates (roots : seq R) : seq R :=
  proots (deriv (\prod_(r <- roots) ('X - r%:P))).
End Candidates.
