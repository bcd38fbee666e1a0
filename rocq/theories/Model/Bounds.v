(** Model of BoundCG (krypy/utils.py 1847-1916) and BoundMinres (1919-2003).

    Exact arithmetic.  Eigenvalues are complex numbers (isreal tests the imaginary part).
    An Intervals object is given by the results of its methods min, max, max_neg, min_pos
    and contains(0), see Model/Interval.v.  The attribute base is computed over an arbitrary
    closed field; eval_step is given for natural steps.  get_step and eval_step of a real
    step use logarithms and real powers and are modelled over the real numbers of the
    standard library, with the base as argument. *)
From Coq Require Import Reals.
From mathcomp Require Import all_ssreflect all_algebra.
From Verif Require Import Base Model.Projection.

Set Implicit Arguments.
Unset Strict Implicit.
Unset Printing Implicit Defensive.
Import Order.TTheory GRing.Theory Num.Theory.
Local Open Scope ring_scope.

Section Bounds.
Variable C : numClosedFieldType.
Local Notation eps := (eps15 C).

(** The queries of an Intervals object; None stands for Python's None.  The methods of an
    empty one return an exception object, which cannot be compared with numbers. *)
Record itvq := Itvq {
  q_empty : bool; q_min : C; q_max : C; q_max_neg : option C; q_min_pos : option C; q_has0 : bool }.

(** The argument evals: an array or an Intervals object. *)
Inductive earg := EList of seq C | EItv of itvq.

(** Division of an entry by the normalisation factor; nan and the infinities are None, and
    all comparisons used below are False for them. *)
Definition ndiv (l x : C) : option C := if l == 0 then None else Some (x / l).
Definition gtO (o : option C) (c : C) : bool := if o is Some x then c < x else false.
Definition ltO (o : option C) (c : C) : bool := if o is Some x then x < c else false.

(** numpy.min and numpy.max of a list; None is the ValueError for an empty list. *)
Definition np_minC (s : seq C) : option C := if s is x :: s' then Some (foldl Num.min x s') else None.
Definition np_maxC (s : seq C) : option C := if s is x :: s' then Some (foldl Num.max x s') else None.
Definition mustC (o : option C) : res C := if o is Some x then Ok x else Err ValueError.

(** The value of base, utils.py 1875-1908. *)
Definition bound_cg (e : earg) (exclude_zeros : bool) : res C :=
  let! evals := match e with
    | EList s => Ok s
    | EItv q => if q_empty q then Err TypeError else
                if q_min q <= 0 then Err AssumptionError else Ok [:: q_min q; q_max q]
    end in
  if size evals == 0%N then Err AssumptionError else
  if ~~ all (fun x => x \is Num.real) evals then Err AssumptionError else
  let evals := sort <=%R evals in
  let evals := [seq ndiv (last 0 evals) x | x <- evals] in
  if ~~ exclude_zeros && ~~ all (fun x => gtO x eps) evals then Err AssumptionError else
  if ~~ gtO (head None evals) (- eps) then Err AssertionError else
  let! m := mustC (np_minC (pmap id [seq x <- evals | gtO x eps])) in
  let kappa := 1 / m in
  Ok ((sqrtC kappa - 1) / (sqrtC kappa + 1)).

(** numpy compares complex numbers lexicographically: x > c for a real c *)
Definition gt_lex (x c : C) : bool := (c < 'Re x) || (('Re x == c) && (0 < 'Im x)).

(** BoundMinres(evals) is a BoundCG or a BoundMinres object. *)
Inductive bound := BCg of C | BMinres of C.

(** BoundMinres.__init__, utils.py 1963-1994 *)
Definition minres_init (e : earg) : res C :=
  let! evals := match e with
    | EList s => Ok s
    | EItv q => if q_has0 q then Err AssumptionError else
                Ok (pmap id [:: Some (q_min q); q_max_neg q; q_min_pos q; Some (q_max q)])
    end in
  if size evals == 0%N then Err AssumptionError else
  if ~~ all (fun x => x \is Num.real) evals then Err AssumptionError else
  let evals := sort <=%R evals in
  let! mx := mustC (np_maxC [seq `|x| | x <- evals]) in
  let evals := [seq ndiv mx x | x <- evals] in
  let negative := pmap id [seq x <- evals | ltO x (- eps)] in
  let positive := pmap id [seq x <- evals | gtO x eps] in
  let! lambda_1 := mustC (np_minC negative) in
  let! lambda_s := mustC (np_maxC negative) in
  let! lambda_t := mustC (np_minC positive) in
  let! lambda_N := mustC (np_maxC positive) in
  let a := sqrtC `|lambda_1 * lambda_N| in
  let b := sqrtC `|lambda_s * lambda_t| in
  Ok ((a - b) / (a + b)).

(** BoundMinres.__new__, utils.py 1946-1956, followed by __init__ *)
Definition bound_minres (e : earg) : res bound :=
  let! pos := match e with
    | EItv q => if q_empty q then Err TypeError else Ok (0 < q_min q)
    | EList s => Ok (all (fun x => gt_lex x (- eps)) s)
    end in
  if pos then rmap BCg (bound_cg e false) else rmap BMinres (minres_init e).

(** eval_step, utils.py 1910-1912 and 1996-1998, for a natural number step *)
Definition cg_eval_step (base : C) (step : nat) : C := 2%:R * base ^+ step.
Definition minres_eval_step (base : C) (step : nat) : C := 2%:R * base ^+ step./2.
End Bounds.

(** get_step, utils.py 1914-1916 and 2000-2003.  numpy.log of 0 is -inf, of a negative
    number nan; a finite number divided by -inf is 0. *)
Section Steps.
Local Open Scope R_scope.
Inductive npfloat := Fin of R | NegInf | NaN.
Definition np_log (x : R) : npfloat :=
  if Rlt_dec 0 x then Fin (ln x) else if Req_EM_T x 0 then NegInf else NaN.
Definition np_div (x y : npfloat) : npfloat :=
  match x, y with
  | Fin a, Fin b => if Req_EM_T b 0 then NaN else Fin (a / b)
  | Fin _, NegInf => Fin 0
  | _, _ => NaN
  end.
Definition np_twice (x : npfloat) : npfloat :=
  match x with Fin a => Fin (2 * a) | y => y end.

Definition cg_get_step (base tol : R) : npfloat := np_div (np_log (tol / 2)) (np_log base).
Definition minres_get_step (base tol : R) : npfloat :=
  np_div (np_twice (np_log (tol / 2))) (np_log base).

(** base ** step for a real step and base >= 0; a negative power of 0 is infinite (None). *)
Definition np_pow (base step : R) : option R :=
  if Rlt_dec 0 base then Some (Rpower base step) else
  if Req_EM_T step 0 then Some 1 else if Rlt_dec 0 step then Some 0 else None.
Definition cg_eval_real (base step : R) : option R :=
  if np_pow base step is Some x then Some (2 * x) else None.
(** numpy.floor *)
Definition np_floor (x : R) : R := IZR (Int_part x).
Definition minres_eval_real (base step : R) : option R :=
  if np_pow base (np_floor (step / 2)) is Some x then Some (2 * x) else None.
End Steps.
