(** Model of LinearSystem, krypy/linsys.py 11-201.

    Simplifications: the operators A, M, Ml, Mr are the functions they apply to a
    column (None, i.e. the identity operator, is kept for M because Arnoldi branches
    on it); vectors have shape (N, 1).  Not modelled: dtypes, the flags normal,
    self_adjoint, positive_definite (informational, they only cause warnings),
    flat vectors. *)
From mathcomp Require Import all_ssreflect all_algebra.
From Verif Require Import Base Model.Inner Model.Solver.

Set Implicit Arguments.
Unset Strict Implicit.
Unset Printing Implicit Defensive.
Import Order.TTheory GRing.Theory Num.Theory.
Local Open Scope ring_scope.

Section LinearSystem.
Variable C : numClosedFieldType.
Variable N : nat.
Local Notation vec := 'cV[C]_N.

(** Attributes A, b, M, Ml, Mr, ip_B, exact_solution. *)
Record lsys := LSys {
  lA : vec -> vec; lb : vec; lM : option (vec -> vec); lMl : vec -> vec; lMr : vec -> vec;
  lB : ipB C N; lexact : option vec }.

Implicit Types (l : lsys) (z : option vec).

(** M * x *)
Definition lMop l : vec -> vec := if lM l is Some M then M else id.

(** MlAMr = Ml * A * Mr, linsys.py 82 *)
Definition lMlAMr l : vec -> vec := fun x => lMl l (lA l (lMr l x)).

(** Mlb, MMlb, MMlb_norm, linsys.py 120-122 *)
Definition lMlb l : vec := lMl l (lb l).
Definition lMMlb l : vec := lMop l (lMlb l).
Definition lMMlb_norm l : res C := norm (lMlb l) (Some (lMMlb l)) (lB l).

(** get_residual(z, compute_norm=True), linsys.py 130-161; MMlb_norm is the attribute
    computed by the constructor. *)
Definition get_residual l (MMlb_norm : C) z : res (vec * vec * C) :=
  match z with
  | None => Ok (lMMlb l, lMlb l, MMlb_norm)
  | Some z =>
    let r := lb l - lA l z in
    let Mlr := lMl l r in
    let MMlr := lMop l Mlr in
    let! n := norm Mlr (Some MMlr) (lB l) in
    Ok (MMlr, Mlr, n)
  end.

(** get_residual(z), linsys.py 130-161 *)
Definition get_residual_only l z : vec * vec :=
  match z with
  | None => (lMMlb l, lMlb l)
  | Some z => let Mlr := lMl l (lb l - lA l z) in (lMop l Mlr, Mlr)
  end.

(** What the solver skeleton uses of the linear system. *)
Definition lsys_sys l (bn : C) : sys C vec :=
  Sys bn (fun x => let! t := get_residual l bn (Some x) in Ok t.2)
      (if lexact l is Some e then Some (fun x => norm (e - x) None (lB l)) else None).
End LinearSystem.
