(** Model of ritz, krypy/utils.py 1171-1286.

    H is an array with n_ rows and n columns, given by its entries; V (if given) has mV
    columns.  scipy.linalg.eig and eigh, for the standard and the generalised problem, are
    parameters.  Exact arithmetic; dtypes and the warning for a non-Hermitian H are not
    modelled.  A division by zero in one component of theta or resnorm makes this component
    the error value DivZero (numpy: inf or nan).  n >= 1 is assumed by the model (H[-1, -1]
    and the eigenvalue routines fail for n = 0: IndexError). *)
From mathcomp Require Import all_ssreflect all_algebra.
From Verif Require Import Base.

Set Implicit Arguments.
Unset Strict Implicit.
Unset Printing Implicit Defensive.
Import Order.TTheory GRing.Theory Num.Theory.
Local Open Scope ring_scope.

(** The accepted values of the argument type; any other string is [RtOther]. *)
Inductive ritz_type := RtRitz | RtHarmonic | RtImproved | RtOther.

Section Ritz.
Variable C : numClosedFieldType.
Variables eig eigh : forall n, 'M[C]_n -> ('I_n -> C) * 'M[C]_n.
Variables geig geigh : forall n, 'M[C]_n -> 'M[C]_n -> ('I_n -> C) * 'M[C]_n.

(** theta, U, resnorm, and the Ritz vectors if V was given *)
Record ritz_out N n := RitzOut {
  ro_theta : 'I_n -> res C; ro_U : 'M[C]_n; ro_resnorm : 'I_n -> res C;
  ro_Z : option 'M[C]_(N, n) }.

(** numpy.linalg.norm(x, 2) of an array with k entries *)
Definition nrm2 (k : nat) (x : nat -> C) : C := sqrtC (\sum_(i < k) `|x i| ^+ 2).

(** H[:n, :] and H *)
Definition Hsq n (H : nat -> nat -> C) : 'M[C]_n := \matrix_(i, j) H i j.
Definition Hfull n_ n (H : nat -> nat -> C) : 'M[C]_(n_, n) := \matrix_(i, j) H i j.

(** X.T.conj() *)
Definition tconj m n (X : 'M[C]_(m, n)) : 'M[C]_(n, m) := \matrix_(i, j) (X j i)^*.

(** U[:, i] /= norm(U[:, i]) for all i, lines 1257 and 1268 *)
Definition normalise n (U : 'M[C]_n) : 'M[C]_n :=
  \matrix_(k, i) (U k i / nrm2 n (fun k => if insub k is Some k then U k i else 0)).

(** resi = H u; resi[:n] -= t u; the norm of resi, lines 1258-1262 and 1273-1275 *)
Definition resi_norm n_ n (H : nat -> nat -> C) (u : 'I_n -> C) (t : C) : C :=
  nrm2 n_ (fun k => \sum_(j < n) H k j * u j - (if insub k is Some k' then t * u k' else 0)).

Definition ritz N (n_ n : nat) (H : nat -> nat -> C) (V : option (nat * (nat -> 'cV[C]_N)))
    (hermitian : bool) (type : ritz_type) : res (ritz_out N n) :=
  if (if V is Some (mV, _) then mV != n_ else false) then Err ArgumentError else
  if ~~ ((n_ == n) || (n_ == n.+1)) then Err ArgumentError else
  if n == 0%N then Err IndexError else
  let gev := (if hermitian then @geigh n else @geig n) (tconj (Hsq n H)) (tconj (Hfull n_ n H) *m Hfull n_ n H) in
  let! (theta, U, resnorm) :=
    match type with
    | RtRitz =>
        let '(theta, U) := (if hermitian then @eigh n else @eig n) (Hsq n H) in
        let beta := if n_ == n then 0 else H n_.-1 n.-1 in
        Ok ((fun i => Ok (theta i)) : 'I_n -> res C, U,
            (fun i => Ok `|beta * (if insub n.-1 is Some k then U k i else 0)|) : 'I_n -> res C)
    | RtHarmonic =>
        let '(theta, U) := gev in
        let theta := (fun i => if theta i == 0 then Err DivZero else Ok (theta i)^-1) : 'I_n -> res C in
        let U := normalise U in
        Ok (theta, U, (fun i => let! t := theta i in Ok (resi_norm n_ H (U^~ i) t)) : 'I_n -> res C)
    | RtImproved =>
        let U := normalise gev.2 in
        let theta := fun i => \sum_k (U k i)^* * \sum_(j < n) H k j * U j i in
        Ok ((fun i => Ok (theta i)) : 'I_n -> res C, U,
            (fun i => Ok (resi_norm n_ H (U^~ i) (theta i))) : 'I_n -> res C)
    | RtOther => Err ArgumentError
    end in
  Ok (RitzOut theta U resnorm
        (if V is Some (_, V) then Some (\matrix_(r, i) \sum_(k < n) U k i * V k r 0) else None)).
End Ritz.
