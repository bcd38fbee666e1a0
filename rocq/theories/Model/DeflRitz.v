(** Model of deflation.Ritz, krypy/deflation.py 737-869.

    The attributes of the deflated solver that are read are given as matrices: H, V, C and
    B_; U, AU, MAU and E come from its projection.  n_ and n are the numbers of rows and of
    columns of H.  scipy.linalg.eig and eigh, for the standard and the generalised problem,
    are parameters.  Exact arithmetic; dtypes are not modelled.  The value numpy.Inf, and
    what is computed from it, is [None].  For n + m = 0 the attribute coeffs is an array
    with one dimension; get_vectors is not modelled for it.  The indices of get_vectors are
    a list of numbers that are not negative. *)
From mathcomp Require Import all_ssreflect all_algebra.
From Verif Require Import Base Model.Ritz Model.Inner Model.Arnoldi Model.Solver Model.LinearSystem Model.Krylov.
From Verif Require Import Model.Projection Model.Deflation.

Set Implicit Arguments.
Unset Strict Implicit.
Unset Printing Implicit Defensive.
Import Order.TTheory GRing.Theory Num.Theory.
Local Open Scope ring_scope.

(** The accepted values of the argument mode; any other string is [DmOther]. *)
Inductive dritz_mode := DmRitz | DmHarmonic | DmOther.

Section DeflRitz.
Variable C : numClosedFieldType.
Variable N : nat.
Local Notation vec := 'cV[C]_N.
Variables eig eigh : forall n, 'M[C]_n -> ('I_n -> C) * 'M[C]_n.
Variables geig geigh : forall n, 'M[C]_n -> 'M[C]_n -> ('I_n -> C) * 'M[C]_n.

(** numpy.eye(p, q) *)
Definition eye p q : 'M[C]_(p, q) := \matrix_(i, j) (i == j :> nat)%:R.

(** X[:n, :] for an array X with at least n rows *)
Definition rows p q n (X : 'M[C]_(p, q)) : 'M[C]_(n, q) :=
  \matrix_(i, j) (if insub (i : nat) is Some i' then X i' j else 0).
(** X[:, :n] *)
Definition cols p q n (X : 'M[C]_(p, q)) : 'M[C]_(p, n) :=
  \matrix_(i, j) (if insub (j : nat) is Some j' then X i j' else 0).

(** numpy.finfo(float).eps *)
Definition feps : C := 2%:R ^- 52.

(** What is read from the deflated solver: H, V, C, B_. *)
Record byprod n_ n m := Byprod {
  bp_H : 'M[C]_(n_, n); bp_V : 'M[C]_(N, n_); bp_C : 'M[C]_(m, n); bp_B : 'M[C]_(n_, m) }.

(** The attributes values, coeffs and resnorms *)
Record dritz k := DRitz {
  dz_values : 'I_k -> option C; dz_coeffs : 'M[C]_k; dz_resnorms : 'I_k -> option C }.

Section Solver.
Variables (l : lsys C N) (self_adjoint : bool) (m : nat) (ob : obl C N m) (n_ n : nat) (b : byprod n_ n m).
Local Notation H_ := (bp_H b).
Local Notation E := (d_E ob).
Local Notation B_ := (bp_B b).
Local Notation I := (@eye).

(** EinvC, lines 772-775 *)
Definition EinvC : res 'M[C]_(m, n) :=
  if m is 0 then Ok (bp_C b) else if E \in unitmx then Ok (invmx E *m bp_C b) else Err LinAlgError.

(** M, F, S, L, K of lines 780-802 and G of lines 822-828; [X] is EinvC. *)
Section Blocks.
Variable X : 'M[C]_(m, n).
Definition dM : 'M[C]_(n + m) :=
  let B := rows n B_ in block_mx (rows n H_ + B *m X) B (bp_C b) E.
Definition dF : 'M[C]_m := inner (lB l) (o_AU ob) (o_MAU l ob).
Definition dS : 'M[C]_(n_ + m + m) :=
  block_mx (block_mx (I n_ n_) B_ (tconj B_) dF) (col_mx 0 E) (row_mx 0 (tconj E)) (I m m).
Definition dL : 'M[C]_(n_ + m, n + m) := block_mx H_ 0 X (I m m).
Definition dK : 'M[C]_(n_ + m) := block_mx (I n_ n_) B_ (tconj B_) dF.
Definition dG (mu : C) : 'M[C]_(n_ + m + m, n + m) :=
  col_mx (block_mx (H_ - mu *: I n_ n) 0 X (I m m)) (row_mx 0 (- (mu *: I m m))).

(** resnorms[i], lines 829-831 *)
Definition dresnorm (mu : C) (y : 'cV[C]_(n + m)) : C :=
  let Gy := dG mu *m y in sqrtC `|(tconj Gy *m (dS *m Gy)) 0 0|.
End Blocks.

(** Ritz.__init__, lines 738-840 *)
Definition mk_dritz (mode : dritz_mode) : res (dritz (n + m)) :=
  if (n + m == 0)%N then Ok (DRitz (fun _ => None) 0 (fun _ => None)) else
  let! X := EinvC in
  let! (values, coeffs) :=
    match mode with
    | DmRitz =>
        let '(values, coeffs) := (if self_adjoint then @eigh (n + m)%N else @eig (n + m)%N) (dM X) in
        Ok ((fun i => Some (values i)) : 'I_(n + m) -> option C, coeffs)
    | DmHarmonic =>
        let '(sigmas, coeffs) := (if self_adjoint then @geigh (n + m)%N else @geig (n + m)%N)
                                   (tconj (dM X)) (tconj (dL X) *m (dK *m dL X)) in
        Ok ((fun i => if `|sigmas i| < feps then None else Some (sigmas i)^-1) : 'I_(n + m) -> option C, coeffs)
    | DmOther => Err ArgumentError
    end in
  let coeffs := normalise coeffs in
  Ok (DRitz values coeffs (fun i => if values i is Some mu then Some (dresnorm X mu (col i coeffs)) else None)).

(** numpy.column_stack([V[:, :n], U]) *)
Definition dbasis : 'M[C]_(N, n + m) := row_mx (cols n (bp_V b)) (o_U ob).

Variable z : dritz (n + m).

(** The columns of get_vectors(indices), lines 842-849 *)
Definition dvec (i : 'I_(n + m)) : vec := dbasis *m col i (dz_coeffs z).
Definition dvectors (indices : option (seq nat)) : res (seq vec) :=
  if indices is Some q then
    if all (fun i => i < n + m)%N q then
      Ok [seq (if insub i is Some i' then dvec i' else 0) | i <- q]
    else Err IndexError
  else Ok [seq dvec i | i <- enum 'I_(n + m)].

(** get_explicit_residual, lines 851-857: the columns.  The product ritz_vecs * self.values
    is the one of numpy arrays of shapes (N, q) and (n + m,): it exists if q = n + m, q = 1
    or n + m = 1. *)
Definition dres1 (v : vec) (mu : option C) : option vec :=
  if mu is Some mu then Some (lMlAMr l v - mu *: v) else None.
Definition dexplicit (indices : option (seq nat)) : res (seq (option vec)) :=
  let! vs := dvectors indices in
  let mus := [seq dz_values z i | i <- enum 'I_(n + m)] in
  if size vs == size mus then Ok [seq dres1 vm.1 vm.2 | vm <- zip vs mus] else
  if size mus == 1%N then Ok [seq dres1 v (head None mus) | v <- vs] else
  if size vs == 1%N then Ok [seq dres1 (head 0 vs) mu | mu <- mus] else
  Err ValueError.

(** get_explicit_resnorms, lines 859-869 *)
Definition dexplicit_norms (indices : option (seq nat)) : res (seq (res (option C))) :=
  let! rs := dexplicit indices in
  Ok [seq (if r is Some v then let! c := norm v (Some (lMop l v)) (lB l) in Ok (Some c)
           else Ok None : res (option C)) | r <- rs].
End Solver.

(** The attributes H, V, C and B_ of a DeflatedGmres or DeflatedMinres instance with
    store_arnoldi=True, from the Arnoldi object and the log of C; linsys.py 855-862 and
    999-1006, utils.py 1050-1061.  The number of rows of H. *)
Definition arn_rows (a : arn C N) : nat := (arn_get a).1.2.
Definition mk_byprod (l : lsys C N) (self_adjoint : bool) m (ob : obl C N m) (n_ n : nat)
    (V : nat -> vec) (H : nat -> nat -> C) (Cs : seq 'cV[C]_m) : byprod n_ n m :=
  Byprod (\matrix_(i, j) H i j) (\matrix_(i, j) V j i 0) (\matrix_(i, j) nth 0 Cs j i 0)
    (\matrix_(i, j) d_B_ l ob self_adjoint n n_ V Cs i 0 j).
Definition arn_byprod l self_adjoint m (ob : obl C N m) (a : arn C N) (Cs : seq 'cV[C]_m) :
    byprod (arn_rows a) (a_iter a) m :=
  mk_byprod l self_adjoint ob (arn_rows a) (a_iter a) (a_V a) (a_H a) Cs.
End DeflRitz.
