(** Model of angles (krypy/utils.py 710-809).

    Simplifications: exact complex arithmetic; [svd] stands for scipy.linalg.svd, [sqr] for
    scipy.linalg.qr (see Model/Projection.v); numpy.arccos, numpy.arcsin and pi/2 are
    parameters.  The model always returns the vectors; with compute_vectors=False the code
    returns the angles only. *)
From mathcomp Require Import all_ssreflect all_algebra.
From Verif Require Import Base Model.Inner Model.Projection.

Set Implicit Arguments.
Unset Strict Implicit.
Unset Printing Implicit Defensive.
Import Order.TTheory GRing.Theory Num.Theory.
Local Open Scope ring_scope.

Section Angles.
Variable C : numClosedFieldType.
Variable sqr : forall n k, 'M[C]_(n, k) -> 'M[C]_(n, k) * 'M[C]_k.
Variable svd : forall m n, 'M[C]_(m, n) -> 'M[C]_m * seq C * 'M[C]_n.
Variables (arccos arcsin : C -> C) (pi2 : C).
Variable N : nat.

(** X[:, :p] *)
Definition lcols k (X : 'M[C]_(N, k)) (p : nat) : 'M[C]_(N, p) := \matrix_(i, j) ncol X j i 0.

(** numpy.diag(s) for the first p entries of s *)
Definition dg (s : seq C) (p : nat) : 'M[C]_p := diag_mx (\row_j s`_j).

(** numpy.column_stack([X, Y[:, p:]]) *)
Definition stack k p (X : 'M[C]_(N, p)) (Y : 'M[C]_(N, k)) : 'M[C]_(N, k) :=
  \matrix_(i, j) (if (j < p)%N then ncol X j i 0 else Y i j).

(** utils.py 758-801 for F.shape[1] >= G.shape[1] *)
Definition angles_ge k l (F : 'M[C]_(N, k)) (G : 'M[C]_(N, l)) (B : option (ipB C N)) :
    res (seq C * 'M[C]_(N, k) * 'M[C]_(N, l)) :=
  let ip m n := @inner C N (ip_arg B) m n in
  let! (QF, _) := qr sqr B F 1 in
  let! (QG, _) := qr sqr B G 1 in
  if l == 0%N then Ok (nseq k pi2, QF, QG) else
  let '(Y, s, Z) := svd (ip k l QF QG) in
  let Vcos := QG *m tconj Z in
  let n_large := count (fun x => x ^+ 2 < 2%:R^-1) s in
  let n_small := (size s - n_large)%N in
  let theta := map arccos (drop n_small s) ++ nseq (k - l) pi2 in
  let Ucos := QF *m Y in
  if (0 < n_small)%N then
    let RG := lcols Vcos n_small in
    let S := RG - QF *m ip k n_small QF RG in
    let! (_, R) := qr sqr B S 1 in
    let '(_, u, Z) := svd R in
    let RF := lcols Ucos n_small in
    let Vsin := RG *m tconj Z in
    let Usin := RF *m (dg (map GRing.inv s) n_small *m (tconj Z *m dg s n_small)) in
    Ok (map arcsin (take n_small (rev u)) ++ theta, stack Usin Ucos, stack Vsin Vcos)
  else Ok (theta, Ucos, Vcos).

(** angles, utils.py 751-809 *)
Definition angles k l (F : 'M[C]_(N, k)) (G : 'M[C]_(N, l)) (B : option (ipB C N)) :
    res (seq C * 'M[C]_(N, k) * 'M[C]_(N, l)) :=
  if (k < l)%N then
    let! (theta, U, V) := angles_ge G F B in Ok (theta, V, U)
  else angles_ge F G B.
End Angles.
