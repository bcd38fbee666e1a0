(** Model of qr, Projection and hegedus (krypy/utils.py 439-707, 812-851) and of
    deflation.ObliqueProjection (krypy/deflation.py 32-76).

    Simplifications: exact complex arithmetic, no dtypes (the in-place updates of a real
    or integer array with complex numbers, which NumPy rejects, are not modelled).
    [sqr X] stands for scipy.linalg.qr (mode "economic"; for a square matrix this is the
    same as the default mode); matrices with more columns than rows are not modelled
    there.  scipy.linalg.solve_triangular uses one triangle only and raises LinAlgError
    for a zero on the diagonal. *)
From mathcomp Require Import all_ssreflect all_algebra.
From Verif Require Import Base Model.Inner Model.LinearSystem.

Set Implicit Arguments.
Unset Strict Implicit.
Unset Printing Implicit Defensive.
Import Order.TTheory GRing.Theory Num.Theory.
Local Open Scope ring_scope.

Section Tri.
Variable C : numClosedFieldType.

(** scipy.linalg.solve_triangular(R, b) *)
Definition solve_upper k m (R : 'M[C]_k) (b : 'M[C]_(k, m)) : res 'M[C]_(k, m) :=
  if [exists i, R i i == 0] then Err LinAlgError
  else Ok (invmx (\matrix_(i, j) (if (i <= j)%N then R i j else 0)) *m b).

(** scipy.linalg.solve_triangular(R, b, lower=True) *)
Definition solve_lower k m (R : 'M[C]_k) (b : 'M[C]_(k, m)) : res 'M[C]_(k, m) :=
  if [exists i, R i i == 0] then Err LinAlgError
  else Ok (invmx (\matrix_(i, j) (if (j <= i)%N then R i j else 0)) *m b).
End Tri.

Section Projection.
Variable C : numClosedFieldType.
Variable sqr : forall n k, 'M[C]_(n, k) -> 'M[C]_(n, k) * 'M[C]_k.
Variable N : nat.
Local Notation vec := 'cV[C]_N.

(** The threshold 1e-15. *)
Definition eps15 : C := (10%:R ^+ 15)^-1.

(** X[:, [j]] *)
Definition ncol k (X : 'M[C]_(N, k)) (j : nat) : vec :=
  if insub j is Some j' then col j' X else 0.

(** The argument ip_B: None, or an operator or callable.  [Some IpNone] is an
    IdentityLinearOperator, which qr does not treat like None. *)
Definition ip_arg (B : option (ipB C N)) : ipB C N := if B is Some B then B else IpNone.

Section Mgs.
Variable B : ipB C N.
Local Notation st := ((nat -> vec) * (nat -> nat -> C))%type.

(** utils.py 699-702 *)
Definition mgs_orth (i j : nat) (s : st) : st :=
  let '(Q, R) := s in
  let alpha := ip1 B (Q j) (Q i) in
  (upd Q i (Q i - alpha *: Q j), upd2 R j i (R j i + alpha)).

(** utils.py 697-705 *)
Definition mgs_col (reorthos : nat) (i : nat) (s : st) : res st :=
  let '(Q, R) := forn reorthos.+1 (fun _ => forn i (mgs_orth i)) s in
  let! n := norm (Q i) None B in
  let R := upd2 R i i n in
  Ok (if eps15 <= n then (upd Q i (n^-1 *: Q i), R) else (Q, R)).

(** utils.py 694-706 *)
Definition mgs k (X : 'M[C]_(N, k)) (reorthos : nat) : res ('M[C]_(N, k) * 'M[C]_k) :=
  let! (Q, R) := fornE k (mgs_col reorthos) (ncol X, fun _ _ => 0) in
  Ok (\matrix_(i, j) Q j i 0, \matrix_(i, j) R i j).
End Mgs.

(** qr, utils.py 680-707 *)
Definition qr (B : option (ipB C N)) k (X : 'M[C]_(N, k)) (reorthos : nat) :
    res ('M[C]_(N, k) * 'M[C]_k) :=
  match B with
  | None => if (0 < k)%N then Ok (sqr X) else mgs IpNone X reorthos
  | Some B => mgs B X reorthos
  end.

(** The attributes of a Projection.  [p_same] tells whether WR and VR are the same
    object. *)
Record proj k := Proj {
  pV : 'M[C]_(N, k); pW : 'M[C]_(N, k); pVR : option 'M[C]_k; pWR : option 'M[C]_k;
  pQR : option ('M[C]_k * 'M[C]_k); p_same : bool; pB : option (ipB C N); pits : nat }.

(** Projection.__init__, utils.py 440-523.  [iterations] is a natural number (0 stands
    for every integer < 1); Y=None or the same object as X is [None].  The shapes of X
    and Y agree by their types. *)
Definition mk_proj k (X : 'M[C]_(N, k)) (Y : option 'M[C]_(N, k)) (B : option (ipB C N))
    (orthogonalize : bool) (iterations : nat) : res (proj k) :=
  if iterations == 0%N then Err ArgumentError else
  if k == 0%N then Ok (Proj 0 0 None None None true B iterations) else
  let! (V, VR) := if orthogonalize then let! (Q, R) := qr B X 1 in Ok (Q, Some R) else Ok (X, None) in
  if ~~ isSome Y && orthogonalize then Ok (Proj V V VR VR None true B iterations) else
  let Y := if Y is Some Y then Y else X in
  let! (W, WR) := if orthogonalize then let! (Q, R) := qr B Y 1 in Ok (Q, Some R) else Ok (Y, None) in
  Ok (Proj V W VR WR (Some (sqr (inner (ip_arg B) W V))) (~~ orthogonalize) B iterations).

Section Apply.
Variable k : nat.
Variable p : proj k.
Local Notation ip := (inner (ip_arg (pB p))).

(** solve_triangular(R, Q.T.conj().dot(c)), if there is a Q and R *)
Definition p_solve m (c : 'M[C]_(k, m)) : res 'M[C]_(k, m) :=
  if pQR p is Some (Q, R) then solve_upper R (tconj Q *m c) else Ok c.

(** _apply, utils.py 525-556 *)
Definition p_apply1 m (a : 'M[C]_(N, m)) : res 'M[C]_(N, m) :=
  if k == 0%N then Ok 0 else
  let! c := p_solve (ip (pW p) a) in Ok (pV p *m c).

(** _apply with return_Ya=True: the second result, utils.py 540-549 *)
Definition p_Ya m (a : 'M[C]_(N, m)) : 'M[C]_(k, m) :=
  let Ya := ip (pW p) a in
  if pWR p is Some WR then tconj WR *m Ya else Ya.

(** _apply_adj, utils.py 558-568 *)
Definition p_apply_adj1 m (a : 'M[C]_(N, m)) : res 'M[C]_(N, m) :=
  if k == 0%N then Ok 0 else
  let c := ip (pV p) a in
  let! c := if pQR p is Some (Q, R) then let! t := solve_lower (tconj R) c in Ok (Q *m t) else Ok c in
  Ok (pW p *m c).

(** The loops of apply and apply_adj, utils.py 590-593 and 603-606 *)
Definition p_iter m (f : 'M[C]_(N, m) -> res 'M[C]_(N, m)) (a : 'M[C]_(N, m)) : res 'M[C]_(N, m) :=
  let! x := f a in
  fornE (pits p).-1 (fun _ x => let! w := f (a - x) in Ok (x + w)) x.

(** The loops of apply_complement and apply_complement_adj, utils.py 625-628 and 638-641 *)
Definition p_iterc m (f : 'M[C]_(N, m) -> res 'M[C]_(N, m)) (a : 'M[C]_(N, m)) : res 'M[C]_(N, m) :=
  let! x := f a in
  fornE (pits p).-1 (fun _ z => let! w := f z in Ok (z - w)) (a - x).

(** apply, utils.py 570-596 *)
Definition p_apply m (a : 'M[C]_(N, m)) : res 'M[C]_(N, m) :=
  if k == 0%N then Ok 0 else p_iter (@p_apply1 m) a.

(** apply(a, return_Ya=True) *)
Definition p_apply_Ya m (a : 'M[C]_(N, m)) : res ('M[C]_(N, m) * 'M[C]_(k, m)) :=
  if k == 0%N then Ok (0, 0) else let! x := p_iter (@p_apply1 m) a in Ok (x, p_Ya a).

(** apply_adj, utils.py 598-607 *)
Definition p_apply_adj m (a : 'M[C]_(N, m)) : res 'M[C]_(N, m) :=
  if k == 0%N then Ok 0 else p_iter (@p_apply_adj1 m) a.

(** apply_complement, utils.py 609-631 *)
Definition p_compl m (a : 'M[C]_(N, m)) : res 'M[C]_(N, m) :=
  if k == 0%N then Ok a else p_iterc (@p_apply1 m) a.

(** apply_complement(a, return_Ya=True) *)
Definition p_compl_Ya m (a : 'M[C]_(N, m)) : res ('M[C]_(N, m) * 'M[C]_(k, m)) :=
  if k == 0%N then Ok (a, 0) else let! z := p_iterc (@p_apply1 m) a in Ok (z, p_Ya a).

(** apply_complement_adj, utils.py 633-642 *)
Definition p_compl_adj m (a : 'M[C]_(N, m)) : res 'M[C]_(N, m) :=
  if k == 0%N then Ok a else p_iterc (@p_apply_adj1 m) a.

(** operator() and operator_complement(), utils.py 644-668: the functions dot and
    dot_adj of the LinearOperator *)
Definition p_operator m : ('M[C]_(N, m) -> res 'M[C]_(N, m)) * ('M[C]_(N, m) -> res 'M[C]_(N, m)) :=
  if k == 0%N then (fun _ => Ok 0, fun _ => Ok 0) else (@p_apply m, @p_apply_adj m).
Definition p_operator_compl m : ('M[C]_(N, m) -> res 'M[C]_(N, m)) * ('M[C]_(N, m) -> res 'M[C]_(N, m)) :=
  if k == 0%N then (fun a => Ok a, fun a => Ok a) else (@p_compl m, @p_compl_adj m).

(** matrix(), utils.py 670-677 *)
Definition p_matrix : res 'M[C]_N := p_apply 1%:M.
End Apply.

(** hegedus, utils.py 812-851, for b and x0 of shape (N, 1).  M=None and Ml=None are
    given as identity functions. *)
Definition hegedus (A : vec -> vec) (b x0 : vec) (M Ml : vec -> vec) (B : ipB C N) : res vec :=
  let MlAx0 := Ml (A x0) in
  let z := M MlAx0 in
  let znorm2 := ip1 B z MlAx0 in
  if znorm2 <= eps15 then Ok 0 else
  let gamma := ip1 B z (Ml b) / znorm2 in
  Ok (gamma *: x0).
End Projection.
