(** Model of inner products, norms, Householder and Givens transformations,
    krypy/utils.py 146-238 and 332-436. *)
From mathcomp Require Import all_ssreflect all_algebra.
From Verif Require Import Base.

Set Implicit Arguments.
Unset Strict Implicit.
Unset Printing Implicit Defensive.
Import Order.TTheory GRing.Theory Num.Theory.
Local Open Scope ring_scope.

Section Inner.
Variable C : numClosedFieldType.

(** X.T.conj() *)
Definition tconj m n (X : 'M[C]_(m, n)) : 'M[C]_(n, m) := map_mx conjC X^T.

(** ip_euclid, utils.py 146-157 *)
Definition ip_euclid N m n (X : 'M[C]_(N, m)) (Y : 'M[C]_(N, n)) : 'M[C]_(m, n) :=
  tconj X *m Y.

(** The argument ip_B of the library: None (or an IdentityLinearOperator), an
    operator B (given as array or LinearOperator; linear operators on C^N are
    represented by their matrix), or a callable on blocks. *)
Inductive ipB (N : nat) :=
| IpNone
| IpOp of 'M[C]_N
| IpCall of (forall m n, 'M[C]_(N, m) -> 'M[C]_(N, n) -> 'M[C]_(m, n)).
Arguments IpNone {N}.

(** inner, utils.py 160-193 *)
Definition inner N (B : ipB N) m n (X : 'M[C]_(N, m)) (Y : 'M[C]_(N, n)) : 'M[C]_(m, n) :=
  match B with
  | IpNone => tconj X *m Y
  | IpCall f => f m n X Y
  | IpOp B => if (n < m)%N then tconj (B *m X) *m Y else tconj X *m (B *m Y)
  end.

(** inner product of two single vectors, [inner(x, y, ip_B)[0, 0]] *)
Definition ip1 N (B : ipB N) (x y : 'cV[C]_N) : C := inner B x y 0 0.

(** numpy.linalg.norm(x, 2) of a single column. *)
Definition norm2 N (x : 'cV[C]_N) : C := sqrtC (\sum_i `|x i 0| ^+ 2).

(** The relative tolerance 1e-10 of the positivity checks. *)
Definition eps10 : C := (10%:R ^+ 10)^-1.

(** norm, utils.py 214-238, for single columns x, y (shape (N,1)).  Not
    modelled: blocks with several columns. *)
Definition norm N (x : 'cV[C]_N) (y : option 'cV[C]_N) (B : ipB N) : res C :=
  match y, B with
  | None, IpNone => Ok (norm2 x)
  | _, _ =>
    let y := if y is Some y then y else x in
    let ip := ip1 B x y in
    if `|'Im ip| > `|ip| * eps10 then Err InnerProductError
    else Ok (sqrtC `|ip|)
  end.

(** norm_squared, utils.py 196-211, for single columns. *)
Definition norm_squared N (x : 'cV[C]_N) (Mx : option 'cV[C]_N) (B : ipB N) : res C :=
  let rho := ip1 B x (if Mx is Some y then y else x) in
  if (`|'Im rho| > `|rho| * eps10) || ('Re rho < 0) then Err InnerProductError
  else Ok `|rho|.

(** Householder transformation: attributes of a House object. *)
Record house n := House { hxnorm : C; hv : 'cV[C]_n; halpha : C; hbeta : C }.

(** v with v[0] replaced *)
Definition set0 n (x : 'cV[C]_n.+1) (a : C) : 'cV[C]_n.+1 :=
  \col_i (if i == 0 then a else x i 0).

(** House.__init__, utils.py 333-376.  The vector has at least one entry;
    other shapes raise ArgumentError or IndexError and are not modelled. *)
Definition mk_house n (x : 'cV[C]_n.+1) : house n.+1 :=
  let gamma := x 0 0 in
  let v := set0 x 1 in
  let '(sigma, xnorm, beta, v, alpha) :=
    if n.+1 == 1%N then
      let xnorm := `|gamma| in
      (0, xnorm, 0, v, if gamma == 0 then 1 else gamma / xnorm)
    else
      let sigma := sqrtC (\sum_(i | i != 0) `|v i 0| ^+ 2) in
      let xnorm := sqrtC (`|gamma| ^+ 2 + sigma ^+ 2) in
      if sigma == 0 then
        let xnorm := `|gamma| in
        (sigma, xnorm, 0, v, if gamma == 0 then 1 else gamma / xnorm)
      else if gamma == 0 then (sigma, xnorm, 2%:R, set0 v (- sigma), 1)
      else (sigma, xnorm, 2%:R, set0 v (gamma + gamma / `|gamma| * xnorm), - gamma / `|gamma|) in
  House xnorm ((sqrtC (`|v 0 0| ^+ 2 + sigma ^+ 2))^-1 *: v) alpha beta.

(** House.apply, utils.py 378-389 *)
Definition house_apply n (h : house n) k (x : 'M[C]_(n, k)) : 'M[C]_(n, k) :=
  if hbeta h == 0 then x else x - hbeta h *: (hv h *m (tconj (hv h) *m x)).

(** House.matrix, utils.py 391-402 *)
Definition house_matrix n (h : house n) : 'M[C]_n :=
  1%:M - hbeta h *: (hv h *m tconj (hv h)).

(** Reference BLAS drotg (c and s only): roe = a if |a|>|b| else b;
    r = sgn(roe) * scale * sqrt((a/scale)^2+(b/scale)^2). *)
Definition sgnz (x : C) : C := if x < 0 then -1 else 1.
Definition drotg (a b : C) : C * C :=
  let roe := if `|b| < `|a| then a else b in
  let scale := `|a| + `|b| in
  if scale == 0 then (1, 0) else
  let r := sgnz roe * (scale * sqrtC ((a / scale) ^+ 2 + (b / scale) ^+ 2)) in
  (a / r, b / r).

(** Reference BLAS zrotg (c and s only). *)
Definition zrotg (a b : C) : C * C :=
  if `|a| == 0 then (0, 1) else
  let scale := `|a| + `|b| in
  let nrm := scale * sqrtC (`|a / scale| ^+ 2 + `|b / scale| ^+ 2) in
  let alpha := a / `|a| in
  (`|a| / nrm, alpha * b^* / nrm).

(** Givens object, utils.py 405-436: entries of G and r. *)
Record givens := Givens { gc : C; gs : C; gr : C }.

(** Givens.__init__, utils.py 406-432, for the vector [a; b]. *)
Definition mk_givens (a b : C) : givens :=
  let '(c, s) :=
    if (a \is Num.real) && (b \is Num.real) then drotg a b else zrotg a b in
  Givens c s (c * a + s * b).

(** Givens.apply, utils.py 434-436, on a column [u; w]. *)
Definition givens_apply (g : givens) (u w : C) : C * C :=
  (gc g * u + gs g * w, - (gs g)^* * u + gc g * w).

(** The matrix G, utils.py 432. *)
Definition givens_matrix (g : givens) : 'M[C]_2 :=
  \matrix_(i, j) (if i == 0 then (if j == 0 then gc g else gs g)
                  else (if j == 0 then - (gs g)^* else gc g)).
End Inner.
Arguments IpNone {C N}.
