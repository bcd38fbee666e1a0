(** C04-C07: inner products, norms, Householder and Givens transformations. *)
From mathcomp Require Import all_ssreflect all_algebra.
From Verif Require Import Base Spec.LinAlg Proof.Algebra Model.Inner Spec.Inner Proof.Inner.

Set Implicit Arguments.
Unset Strict Implicit.
Unset Printing Implicit Defensive.
Import Order.TTheory GRing.Theory Num.Theory.
Local Open Scope ring_scope.

Section Properties.
Variable C : numClosedFieldType.

(** C04.  With no ip_B or a Hermitian operator B, [inner] is X^* B Y (both
    evaluation orders); every admissible ip_B gives the Gram matrix of an inner
    product. *)
Theorem C04_inner_euclid N m n (X : 'M[C]_(N, m)) (Y : 'M[C]_(N, n)) :
  inner IpNone X Y = X^h *m Y.
Proof. by []. Qed.

Theorem C04_inner_operator N (B : 'M[C]_N) m n (X : 'M[C]_(N, m)) (Y : 'M[C]_(N, n)) :
  B^h = B -> inner (IpOp B) X Y = X^h *m B *m Y.
Proof. exact: innerOp. Qed.

(** Without the Hermitian hypothesis the result depends on the shapes: X^* B Y or
    (B X)^* Y. *)
Theorem C04_nonhermitian_depends_on_shape_refuted :
  exists (B : 'M[C]_2) (x y : 'cV[C]_2),
    inner (IpOp B) (row_mx x x) y != (row_mx x x)^h *m B *m y.
Proof. exact: inner_nonhermitian. Qed.

Theorem C04_inner_is_gram N (B : ipB C N) : valid_ip B ->
  is_ip (ip1 B) /\
  forall m n (X : 'M[C]_(N, m)) (Y : 'M[C]_(N, n)) i j,
    inner B X Y i j = ip1 B (col i X) (col j Y).
Proof.
move=> h; split; first exact: valid_is_ip.
by move=> m n X Y i j; rewrite inner_columns // mxE.
Qed.

(** Non-vacuity: diag(1,2) is an admissible operator, and its callable form is an
    admissible callable. *)
Example C04_valid_operator : valid_ip (IpOp (diag_mx (\row_(i < 2) (i.+1)%:R) : 'M[C]_2)).
Proof. exact: diag12_valid. Qed.

Example C04_valid_callable N : valid_ip (IpCall (fun m n (X : 'M[C]_(N, m)) (Y : 'M[C]_(N, n)) => X^h *m Y)).
Proof. exact: callable_valid. Qed.

(** C05.  norm returns the root of <x,y> if that is a non-negative real; for a
    proper inner product norm(x) is the induced norm; a <x,y> with a non-negligible
    imaginary part is rejected. *)
Theorem C05_norm_value_partial N (x : 'cV[C]_N) (y : option 'cV[C]_N) (B : ipB C N) :
  let ip := ip1 B x (if y is Some y' then y' else x) in
  (0 <= ip -> norm x y B = Ok (sqrtC ip)) /\
  (`|'Im ip| > `|ip| * (10%:R ^+ 10)^-1 -> norm x y B = Err InnerProductError).
Proof. by move=> ip; split; [exact: norm_real_nonneg|exact: norm_rejects]. Qed.

Theorem C05_norm_induced N (x : 'cV[C]_N) (B : ipB C N) : valid_ip B ->
  norm x None B = Ok (ipnorm (ip1 B) x).
Proof. exact: norm_ip. Qed.

(** The full C05 is false: norm accepts a negative <x,x> (here -1) and returns
    the root of its modulus, although norm_squared rejects it. *)
Theorem C05_negative_accepted_refuted N : (0 < N)%N ->
  exists (B : ipB C N) (x : 'cV[C]_N), ip1 B x x = -1 /\ norm x None B = Ok 1.
Proof. exact: norm_negative_refuted. Qed.

Theorem C05_norm_squared N (x : 'cV[C]_N) (y : option 'cV[C]_N) (B : ipB C N) :
  let ip := ip1 B x (if y is Some y' then y' else x) in
  (0 <= ip -> norm_squared x y B = Ok ip) /\
  (ip \is Num.real -> ~~ (0 <= ip) -> norm_squared x y B = Err InnerProductError).
Proof. exact: norm_squared_spec. Qed.

(** C06. *)
Theorem C06_house n (x : 'cV[C]_n.+1) :
  let h := mk_house x in let H := house_matrix h in
  [/\ `|halpha h| = 1, hxnorm h = sqrtC (\sum_i `|x i 0| ^+ 2),
      H^h = H, H *m H = 1%:M & H *m x = (halpha h * hxnorm h) *: delta_mx 0 0].
Proof.
have [h1 h2 h3 h4] := mk_house_spec x; have [h5 h6] := house_unitary x.
by split=> //; rewrite h2 gramE.
Qed.

Theorem C06_apply_is_matrix n (x : 'cV[C]_n.+1) k (Y : 'M[C]_(n.+1, k)) :
  house_apply (mk_house x) Y = house_matrix (mk_house x) *m Y.
Proof. exact: house_applyE. Qed.

(** C07.  G = [[c,s],[-s^*,c]] is unitary with real c, annihilates b, and apply
    multiplies by G. *)
Theorem C07_givens (a b : C) :
  let g := mk_givens a b in let G := givens_matrix g in
  [/\ gc g \is Num.real, G^h *m G = 1%:M,
      G *m (\col_i (if i == 0 then a else b)) = \col_i (if i == 0 then gr g else 0)
    & `|gr g| ^+ 2 = `|a| ^+ 2 + `|b| ^+ 2].
Proof. exact: givens_all. Qed.

Theorem C07_givens_matrix_entries (g : givens C) :
  [/\ givens_matrix g 0 0 = gc g, givens_matrix g 0 1 = gs g,
      givens_matrix g 1 0 = - (gs g)^* & givens_matrix g 1 1 = gc g].
Proof. by split; rewrite mxE. Qed.

Theorem C07_apply_is_matrix (g : givens C) u w :
  givens_matrix g *m (\col_i (if i == 0 then u else w)) =
  \col_i (if i == 0 then (givens_apply g u w).1 else (givens_apply g u w).2).
Proof. exact: givens_matrix_apply. Qed.
End Properties.

Print Assumptions C04_inner_operator.
Print Assumptions C04_nonhermitian_depends_on_shape_refuted.
Print Assumptions C04_inner_is_gram.
Print Assumptions C05_norm_value_partial.
Print Assumptions C05_norm_induced.
Print Assumptions C05_negative_accepted_refuted.
Print Assumptions C05_norm_squared.
Print Assumptions C06_house.
Print Assumptions C06_apply_is_matrix.
Print Assumptions C07_givens.
Print Assumptions C07_apply_is_matrix.
