(** C40, C41: polynomials given by their roots; the Strakos matrix. *)
From mathcomp Require Import all_ssreflect all_algebra ring.
From Verif Require Import Base Model.Poly Proof.Poly.

Set Implicit Arguments.
Unset Strict Implicit.
Unset Printing Implicit Defensive.
Import Order.TTheory GRing.Theory Num.Theory.
Local Open Scope ring_scope.

(** What is assumed of numpy.argsort: the result is a permutation of the indices. *)
Definition argsort_perm (C : numClosedFieldType) (argsort : seq C -> seq nat) :=
  forall s, perm_eq (argsort s) (iota 0 (size s)).

Section Polynomial.
Variable C : numClosedFieldType.

(** The polynomial with roots theta_1..theta_n and value 1 at 0. *)
Definition npoly (roots : seq C) (x : C) : C := \prod_(r <- roots) (1 - x / r).

(** C40.  For every number of nonzero roots and every number of points, calling the object
    returns the values of the polynomial, whatever (permutation) argsort returns. *)
Theorem C40_value argsort (roots points : seq C) : argsort_perm argsort ->
  all (fun r => r != 0) roots ->
  eval_all argsort roots points = Ok [seq npoly roots x | x <- points].
Proof. by move=> h; exact: eval_allE. Qed.

(** C40.  In particular p(0) = 1 and p vanishes exactly at the roots. *)
Theorem C40_normalized argsort (roots : seq C) x : argsort_perm argsort ->
  all (fun r => r != 0) roots ->
  eval_all argsort roots [:: 0; x] = Ok [:: 1; npoly roots x] /\
  (npoly roots x == 0) = (x \in roots).
Proof.
move=> h nz; rewrite C40_value //=; split.
  by congr (Ok [:: _; _]); rewrite /npoly big1 // => r _; rewrite mul0r subr0.
rewrite /npoly prodf_seq_eq0 /=; apply/hasP/idP => [[r rr]|xr].
  by rewrite subr_eq0 => /eqP e; rewrite -[x](@divfK _ r) ?(allP nz) // -e mul1r.
by exists x => //=; rewrite divff ?subrr ?(allP nz).
Qed.

(** C40.  The interlaced reordering of every column is a permutation of its indices. *)
Theorem C40_permutation argsort (vals : seq C) : argsort_perm argsort ->
  exists2 p, interlace argsort vals = Ok p & perm_eq p (iota 0 (size vals)).
Proof. by move=> h; exact: interlace_perm. Qed.

(** Non-vacuity: sorting is an argsort; p(x) = (1-x)(1-x/2)(1-x/3) at 0, 2 and -1. *)
Definition argsort_sort (s : seq C) : seq nat :=
  sort (fun i j => nth 0 s i <= nth 0 s j) (iota 0 (size s)).

Example argsort_sort_perm : argsort_perm argsort_sort.
Proof. by move=> s; rewrite perm_sort. Qed.

Example C40_example :
  eval_all argsort_sort [:: 1; 2%:R; 3%:R] [:: 0; 2%:R; -1] = Ok [:: 1; 0; 4%:R].
Proof.
rewrite C40_value //=; last by rewrite oner_eq0 !pnatr_eq0.
  have nz n : n.+1%:R != 0 :> C by rewrite pnatr_eq0.
  congr (Ok [:: _; _; _]); rewrite /npoly !big_cons big_nil mulr1.
  - by rewrite !mul0r !subr0 !mulr1.
  - by rewrite [2%:R / 2%:R]divff // subrr mul0r mulr0.
  - rewrite divr1 opprK !mulN1r !opprK.
    by field.
exact: argsort_sort_perm.
Qed.

(** The reordering of four values with argsort [2;0;3;1] is [2;1;0;3]. *)
Example C40_interlace_example (v : seq C) : size v = 4%N ->
  interlace (fun _ => [:: 2; 0; 3; 1]%N) v = Ok [:: 2; 1; 0; 3]%N.
Proof. by move=> sv; rewrite /interlace sv. Qed.
End Polynomial.

(** C40.  minmax_candidates: with real roots, the maximum of |p| over an interval is attained
    at an end point or at a returned point inside the interval.  Of the root finder only this
    is assumed: all roots of a nonzero polynomial are returned. *)
Theorem C40_extrema (R : rcfType) (proots : {poly R} -> seq R) (roots : seq R) (a b x : R) :
  (forall q y, q != 0 -> root q y -> y \in proots q) ->
  all (fun r => r != 0) roots -> a <= x -> x <= b ->
  exists c, [\/ c = a, c = b | (c \in minmax_candidates proots roots) && (a <= c <= b)] /\
    `|\prod_(r <- roots) (1 - x / r)| <= `|\prod_(r <- roots) (1 - c / r)|.
Proof.
move=> hp nz ax xb; have axb : a <= x <= b by rewrite ax.
have [c cc le] := minmax_candidatesP hp nz axb.
exists c; split=> //; move: cc; rewrite !inE mem_filter => /or3P[/eqP->|/eqP->|/andP[-> ->]].
- exact: Or31.
- exact: Or32.
- exact: Or33.
Qed.

(** C41.  For n >= 2, 0 < rho <= 1 and l_min < l_max, strakos returns a diagonal matrix whose
    diagonal strictly increases from l_min to l_max. *)
Theorem C41_strakos (R : realFieldType) (n : nat) (l_min l_max rho : R) :
  l_min < l_max -> 0 < rho -> rho <= 1 ->
  exists2 S : 'M[R]_n.+2, strakos n.+2 l_min l_max rho = Ok S &
  [/\ S ord0 ord0 = l_min, S ord_max ord_max = l_max,
      forall i j, i != j -> S i j = 0
    & forall i j : 'I_n.+2, (i < j)%N -> S i i < S j j].
Proof.
move=> lt_l rho0 rho1; have n2 : (1 < n.+2)%N by [].
rewrite /strakos; have [d -> [sd hd]] /= := strakos_dE n2 lt_l rho0 rho1.
eexists; first reflexivity; split.
- by rewrite mxE eqxx hd // stra0.
- by rewrite mxE eqxx hd // straN.
- by move=> i j /negbTE; rewrite mxE => ->.
- by move=> i j lij; rewrite !mxE !eqxx !hd //; apply: stra_mono.
Qed.

Example C41_example : exists2 S : 'M[rat]_3, strakos 3 1 5%:R (1 / 2%:R) = Ok S &
  [/\ S (inord 0) (inord 0) = 1, S (inord 1) (inord 1) = 2%:R & S (inord 2) (inord 2) = 5%:R].
Proof.
eexists; first reflexivity; split; rewrite mxE eqxx inordK //=; exact/eqP.
Qed.

(** strakos(1) is not defined. *)
Theorem C41_single_refuted (R : realFieldType) (l_min l_max rho : R) :
  strakos 1 l_min l_max rho = Err DivZero.
Proof. by []. Qed.

Print Assumptions C40_value.
Print Assumptions C40_normalized.
Print Assumptions C40_permutation.
Print Assumptions C40_extrema.
Print Assumptions C41_strakos.
Print Assumptions C41_single_refuted.
