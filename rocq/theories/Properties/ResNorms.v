(** C33: residual norms from a Hessenberg matrix. *)
From mathcomp Require Import all_ssreflect all_algebra.
From Verif Require Import Base Model.Inner Model.Krylov Model.ResNorms Proof.ResNorms.

Set Implicit Arguments.
Unset Strict Implicit.
Unset Printing Implicit Defensive.
Import Order.TTheory GRing.Theory Num.Theory.
Local Open Scope ring_scope.

Section ResNorms.
Variable C : numClosedFieldType.

(** Entries of a matrix. *)
Definition ent m n (H : 'M[C]_(m, n)) (i j : nat) : C :=
  match insub i, insub j with Some i', Some j' => H i' j' | _, _ => 0 end.

Definition hessenberg m n (H : 'M[C]_(m, n)) :=
  forall (i : 'I_m) (j : 'I_n), (j.+1 < i)%N -> H i j = 0.
Definition tridiagonal m n (H : 'M[C]_(m, n)) :=
  forall (i : 'I_m) (j : 'I_n), (j.+1 < i)%N || (i.+1 < j)%N -> H i j = 0.

(** The leading (k+1) x k block H_k, the first unit vector and the Euclidean norm. *)
Definition lead m n (H : 'M[C]_(m, n)) k : 'M[C]_(k.+1, k) := \matrix_(i, j) ent H i j.
Definition unit1 k : 'cV[C]_k.+1 := delta_mx 0 0.
Definition norm2 k (v : 'cV[C]_k) : C := sqrtC (\sum_i `|v i 0| ^+ 2).

(** r is the minimum of ||e_1 - H_k y|| over all y. *)
Definition is_min m n (H : 'M[C]_(m, n)) k (r : C) :=
  (forall y, r <= norm2 (unit1 k - lead H k *m y)) /\
  exists y, r = norm2 (unit1 k - lead H k *m y).

Lemma entE m n (H : 'M[C]_(m, n)) (i : 'I_m) (j : 'I_n) : ent H i j = H i j.
Proof. by rewrite /ent !valK. Qed.

Lemma ent_hess m n (H : 'M[C]_(m, n)) : hessenberg H ->
  forall i j, (j.+1 < i)%N -> ent H i j = 0.
Proof.
move=> h i j ji; rewrite /ent; case: insubP => // i' _ ei; case: insubP => // j' _ ej.
by rewrite h // ei ej.
Qed.

Lemma ent_tri m n (H : 'M[C]_(m, n)) : tridiagonal H ->
  forall i j, (i.+1 < j)%N -> ent H i j = 0.
Proof.
move=> h i j ji; rewrite /ent; case: insubP => // i' _ ei; case: insubP => // j' _ ej.
by rewrite h // ei ej ji orbT.
Qed.

Lemma norm2_sum m n (H : 'M[C]_(m, n)) k (y : 'cV[C]_k) (c : nat -> C) :
  (forall j : 'I_k, c j = y j 0) ->
  norm2 (unit1 k - lead H k *m y) =
    sqrtC (\sum_(i < k.+1) `|@e1 C i - \sum_(j < k) c j * ent H i j| ^+ 2).
Proof.
move=> hc; rewrite /norm2; congr sqrtC; apply: eq_bigr => i _; congr (`|_| ^+ 2).
rewrite !mxE /= /e1 andbT -val_eqE /=; congr (_ - _); first by case: eqP.
by apply: eq_bigr => j _; rewrite !mxE hc mulrC.
Qed.

(** C33.  For every (n+1) x n or nonempty n x n upper Hessenberg matrix (tridiagonal if
    self_adjoint is set) n+1 numbers are returned; they start with 1 and do not increase, and
    the k-th one is the minimum of ||e_1 - H_k y|| for every k for which the leading
    (k+1) x k block H_k exists and has full column rank. *)
Theorem C33_residual_norms m n (H : 'M[C]_(m.+1, n)) (sa : bool) :
  m = n \/ m.+1 = n -> hessenberg H -> (sa -> tridiagonal H) ->
  exists rs, [/\ get_residual_norms m.+1 n (ent H) sa = Ok rs, size rs = n.+1,
    nth 0 rs 0 = 1, forall k, (k < n)%N -> nth 0 rs k.+1 <= nth 0 rs k
  & forall k, (k <= m)%N -> \rank (lead H k) = k -> is_min H k (nth 0 rs k)].
Proof.
move=> hmn hh ht; have mn : (m <= n)%N by case: hmn => <-.
have hf := ent_hess hh; have tf : sa -> forall i j, (i.+1 < j)%N -> ent H i j = 0.
  by move=> /ht; exact: ent_tri.
have [t [G [e I]]] := rn_loop hf mn tf.
rewrite /get_residual_norms subn1 /= e /=.
have sz := ri_size I.
have step k : (k <= m)%N -> \rank (lead H k) = k -> is_min H k (nth 0 (rn_res t) k).
  move=> km rk; have [R' [G' [y' [q ->]]]] := ri_nth I km; split=> [y|].
    pose c j := if insub j is Some j' then y j' 0 else 0.
    rewrite (@norm2_sum _ _ _ _ _ c) => [|j]; last by rewrite /c valK.
    rewrite -[X in X <= _]sqrCK // ler_sqrtC ?nnegrE ?exprn_ge0 // ?sumr_ge0 //.
      exact: qr_lower q.
    by move=> i _; rewrite exprn_ge0.
  have [|c hc] := qr_attained q.
    move=> c hc j jk; pose v : 'cV[C]_k := \col_j c j.
    have v0 : lead H k *m v = 0.
      apply/colP => i; have il : (i <= k)%N by rewrite -ltnS ltn_ord.
      rewrite mxE [RHS]mxE -[RHS](hc i il).
      by apply: eq_bigr => l _; rewrite !mxE mulrC.
    have : v = 0.
      apply: (can_inj (@trmxK _ _ _)); rewrite trmx0; apply: (@row_free_inj _ _ _ _ (lead H k)^T).
        by rewrite /row_free mxrank_tr rk.
      by rewrite mul0mx -trmx_mul v0 trmx0.
    by move=> /colP /(_ (Ordinal jk)); rewrite !mxE.
  exists (\col_j c j); rewrite (@norm2_sum _ _ _ _ _ c) => [|j]; last by rewrite mxE.
  by rewrite hc sqrCK.
case: ifP => [/eqP em|/negbT ne]; last first.
  have em : m = n by case: hmn => // em; rewrite em eqxx in ne.
  exists (rn_res t); split=> //; first by rewrite sz em.
    by have [R' [G' [y' [q ->]]]] := ri_nth I (leq0n m); rewrite (Projected.q_y q) /= normr1.
  by move=> k kn; apply: (ri_mono I); rewrite em.
exists (rcons (rn_res t) 0); split=> //.
- by rewrite size_rcons sz em.
- rewrite nth_rcons sz /=.
  by have [R' [G' [y' [q ->]]]] := ri_nth I (leq0n m); rewrite (Projected.q_y q) /= normr1.
- move=> k; rewrite -em ltnS leq_eqVlt => /orP[/eqP->|km].
    by rewrite !nth_rcons sz ltnn eqxx leqnn (ri_last I).
  by rewrite !nth_rcons sz !ltnS km (ltnW km); exact: (ri_mono I).
- by move=> k km rk; rewrite nth_rcons sz ltnS km; exact: step.
Qed.

(** C33.  For a square nonsingular matrix the last number is 0, which is the minimum of
    ||e_1 - H y||. *)
Theorem C33_square m (H : 'M[C]_m.+1) (sa : bool) :
  hessenberg H -> (sa -> tridiagonal H) -> H \in unitmx ->
  exists rs, [/\ get_residual_norms m.+1 m.+1 (ent H) sa = Ok rs, nth 0 rs m.+1 = 0
    & exists y, norm2 (unit1 m - H *m y) = 0].
Proof.
move=> hh ht u; have mn : (m <= m.+1)%N by [].
have hf := ent_hess hh; have tf : sa -> forall i j, (i.+1 < j)%N -> ent H i j = 0.
  by move=> /ht; exact: ent_tri.
have [t [G [e I]]] := rn_loop hf mn tf.
rewrite /get_residual_norms subn1 /= e /= eqxx; exists (rcons (rn_res t) 0); split=> //.
  by rewrite nth_rcons (ri_size I) ltnn eqxx.
exists (invmx H *m unit1 m); rewrite mulKVmx // subrr /norm2 big1 ?sqrtC0 // => i _.
by rewrite mxE normr0 expr0n.
Qed.

(** C33.  For tridiagonal matrices self_adjoint=True gives the same numbers. *)
Theorem C33_self_adjoint m n (H : 'M[C]_(m.+1, n)) :
  m = n \/ m.+1 = n -> tridiagonal H ->
  get_residual_norms m.+1 n (ent H) true = get_residual_norms m.+1 n (ent H) false.
Proof.
move=> hmn ht; have mn : (m <= n)%N by case: hmn => <-.
have hf : hessenberg H by move=> i j ji; apply: ht; rewrite ji.
have [t [t' [E E' [_ _ e]]]] := rn_banded (ent_hess hf) mn (ent_tri ht).
by rewrite /get_residual_norms subn1 /= E E' /= e.
Qed.

(** Non-vacuity: the 2x1 matrix (1, 1)^T has full column rank and residual norms 1, 1/sqrt 2. *)
Example C33_example :
  let H : 'M[C]_(2, 1) := const_mx 1 in
  [/\ hessenberg H, tridiagonal H & \rank (lead H 1) = 1%N].
Proof.
split=> [i j|i j|]; rewrite ?ord1 //=.
- by case: i => -[|[]].
- by case: i => -[|[]].
apply/eqP; rewrite eqn_leq rank_leq_col lt0n mxrank_eq0; apply/eqP => /matrixP /(_ 0 0).
by rewrite !mxE /ent /= !insubT //= !mxE => /eqP; rewrite oner_eq0.
Qed.

(** Finding: if the subspace breaks down with a singular block (here H = 0), the returned
    number is 0 although the minimal residual norm is 1. *)
Theorem C33_breakdown_refuted :
  let H : 'M[C]_(2, 1) := 0 in
  exists rs, [/\ get_residual_norms 2 1 (ent H) false = Ok rs, nth 0 rs 1 = 0
    & forall y, norm2 (unit1 1 - lead H 1 *m y) = 1].
Proof.
move=> H; have z i j : ent H i j = 0.
  by rewrite /ent; case: insubP => // *; case: insubP => // *; rewrite mxE.
rewrite /get_residual_norms /= /rn_step /= !z.
eexists; split; first reflexivity.
  rewrite /= /rot /= updE /mk_givens !real0 /= /drotg /= normr0 addr0 eqxx /=.
  by rewrite conjC0 oppr0 mul0r mulr0 addr0 normr0.
move=> y; have -> : lead H 1 = 0 by apply/matrixP => i j; rewrite !mxE z.
rewrite mul0mx subr0 /norm2 !big_ord_recl big_ord0 !mxE /= normr1 normr0 expr1n expr0n /= !addr0.
exact: sqrtC1.
Qed.
End ResNorms.

Print Assumptions C33_residual_norms.
Print Assumptions C33_square.
Print Assumptions C33_self_adjoint.
Print Assumptions C33_breakdown_refuted.
