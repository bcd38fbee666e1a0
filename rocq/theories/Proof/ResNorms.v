(** Proofs about get_residual_norms. *)
From mathcomp Require Import all_ssreflect all_algebra.
From Verif Require Import Base Model.Inner Proof.Inner Model.Krylov Proof.Projected Model.ResNorms.

Set Implicit Arguments.
Unset Strict Implicit.
Unset Printing Implicit Defensive.
Import Order.TTheory GRing.Theory Num.Theory.
Local Open Scope ring_scope.

Section Proofs.
Variable C : numClosedFieldType.
Implicit Types (H : nat -> nat -> C) (c : nat -> C).

Definition e1 (i : nat) : C := if i == 0%N then 1 else 0.

Lemma rots_zero (G : nat -> givens C) n f : (forall i, (i <= n)%N -> f i = 0) -> rots G n f =1 f.
Proof.
elim: n => // n IH z i; rewrite /rots /= -[forn n _ _]/(rots G n _).
have e : rots G n f =1 f by apply: IH => j hj; apply: z; apply: leq_trans hj _.
rewrite rotE !e (z n) // (z n.+1) // !mulr0 !addr0.
by case: eqP => [->|_]; [rewrite (z n.+1)|case: eqP => [->|//]; rewrite (z n)].
Qed.

Variables (n_ n : nat) (H : nat -> nat -> C).
Hypothesis hess : forall i j, (j.+1 < i)%N -> H i j = 0.
Hypothesis hn : (n_ <= n.+1)%N.

(** The state after k steps. *)
Record rn_inv (k : nat) (t : rnst C) (G : nat -> givens C) : Prop := RnInv {
  ri_qr : qr_state k H (rn_H t) G e1 (rn_y t);
  ri_rest : forall i j, (k <= j)%N -> (j < n)%N -> rn_H t i j = rots G k (fun i => H i j) i;
  ri_size : size (rn_res t) = k.+1;
  ri_nth : forall i, (i <= k)%N -> exists H' G' y',
             qr_state i H H' G' e1 y' /\ nth 0 (rn_res t) i = `|y' i|;
  ri_mono : forall i, (i < k)%N -> nth 0 (rn_res t) i.+1 <= nth 0 (rn_res t) i;
  ri_last : nth 0 (rn_res t) k = `|rn_y t k| }.

Lemma rn_inv0 G : rn_inv 0 (RnSt H e1 [:: 1]) G.
Proof.
split=> //=; rewrite ?normr1 //.
  by case=> // _; exists H, G, e1; split; [exact: qr0|rewrite /= normr1].
Qed.

Lemma unitary_s (g : givens C) : unitary_g g -> `|gs g| <= 1.
Proof.
case=> cr u; rewrite -(@ler_pexpn2r _ 2) ?nnegrE // expr1n normCK -u ler_addr.
by rewrite -{2}cr -normCK exprn_ge0.
Qed.

Lemma rn_stepP k t G (sa : bool) : rn_inv k t G -> (k < n)%N ->
  (sa -> forall i j, (i.+1 < j)%N -> H i j = 0) ->
  exists t' G', rn_step sa n k t = Ok t' /\ rn_inv k.+1 t' G'.
Proof.
move=> I kn tri; rewrite /rn_step leqNgt kn /=.
have ecol r : rn_H t r k = rots G k (fun i => H i k) r by rewrite (ri_rest I).
set g := mk_givens _ _.
pose G' i := if i == k then g else G i.
pose H' (r c : nat) := if (k <= c)%N && (c < (if sa then minn n (k + 3)%N else n))%N
  then rot g k (fun r => rn_H t r c) r else rn_H t r c.
rewrite -/H'; set y' := rot g k (rn_y t).
have eG i : (i < k)%N -> G' i = G i by move=> ik; rewrite /G' ltn_eqF.
have gk : G' k = g by rewrite /G' eqxx.
pose R' i j := if j == k then rot g k (rots G k (fun i => H i k)) i else rn_H t i j.
have q : qr_state k.+1 H R' G' e1 y'.
  apply: (qr_step (ri_qr I)) => //.
  - by move=> i hi; apply: hess.
  - by rewrite gk /g !ecol.
  - by move=> i j; rewrite /R' gk.
  - by move=> i; rewrite gk.
have eR i j : (j < k.+1)%N -> H' i j = R' i j.
  rewrite ltnS leq_eqVlt /H' /R' => /orP[/eqP->|jk]; last by rewrite leqNgt jk /= ltn_eqF.
  rewrite leqnn eqxx; have -> : (k < (if sa then minn n (k + 3) else n))%N.
    by case: (sa); rewrite ?leq_min kn //= addnS ltnS leq_addr.
  by apply: rot_ext => r; rewrite ecol.
have q' : qr_state k.+1 H H' G' e1 y'.
  case: q => q1 q2 q3 q4 q5 q6; split=> //.
  - by move=> i j jk; rewrite eR // q1.
  - by move=> i j jk ji; rewrite eR // q2.
  - by move=> j jk nz; rewrite eR // q5.
  - by move=> l [el]; rewrite -el => h0 nz b0; apply: (q6 k) => //; rewrite -eR.
have yk : `|y' k.+1| <= `|rn_y t k|.
  rewrite /y' rotE eqxx; have -> : rn_y t k.+1 = 0.
    by rewrite (q_y (ri_qr I)) rots_out.
  rewrite mulr0 addr0 normrM normrN norm_conjC; apply: ler_pimull => //.
  by apply: unitary_s; case: (mk_givens_spec (rn_H t k k) (rn_H t k.+1 k)).
exists (RnSt H' y' (rcons (rn_res t) `|y' k.+1|)), G'; split=> //.
have sz := ri_size I; split=> //=.
- move=> i j kj jn; rewrite /H' (ltnW kj) /=.
  have e : rots G' k.+1 (fun i => H i j) i = rot g k (fun i => rn_H t i j) i.
    rewrite /rots /= gk; apply: rot_ext => r; rewrite (ri_rest I) ?(ltnW kj) //.
    by apply: rots_G => l lk; rewrite eG.
  rewrite e; case: ifP => // /negbT; rewrite -leqNgt => big.
  have [sat|] := boolP sa; last by move=> /negbTE sf; rewrite sf leqNgt jn in big.
  rewrite sat geq_min leqNgt jn /= addn3 in big.
  have z : forall r, (r <= k.+1)%N -> rn_H t r j = 0.
    move=> r rk; rewrite (ri_rest I) ?(ltnW kj) // rots_zero; first by apply: tri => //; exact: leq_trans big.
    by move=> l lk; apply: tri => //; apply: leq_trans big; rewrite ltnS; apply: leq_trans lk _.
  by rewrite rotE; case: eqP => [->|_]; [rewrite !z // !mulr0 addr0|case: eqP => [->|//]; rewrite !z // !mulr0 addr0].
- by rewrite size_rcons sz.
- move=> i; rewrite leq_eqVlt => /orP[/eqP->|ik].
    exists H', G', y'; split=> //; by rewrite nth_rcons sz ltnn eqxx.
  have [H1 [G1 [y1 [a b]]]] := ri_nth I ik; exists H1, G1, y1; split=> //.
  by rewrite nth_rcons sz ik.
- move=> i; rewrite ltnS leq_eqVlt => /orP[/eqP->|ik].
    by rewrite !nth_rcons sz ltnn eqxx leqnn (ri_last I).
  by rewrite !nth_rcons sz ltnS ik ltnW //; exact: (ri_mono I).
- by rewrite nth_rcons sz ltnn eqxx.
Qed.

Lemma rn_loop (sa : bool) k : (k <= n)%N -> (sa -> forall i j, (i.+1 < j)%N -> H i j = 0) ->
  exists t G, fornE k (rn_step sa n) (RnSt H e1 [:: 1]) = Ok t /\ rn_inv k t G.
Proof.
elim: k => [_ _|k IH kn tri].
  by exists (RnSt H e1 [:: 1]), (fun _ => @givens0 C); split=> //; exact: rn_inv0.
have [t [G [e I]]] := IH (ltnW kn) tri; rewrite /= e /=.
exact: rn_stepP I kn tri.
Qed.

(** The banded update gives the same state for tridiagonal matrices. *)
Definition rn_eq (t t' : rnst C) :=
  [/\ forall i j, (j < n)%N -> rn_H t i j = rn_H t' i j, rn_y t =1 rn_y t' & rn_res t = rn_res t'].

Lemma rn_banded k : (k <= n)%N -> (forall i j, (i.+1 < j)%N -> H i j = 0) ->
  exists t t', [/\ fornE k (rn_step true n) (RnSt H e1 [:: 1]) = Ok t,
    fornE k (rn_step false n) (RnSt H e1 [:: 1]) = Ok t' & rn_eq t t'].
Proof.
move=> kn tri; elim: k kn => [_|k IH kn].
  by exists (RnSt H e1 [:: 1]), (RnSt H e1 [:: 1]).
have [t [t' [E E' [eH ey er]]]] := IH (ltnW kn).
have [t0 [G [E0 I]]] := @rn_loop true k (ltnW kn) (fun _ => tri).
move: E0; rewrite E => -[e0]; rewrite -e0 in I => {e0 t0}.
rewrite /= E E' /= /rn_step leqNgt kn /=; set g := mk_givens _ _; set g' := mk_givens _ _.
have eg : g = g' by rewrite /g /g' !eH.
eexists; eexists; split; [reflexivity|reflexivity|]; split=> /=.
- move=> i j jn; rewrite jn andbT -eg.
  have e : rot g k (fun r => rn_H t' r j) i = rot g k (fun r => rn_H t r j) i.
    by apply: rot_ext => r; rewrite eH.
  case: (leqP k j) => kj /=; last by rewrite eH.
  rewrite e; case: ifP => // /negbT; rewrite -leqNgt geq_min leqNgt jn /= addn3 => big.
  have z : forall r, (r <= k.+1)%N -> rn_H t r j = 0.
    move=> r rk; rewrite (ri_rest I) // rots_zero; first by apply: tri => //; exact: leq_trans big.
    by move=> l lk; apply: tri => //; apply: leq_trans big; rewrite ltnS; apply: leq_trans lk _.
  by rewrite rotE; case: eqP => [->|_]; [rewrite !z // !mulr0 addr0|case: eqP => [->|//]; rewrite !z // !mulr0 addr0].
- by move=> i; rewrite eg; exact: rot_ext.
- by rewrite eg er !rotE eqxx !ey.
Qed.

(** Minimality of the last entry of the rotated right hand side. *)
Lemma qr_lower k R G y c : qr_state k H R G e1 y ->
  `|y k| ^+ 2 <= \sum_(i < k.+1) `|e1 i - \sum_(j < k) c j * H i j| ^+ 2.
Proof.
by move=> q; rewrite (lsq q) ler_addr sumr_ge0 // => i _; rewrite exprn_ge0.
Qed.

Lemma qr_attained k R G y : qr_state k H R G e1 y ->
  (forall c, (forall i, (i <= k)%N -> \sum_(j < k) c j * H i j = 0) -> forall j, (j < k)%N -> c j = 0) ->
  exists c, \sum_(i < k.+1) `|e1 i - \sum_(j < k) c j * H i j| ^+ 2 = `|y k| ^+ 2.
Proof.
move=> q inj; have tri i j : (j < k)%N -> (j < i)%N -> R i j = 0 by move=> *; rewrite (q_tri q).
have hd i : (i < k)%N -> R i i != 0.
  move=> ik; apply/eqP => z; have [c [[j jk cj] hc]] := tri_kernel tri ik z.
  move: cj; rewrite (inj c) ?eqxx // => l lk.
  have s0 : \sum_(i < k.+1) `|\sum_(j < k) c j * H i j| ^+ 2 == 0.
    by rewrite (qr_norm q) big1 // => l' _; rewrite hc // normr0 expr0n.
  move: s0; rewrite psumr_eq0 => [/allP h|l' _]; last by rewrite exprn_ge0.
  have lk' : (l < k.+1)%N by [].
  by have := h (Ordinal lk') (mem_index_enum _); rewrite /= expf_eq0 normr_eq0 /= => /eqP.
have [c Ec] := @solve_tri_total C R y k hd; have [_ /(_ tri) hc] := solve_tri_ok Ec.
exists c; rewrite (lsq q) big1 ?add0r // => i _.
by rewrite hc ?ltn_ord // subrr normr0 expr0n.
Qed.
End Proofs.
