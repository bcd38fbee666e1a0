(** Elementary theory of an abstract inner product on C^N. *)
From mathcomp Require Import all_ssreflect all_algebra.
From mathcomp Require Import ring.
From Verif Require Import Base Spec.LinAlg Proof.Algebra.

Set Implicit Arguments.
Unset Strict Implicit.
Unset Printing Implicit Defensive.
Import Order.TTheory GRing.Theory Num.Theory.
Local Open Scope ring_scope.

Section Linear.
Variable C : numClosedFieldType.
Variable N : nat.
Local Notation vec := 'cV[C]_N.
Variable f : vec -> vec.
Hypothesis hf : is_linear f.

Lemma lin0 : f 0 = 0.
Proof. by have := hf (-1) 0 0; rewrite !scaleN1r oppr0 addNr addr0. Qed.
Lemma linZ a x : f (a *: x) = a *: f x.
Proof. by have := hf a x 0; rewrite addr0 lin0 addr0. Qed.
Lemma linD x y : f (x + y) = f x + f y.
Proof. by have := hf 1 x y; rewrite !scale1r. Qed.
Lemma linN x : f (- x) = - f x.
Proof. by rewrite -scaleN1r linZ scaleN1r. Qed.
Lemma linB x y : f (x - y) = f x - f y.
Proof. by rewrite linD linN. Qed.
Lemma lin_sum (I : Type) (r : seq I) (P : pred I) (F : I -> vec) :
  f (\sum_(i <- r | P i) F i) = \sum_(i <- r | P i) f (F i).
Proof. by apply: big_morph; [exact: linD|exact: lin0]. Qed.
End Linear.

Section Comp.
Variable C : numClosedFieldType.
Variable N : nat.
Local Notation vec := 'cV[C]_N.
Lemma lin_comp (f g : vec -> vec) : is_linear f -> is_linear g -> is_linear (fun x => f (g x)).
Proof. by move=> hf hg a x y; rewrite hg hf. Qed.
Lemma lin_id : is_linear (fun x : vec => x). Proof. by []. Qed.
Lemma lin_mx (A : 'M[C]_N) : is_linear (fun x : vec => A *m x).
Proof. by move=> a x y; rewrite mulmxDr scalemxAr. Qed.
End Comp.

Section Ip.
Variable C : numClosedFieldType.
Variable N : nat.
Local Notation vec := 'cV[C]_N.
Variable ip : vec -> vec -> C.
Hypothesis hip : is_ip ip.

Let ip_linr' x : forall a y z, ip x (a *: y + z) = a * ip x y + ip x z.
Proof. by move=> a y z; rewrite (ip_linr hip). Qed.

Lemma ipr0 x : ip x 0 = 0.
Proof. by have := ip_linr' x (-1) 0 0; rewrite scaleN1r oppr0 addr0 mulN1r addNr. Qed.
Lemma ipC x y : ip y x = (ip x y)^*.
Proof. exact: (ip_conj hip). Qed.
Lemma ipl0 x : ip 0 x = 0.
Proof. by rewrite ipC ipr0 conjC0. Qed.
Lemma ipZr a x y : ip x (a *: y) = a * ip x y.
Proof. by rewrite -[a *: y]addr0 ip_linr' ipr0 addr0. Qed.
Lemma ipDr x y z : ip x (y + z) = ip x y + ip x z.
Proof. by rewrite -[y]scale1r ip_linr' mul1r scale1r. Qed.
Lemma ipNr x y : ip x (- y) = - ip x y.
Proof. by rewrite -scaleN1r ipZr mulN1r. Qed.
Lemma ipBr x y z : ip x (y - z) = ip x y - ip x z.
Proof. by rewrite ipDr ipNr. Qed.
Lemma ipZl a x y : ip (a *: x) y = a^* * ip x y.
Proof. by rewrite ipC ipZr rmorphM /= -ipC. Qed.
Lemma ipDl x y z : ip (x + y) z = ip x z + ip y z.
Proof. by rewrite ipC ipDr rmorphD /= -!ipC. Qed.
Lemma ipNl x y : ip (- x) y = - ip x y.
Proof. by rewrite ipC ipNr rmorphN /= -ipC. Qed.
Lemma ipBl x y z : ip (x - y) z = ip x z - ip y z.
Proof. by rewrite ipDl ipNl. Qed.
Lemma ip_sumr (I : Type) (r : seq I) (P : pred I) (F : I -> vec) x :
  ip x (\sum_(i <- r | P i) F i) = \sum_(i <- r | P i) ip x (F i).
Proof. by apply: big_morph; [exact: ipDr|exact: ipr0]. Qed.
Lemma ip_suml (I : Type) (r : seq I) (P : pred I) (F : I -> vec) x :
  ip (\sum_(i <- r | P i) F i) x = \sum_(i <- r | P i) ip (F i) x.
Proof.
apply: (big_morph (fun y => ip y x)) => [a b|]; [exact: ipDl|exact: ipl0].
Qed.

Lemma ip_ge0' x : 0 <= ip x x.
Proof. by case: (eqVneq x 0) => [->|x0]; [rewrite ipr0|rewrite ltW // (ip_pos hip)]. Qed.
Lemma ip_eq0 x : (ip x x == 0) = (x == 0).
Proof.
case: (eqVneq x 0) => [->|x0]; first by rewrite ipr0 eqxx.
by apply/negbTE; rewrite gt_eqF // (ip_pos hip).
Qed.
Lemma ip_real x : ip x x \is Num.real.
Proof. by rewrite ger0_real // ip_ge0'. Qed.

Lemma ipnorm_ge0 x : 0 <= ipnorm ip x.
Proof. by rewrite /ipnorm sqrtC_ge0 ip_ge0'. Qed.
Lemma ipnorm_sq x : ipnorm ip x ^+ 2 = ip x x.
Proof. by rewrite /ipnorm sqrtCK. Qed.
Lemma ipnorm_eq0 x : (ipnorm ip x == 0) = (x == 0).
Proof. by rewrite /ipnorm sqrtC_eq0 ip_eq0. Qed.
Lemma ipnorm_gt0 x : (0 < ipnorm ip x) = (x != 0).
Proof. by rewrite lt_def ipnorm_ge0 andbT ipnorm_eq0. Qed.
Lemma ipnorm0 : ipnorm ip 0 = 0. Proof. by apply/eqP; rewrite ipnorm_eq0. Qed.
Lemma ipnormZ a x : ipnorm ip (a *: x) = `|a| * ipnorm ip x.
Proof.
apply/eqP; rewrite -(@eqr_expn2 _ 2) ?mulr_ge0 ?ipnorm_ge0 //.
by rewrite exprMn !ipnorm_sq ipZl ipZr mulrA [a^* * a]mulrC -normCK.
Qed.
Lemma ipnormN x : ipnorm ip (- x) = ipnorm ip x.
Proof. by rewrite /ipnorm ipNl ipNr opprK. Qed.

Lemma ipnorm_le x y : (ipnorm ip x <= ipnorm ip y) = (ip x x <= ip y y).
Proof. by rewrite -!ipnorm_sq ler_pexpn2r // ?nnegrE ?ipnorm_ge0. Qed.

Lemma pythagoras x y : ip x y = 0 -> ip (x + y) (x + y) = ip x x + ip y y.
Proof.
by move=> h; rewrite ipDl !ipDr h [ip y x]ipC h conjC0 add0r addr0.
Qed.

(** Families *)
Lemma ortho_coef (v : nat -> vec) k (c : nat -> C) j : orthonormal ip v k -> (j < k)%N ->
  ip (v j) (\sum_(i < k) c i *: v i) = c j.
Proof.
move=> ho hj; rewrite ip_sumr (bigD1 (Ordinal hj)) //= ipZr ho // eqxx mulr1.
rewrite big1 ?addr0 // => i ne; rewrite ipZr ho // (_ : (j == i) = false) ?mulr0 //.
by apply/negbTE; apply: contra ne => /eqP e; apply/eqP/val_inj.
Qed.

Lemma ortho_ip (v : nat -> vec) k (c d : nat -> C) : orthonormal ip v k ->
  ip (\sum_(i < k) c i *: v i) (\sum_(i < k) d i *: v i) = \sum_(i < k) (c i)^* * d i.
Proof.
move=> ho; rewrite ip_suml; apply: eq_bigr => i _.
by rewrite ipZl ortho_coef.
Qed.

Lemma ortho_sub (v : nat -> vec) k k' : (k' <= k)%N -> orthonormal ip v k -> orthonormal ip v k'.
Proof. by move=> h ho i j hi hj; apply: ho; apply: leq_trans h. Qed.

Lemma orthoS (v : nat -> vec) k : orthonormal ip v k -> ip (v k) (v k) = 1 ->
  (forall j, (j < k)%N -> ip (v j) (v k) = 0) -> orthonormal ip v k.+1.
Proof.
move=> ho h1 h0 i j; rewrite !ltnS.
case: (ltngtP i k) => // [hi|->] _; case: (ltngtP j k) => // [hj|->] _.
- exact: ho.
- by rewrite h0 // ?ltn_eqF.
- by rewrite ipC h0 // conjC0 ?gtn_eqF.
- by rewrite h1 ?eqxx.
Qed.

Lemma ortho_ext (v w : nat -> vec) k : (forall j, (j < k)%N -> v j = w j) ->
  orthonormal ip v k -> orthonormal ip w k.
Proof. by move=> h ho i j hi hj; rewrite -!h // ho. Qed.

Lemma span_orth (v : nat -> vec) k x y : (forall j, (j < k)%N -> ip (v j) y = 0) ->
  in_span v k x -> ip x y = 0.
Proof.
move=> h [c ->]; rewrite ip_suml big1 // => i _; by rewrite ipZl h // mulr0.
Qed.
End Ip.

Section Span.
Variable C : numClosedFieldType.
Variable N : nat.
Local Notation vec := 'cV[C]_N.
Implicit Types (v w : nat -> vec).

Lemma span0 v k : in_span v k 0.
Proof. by exists (fun _ => 0); rewrite big1 // => i _; rewrite scale0r. Qed.
Lemma spanZ v k a x : in_span v k x -> in_span v k (a *: x).
Proof.
move=> [c ->]; exists (fun i => a * c i); rewrite scaler_sumr.
by apply: eq_bigr => i _; rewrite scalerA.
Qed.
Lemma spanD v k x y : in_span v k x -> in_span v k y -> in_span v k (x + y).
Proof.
move=> [c ->] [d ->]; exists (fun i => c i + d i); rewrite -big_split /=.
by apply: eq_bigr => i _; rewrite scalerDl.
Qed.
Lemma spanN v k x : in_span v k x -> in_span v k (- x).
Proof. by rewrite -scaleN1r; apply: spanZ. Qed.
Lemma spanB v k x y : in_span v k x -> in_span v k y -> in_span v k (x - y).
Proof. by move=> h1 h2; apply: spanD => //; apply: spanN. Qed.
Lemma span_sum v k (I : Type) (r : seq I) (P : pred I) (F : I -> vec) :
  (forall i, P i -> in_span v k (F i)) -> in_span v k (\sum_(i <- r | P i) F i).
Proof. by move=> h; apply: big_ind => //; [exact: span0|exact: spanD]. Qed.
Lemma span_mem v k i : (i < k)%N -> in_span v k (v i).
Proof.
move=> hi; exists (fun j => (j == i)%:R); rewrite (bigD1 (Ordinal hi)) //= eqxx scale1r.
rewrite big1 ?addr0 // => j ne; rewrite (_ : (j == i :> nat) = false) ?scale0r //.
by apply/negbTE; apply: contra ne => /eqP e; apply/eqP/val_inj.
Qed.
Lemma span_trans v k w l x : in_span v k x -> (forall i, (i < k)%N -> in_span w l (v i)) ->
  in_span w l x.
Proof. by move=> [c ->] h; apply: span_sum => i _; apply: spanZ; apply: h. Qed.
Lemma span_widen v k l x : (k <= l)%N -> in_span v k x -> in_span v l x.
Proof.
by move=> h hx; apply: span_trans hx _ => i hi; apply: span_mem; apply: leq_trans h.
Qed.
Lemma span_ext v w k x : (forall i, (i < k)%N -> v i = w i) -> in_span v k x -> in_span w k x.
Proof. by move=> h [c ->]; exists c; apply: eq_bigr => i _; rewrite h. Qed.
Lemma span_map v k (f : vec -> vec) x : is_linear f -> in_span v k x ->
  in_span (fun i => f (v i)) k (f x).
Proof.
move=> hf [c ->]; exists c; rewrite (lin_sum hf); apply: eq_bigr => i _.
by rewrite (linZ hf).
Qed.

(** More than N vectors are dependent, so an orthonormal family has at most N members. *)
Lemma ortho_size (ip : vec -> vec -> C) v k : is_ip ip -> orthonormal ip v k -> (k <= N)%N.
Proof.
move=> hip ho.
pose X : 'M[C]_(k, N) := \matrix_(i, j) v i j 0.
have fr : row_free X.
  apply/row_freeP; exists (\matrix_(a, j) ip (v j) (delta_mx a 0)).
  apply/matrixP=> i j; rewrite !mxE.
  rewrite [LHS](_ : _ = ip (v j) (v i)); last first.
    rewrite [in RHS](matrix_sum_delta (v i)) (ip_sumr hip); apply: eq_bigr => a _.
    by rewrite big_ord1 !mxE (ipZr hip).
  by rewrite ho // eq_sym.
by move: fr; rewrite /row_free => /eqP<-; apply: rank_leq_col.
Qed.

End Span.
