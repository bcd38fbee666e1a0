(** Norms of blocks. *)
From mathcomp Require Import all_ssreflect all_algebra.
From Verif Require Import Base Spec.LinAlg Proof.Algebra Proof.IpTheory Model.Inner Spec.Inner Proof.Inner Proof.Qr Proof.DeflRitz Proof.Ritz Proof.Eigen.
From Verif Require Import Model.Measures Spec.Measures.

Set Implicit Arguments.
Unset Strict Implicit.
Unset Printing Implicit Defensive.
Import Order.TTheory GRing.Theory Num.Theory.
Local Open Scope ring_scope.

Section CS.
Variable C : numClosedFieldType.
Variable N : nat.
Variable ip : 'cV[C]_N -> 'cV[C]_N -> C.
Hypothesis hip : is_ip ip.

Lemma cauchy_schwarz x y : `|ip x y| <= ipnorm ip x * ipnorm ip y.
Proof.
case: (eqVneq x 0) => [->|x0]; first by rewrite (ipl0 hip) normr0 mulr_ge0 ?(ipnorm_ge0 hip).
have xx : ip x x != 0 by rewrite (ip_eq0 hip).
have xg : 0 < ip x x by rewrite lt_def xx (ip_ge0' hip).
pose a := ip x y / ip x x; pose z := y - a *: x.
have xz : ip x z = 0 by rewrite /z (ipBr hip) (ipZr hip) /a divfK // subrr.
have yy : ip y y = `|a| ^+ 2 * ip x x + ip z z.
  have -> : y = a *: x + z by rewrite /z addrCA subrr addr0.
  rewrite (pythagoras hip); last by rewrite (ipZl hip) xz mulr0.
  by rewrite (ipZl hip) (ipZr hip) mulrA normCKC.
rewrite -(@ler_pexpn2r _ 2) ?nnegrE ?mulr_ge0 ?(ipnorm_ge0 hip) //.
rewrite exprMn !ipnorm_sq yy mulrDr.
have -> : ip x x * (`|a| ^+ 2 * ip x x) = `|ip x y| ^+ 2.
  by rewrite mulrC -mulrA -expr2 -exprMn -{1}(ger0_norm (ltW xg)) -normrM /a divfK.
by rewrite ler_addl mulr_ge0 ?(ip_ge0' hip) // ltW.
Qed.
End CS.

Section Block.
Variable C : numClosedFieldType.
Variable N n : nat.
Variable B : ipB C N.
Hypothesis hB : valid_ip B.
Variable X : 'M[C]_(N, n).
Let hip := valid_is_ip hB.
Let hE := ipE_ip C n.
Local Notation G := (inner B X X).

Lemma gram_ip c d : ip1 B (X *m c) (X *m d) = ipE c (G *m d).
Proof. by rewrite ip1X (innerMl hB) (innerMr hB) mulmxA -mulmxA. Qed.

Lemma norm_blockE nrm : (0 < N)%N -> (0 < n)%N ->
  norm_block nrm X B = Ok (if B is IpNone then nrm _ _ X else sqrtC (nrm _ _ G)).
Proof.
move=> N0 n0; have e0 : (n == 0%N) = false by case: (n) n0.
have eN : (N == 0%N) = false by case: (N) N0.
have im : norm2 (\col_i 'Im (G i i)) = 0.
  rewrite /norm2 big1 ?sqrtC0 // => i _; rewrite mxE (inner_entry hB).
  have : ip1 B (col i X) (col i X) \is Num.real by apply: ger0_real; apply: (ip_ge0' hip).
  by move=> h; rewrite (Creal_ImP _ h) normr0 expr0n.
have pos : (norm2 (\col_i G i i) * eps10 C < norm2 (\col_i 'Im (G i i))) = false.
  rewrite im; apply/negbTE; rewrite -real_leNgt ?ger0_real ?mulr_ge0 ?invr_ge0 ?exprn_ge0 ?ler0n //.
    by rewrite sqrtC_ge0 sumr_ge0 // => i _; rewrite exprn_ge0.
  by rewrite sqrtC_ge0 sumr_ge0 // => i _; rewrite exprn_ge0.
by move: pos; rewrite /norm_block /np_norm e0 eN; case: (B) => [|B'|f] //= ->.
Qed.

Lemma norm_block_err nrm : n = 0%N -> norm_block nrm X B = Err ValueError.
Proof.
move=> e; have n0 : n == 0%N by rewrite e.
have z F : norm2 (\col_(i < n) F i) = 0 :> C.
  by rewrite /norm2 big1 ?sqrtC0 // => -[i hi]; exfalso; rewrite e in hi.
by rewrite /norm_block /np_norm n0 orbT !z mul0r ltxx; case: (B).
Qed.

(** The norm of the block is the square root of the norm of the Gram matrix. *)
Lemma gram_norm t : block_norm (@ipE C n) G t -> block_norm (ip1 B) X (sqrtC t).
Proof.
move=> [t0 tle [c c0 ce]]; have s0 : 0 <= sqrtC t by rewrite sqrtC_ge0.
have le d : ipnorm (ip1 B) (X *m d) <= sqrtC t * ipnorm (@ipE C n) d.
  rewrite -(@ler_pexpn2r _ 2) ?nnegrE ?mulr_ge0 ?(ipnorm_ge0 hip) ?(ipnorm_ge0 hE) //.
  rewrite ipnorm_sq exprMn sqrtCK gram_ip.
  have r0 : 0 <= ipE d (G *m d) by rewrite -gram_ip (ip_ge0' hip).
  rewrite -(ger0_norm r0); apply: (le_trans (cauchy_schwarz hE _ _)).
  by rewrite expr2 mulrCA ler_wpmul2l ?(ipnorm_ge0 hE).
split=> //; exists c => //; apply/eqP; rewrite eq_le le /=.
case: (eqVneq t 0) => [->|tn]; first by rewrite sqrtC0 mul0r (ipnorm_ge0 hip).
have tg : 0 < t by rewrite lt_def tn.
have cg : 0 < ipnorm (@ipE C n) c by rewrite (ipnorm_gt0 hE).
have gg : 0 < ipnorm (@ipE C n) (G *m c) by rewrite ce mulr_gt0.
have h : ipnorm (@ipE C n) (G *m c) <= ipnorm (ip1 B) (X *m c) * sqrtC t.
  rewrite -(ler_pmul2r gg) -expr2 ipnorm_sq -gram_ip -[ip1 _ _ _]ger0_norm; last first.
    by rewrite gram_ip (ip_ge0' hE).
  by apply: (le_trans (cauchy_schwarz hip _ _)); rewrite mulrC -mulrA ler_wpmul2l ?(ipnorm_ge0 hip).
have sg : 0 < sqrtC t by rewrite sqrtC_gt0.
by rewrite -(ler_pmul2r sg) mulrAC -expr2 sqrtCK -ce.
Qed.
End Block.

Section Unique.
Variable C : numClosedFieldType.
Variable N n : nat.
Variable ip : 'cV[C]_N -> 'cV[C]_N -> C.
Hypothesis hip : is_ip ip.
Implicit Type X : 'M[C]_(N, n).
Let hE := ipE_ip C n.

Lemma block_norm_le X t u : block_norm ip X t -> 0 <= u ->
  (forall c, ipnorm ip (X *m c) <= u * ipnorm (@ipE C n) c) -> t <= u.
Proof.
move=> [_ _ [c c0 ce]] _ /(_ c); rewrite ce ler_pmul2r //.
by rewrite (ipnorm_gt0 hE).
Qed.

Lemma block_norm_uniq X t u : block_norm ip X t -> block_norm ip X u -> t = u.
Proof.
move=> ht hu; have [t0 t1 _] := ht; have [u0 u1 _] := hu; apply/eqP; rewrite eq_le.
by rewrite (block_norm_le ht u0 u1) (block_norm_le hu t0 t1).
Qed.

Lemma block_norm0 X t : block_norm ip X t -> (t == 0) = (X == 0).
Proof.
move=> ht; have [t0 t1 [c c0 ce]] := ht; apply/eqP/eqP => [e|e].
  apply/matrixP => i j; rewrite mxE; have := t1 (delta_mx j 0).
  rewrite e mul0r => h; have : ipnorm ip (X *m delta_mx j 0) == 0 by rewrite eq_le h (ipnorm_ge0 hip).
  by rewrite (ipnorm_eq0 hip) -colE => /eqP/matrixP/(_ i 0); rewrite !mxE.
have : t * ipnorm (@ipE C n) c = 0 by rewrite -ce e mul0mx (ipnorm0 hip).
move/eqP; rewrite mulf_eq0 (ipnorm_eq0 hE) (negbTE c0) orbF => /eqP.
by [].
Qed.

(** A block with one nonzero column *)
Lemma block_norm_col X (k : 'I_n) w : X = w *m (delta_mx k 0)^T -> block_norm ip X (ipnorm ip w).
Proof.
have hd c : w *m (delta_mx k 0)^T *m c = c k 0 *: w.
  rewrite -mulmxA; have -> : (delta_mx k 0)^T *m c = (c k 0)%:M :> 'M_1.
    by rewrite trmx_delta -rowE; apply/matrixP => i j; rewrite !ord1 !mxE eqxx.
  by rewrite mul_mx_scalar.
have cE (c : 'cV[C]_n) : `|c k 0| <= ipnorm (@ipE C n) c.
  rewrite -(@ler_pexpn2r _ 2) ?nnegrE ?normr_ge0 ?(ipnorm_ge0 hE) // ipnorm_sq.
  rewrite /ipE mxE (bigD1 k) //= !mxE -normCKC ler_addl sumr_ge0 // => i _.
  by rewrite !mxE -normCKC exprn_ge0.
move=> ->; split; first exact: ipnorm_ge0.
  by move=> c; rewrite hd (ipnormZ hip) mulrC ler_wpmul2l ?(ipnorm_ge0 hip).
exists (delta_mx k 0); first by apply/eqP => /matrixP/(_ k 0); rewrite !mxE !eqxx => /eqP; rewrite oner_eq0.
rewrite hd mxE !eqxx scale1r.
have -> : ipnorm (@ipE C n) (delta_mx k 0) = 1; last by rewrite mulr1.
rewrite /ipnorm /ipE mxE (bigD1 k) //= big1 ?addr0.
  by rewrite !mxE !eqxx conjC1 mulr1 sqrtC1.
by move=> i ik; rewrite !mxE (negbTE ik) /= mulr0.
Qed.
End Unique.

Section Exists.
Variable C : numClosedFieldType.

Lemma real_max n (d : nat -> C) : (0 < n)%N -> (forall j, (j < n)%N -> d j \is Num.real) ->
  exists2 k, (k < n)%N & forall j, (j < n)%N -> d j <= d k.
Proof.
case: n => // n _; elim: n => [|n IH] hr; first by exists 0%N => // -[].
have [|k kn hk] := IH; first by move=> j jn; apply: hr; rewrite ltnW.
have rk : d k \is Num.real by apply: hr; rewrite ltnW.
have rn : d n.+1 \is Num.real by apply: hr.
case/orP: (real_leVge rk rn) => h.
  exists n.+1 => // j; rewrite ltnS leq_eqVlt => /orP[/eqP->//|jn]; exact: le_trans (hk _ jn) h.
exists k; first by rewrite ltnW.
by move=> j; rewrite ltnS leq_eqVlt => /orP[/eqP->//|jn]; apply: hk.
Qed.

(** The spectral norm exists. *)
Lemma block_norm_ex m n (X : 'M[C]_(m, n)) : (0 < n)%N -> exists t, block_norm (@ipE C m) X t.
Proof.
move=> n0; have hE := ipE_ip C n; have hm := ipE_ip C m; pose G := X^h *m X.
have GE c d : ipE (X *m c) (X *m d) = ipE c (G *m d) by rewrite /ipE /G ctrM !mulmxA.
have lG : is_linear (fun x : 'cV[C]_n => G *m x) by move=> a x y; rewrite mulmxDr -scalemxAr.
have sG : self_adjoint (@ipE C n) (fun x => G *m x).
  by move=> x y; rewrite -GE (ipC hE) -GE -(ipC hm).
have [v [d [ov hv sp]]] := eigenbasis hE lG sG.
have [j jn|k kn hk] := real_max (d := d) n0; first by have [] := hv j jn.
have dj j : (j < n)%N -> d j = ipE (X *m v j) (X *m v j).
  by move=> jn; rewrite GE; have [-> _] := hv j jn; rewrite (ipZr hE) ov // eqxx mulr1.
have d0 : 0 <= d k by rewrite dj // (ip_ge0' hm).
have s0 : 0 <= sqrtC (d k) by rewrite sqrtC_ge0.
exists (sqrtC (d k)); split=> //.
  move=> c; have [q ->] := sp c; rewrite -(@ler_pexpn2r _ 2) ?nnegrE ?mulr_ge0 ?(ipnorm_ge0 hm) ?(ipnorm_ge0 hE) //.
  rewrite exprMn !ipnorm_sq sqrtCK GE mulmx_sumr.
  have -> : \sum_(i < n) G *m (q i *: v i) = \sum_(i < n) (q i * d i) *: v i.
    by apply: eq_bigr => i _; rewrite -scalemxAr; have [-> _] := hv i (ltn_ord i); rewrite scalerA.
  pose q' i := q i * d i; rewrite (ortho_ip hE q q' ov) (ortho_ip hE q q ov) mulr_sumr.
  apply: ler_sum => i _; rewrite /q' mulrA -!normCKC [leRHS]mulrC.
  rewrite ler_wpmul2l ?exprn_ge0 ?normr_ge0 //; exact: (hk i (ltn_ord i)).
exists (v k); first by rewrite -(ipnorm_gt0 hE) /ipnorm ov // eqxx sqrtC1 ltr01.
by rewrite /ipnorm ov // eqxx sqrtC1 mulr1 dj.
Qed.
End Exists.

Lemma norm2_eq0 (C : numClosedFieldType) N (x : 'cV[C]_N) : (norm2 x == 0) = (x == 0).
Proof.
have -> : norm2 x = ipnorm (@ipE C N) x; last by rewrite (ipnorm_eq0 (ipE_ip C N)).
rewrite /norm2 /ipnorm /ipE mxE; congr sqrtC; apply: eq_bigr => i _.
by rewrite !mxE normCKC.
Qed.
