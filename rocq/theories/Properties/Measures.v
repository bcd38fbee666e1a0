(** C67, C68: the measures norm, orthonormality, arnoldi_res and norm_MMlr for blocks of vectors. *)
From mathcomp Require Import all_ssreflect all_algebra.
From Verif Require Import Base Spec.LinAlg Proof.Algebra Proof.IpTheory Model.Inner Spec.Inner Proof.Inner Proof.Qr
  Model.Deflation Spec.Deflation Proof.Deflation Model.DeflRitz Proof.DeflRitz Proof.Ritz Model.Arnoldi Spec.Arnoldi Proof.ArnoldiRel Proof.Arnoldi
  Proof.HouseArnoldi Proof.ArnoldiAll Proof.ArnoldiExample Properties.Arnoldi Model.Measures Spec.Measures Proof.Measures.

Set Implicit Arguments.
Unset Strict Implicit.
Unset Printing Implicit Defensive.
Import Order.TTheory GRing.Theory Num.Theory.
Local Open Scope ring_scope.

(** Reading guide.  [block_norm ip X t]: t is the largest value of ||X c|| over the c with Euclidean norm 1 (and is
    attained).  [nrm_ok nrm X]: the oracle numpy.linalg.norm(., 2) gives this number for the matrix X in the Euclidean
    norm, if X is not empty.  [ip1 B] is the inner product ip_B; [imcols A V] is the matrix with the columns A V_j. *)
Section Properties.
Variable C : numClosedFieldType.
Variable nrm : forall m n, 'M[C]_(m, n) -> C.
Variable N : nat.
Local Notation vec := 'cV[C]_N.
Variable B : ipB C N.
Hypothesis hB : valid_ip B.

(** C67.  norm(X, ip_B) of a nonempty block is the norm of X as a map into the space with the inner product ip_B; no error
    is raised. *)
Theorem C67_norm_block n (X : 'M[C]_(N, n)) : (0 < N)%N -> (0 < n)%N -> nrm_ok nrm X -> nrm_ok nrm (inner B X X) ->
  exists2 t, norm_block nrm X B = Ok t & block_norm (ip1 B) X t.
Proof.
move=> N0 n0 hX hG; have main := gram_norm hB (hG n0 n0); have := norm_blockE hB X nrm N0 n0.
by case: (B) main => [|B'|f] main ->; eexists=> //; apply: hX.
Qed.

(** An empty block raises ValueError. *)
Theorem C67_norm_empty (X : 'M[C]_(N, 0)) : norm_block nrm X B = Err ValueError.
Proof. exact: norm_block_err. Qed.

(** For a single column it is the norm of the vector. *)
Theorem C67_single (x : vec) : (0 < N)%N -> nrm_ok nrm x -> nrm_ok nrm (inner B x x) ->
  norm_block nrm x B = Ok (ipnorm (ip1 B) x).
Proof.
move=> N0 hX hG; have [t -> ht] := C67_norm_block N0 (ltn0Sn 0) hX hG.
congr Ok; apply: (block_norm_uniq ht); apply: (block_norm_col (valid_is_ip hB) (k := 0)).
rewrite trmx_delta; have -> : delta_mx 0 0 = 1%:M :> 'M[C]_1; last by rewrite mulmx1.
by apply/matrixP => i j; rewrite !ord1 !mxE.
Qed.

(** orthonormality(V, ip_B) is the smallest t with |<V c, V d> - <c, d>| <= t ||c|| ||d|| for all coefficients c, d; it is 0
    exactly if the columns are orthonormal. *)
Theorem C67_orthonormality n (V : 'M[C]_(N, n)) : (0 < n)%N -> nrm_ok nrm (1%:M - inner B V V) ->
  exists t, [/\ orthonormality nrm V B = Ok t,
    0 <= t,
    t = 0 <-> (forall i j, ip1 B (col i V) (col j V) = (i == j)%:R),
    forall c d, `|ip1 B (V *m c) (V *m d) - ipE c d| <= t * ipnorm (@ipE C n) c * ipnorm (@ipE C n) d
  & exists c d, [/\ c != 0, d != 0 & `|ip1 B (V *m c) (V *m d) - ipE c d| = t * ipnorm (@ipE C n) c * ipnorm (@ipE C n) d]].
Proof.
move=> n0 hG; have hn := hG n0 n0; have hE := ipE_ip C n.
set D := 1%:M - inner B V V in hG hn *.
have dE (c d : 'cV[C]_n) : ip1 B (V *m c) (V *m d) - ipE c d = - ipE c (D *m d).
  by rewrite (gram_ip hB) -(ipBr hE) -(ipNr hE) /D mulmxBl mul1mx opprB.
exists (nrm D); have [t0 t1 [c c0 ce]] := hn; split=> //.
- by rewrite /orthonormality /np_norm orbb eqn0Ngt n0.
- have -> : (nrm D = 0) <-> (nrm D == 0) by split=> [->|/eqP].
  rewrite (block_norm0 hE hn) /D subr_eq0; split=> [/eqP e i j|e].
    by rewrite -(inner_entry hB) -e mxE.
  by apply/eqP/matrixP => i j; rewrite (inner_entry hB) e mxE.
- move=> c' d; rewrite dE normrN; apply: le_trans (cauchy_schwarz hE _ _) _.
  by rewrite [leRHS]mulrAC [leRHS]mulrC ler_wpmul2l ?(ipnorm_ge0 hE) // t1.
case: (eqVneq (nrm D) 0) => [e|e].
  have D0 : D = 0 by apply/eqP; rewrite -(block_norm0 hE hn) e.
  by exists c, c; split=> //; rewrite dE D0 mul0mx (ipr0 hE) oppr0 normr0 -D0 e !mul0r.
exists (D *m c), c; split=> //; first by rewrite -(ipnorm_eq0 hE) ce mulf_neq0 ?(ipnorm_eq0 hE).
by rewrite dE normrN -ipnorm_sq normrX ger0_norm ?(ipnorm_ge0 hE) // expr2 {2}ce mulrCA mulrA.
Qed.

(** arnoldi_res(A, V, H, ip_B) measures A V_q - V H, where V_q are the first q columns of V and H has q columns: it is the
    norm of this block, 0 exactly if the Arnoldi relation holds.  V has q or q + 1 columns. *)
Theorem C67_arnoldi_res (A : vec -> vec) n q (V : 'M[C]_(N, n)) (H : 'M[C]_(n, q)) :
  let R := imcols A (cols q V) - V *m H in
  (0 < N)%N -> (0 < q)%N -> n = q \/ n = q.+1 -> nrm_ok nrm R -> nrm_ok nrm (inner B R R) ->
  exists t, [/\ arnoldi_res nrm A V H B = Ok t, block_norm (ip1 B) R t
    & t = 0 <-> imcols A (cols q V) = V *m H].
Proof.
move=> R N0 q0 hn hR hG; have [t e ht] := C67_norm_block N0 q0 hR hG; exists t; split=> //.
  rewrite -e /arnoldi_res; case h: (n == q) => //.
  by case h2: (n.-1 == q) => //; move: h h2; case: hn => ->; rewrite /= eqxx.
have -> : (t = 0) <-> (t == 0) by split=> [->|/eqP].
by rewrite (block_norm0 (valid_is_ip hB) ht) subr_eq0; split=> [/eqP|->].
Qed.

(** Other shapes raise ValueError. *)
Theorem C67_arnoldi_shapes (A : vec -> vec) n q (V : 'M[C]_(N, n)) (H : 'M[C]_(n, q)) :
  n <> q -> n <> q.+1 -> arnoldi_res nrm A V H B = Err ValueError.
Proof.
move=> h1 h2; rewrite /arnoldi_res; case: eqP => // _; case: eqP => // e.
by exfalso; move: h1 h2; rewrite -e; case: (n).
Qed.
End Properties.

(** What the measures give for the result of the Arnoldi process without preconditioner: V is orthonormal, so that
    orthonormality is 0; arnoldi_res is 0 if no invariant subspace was flagged, and otherwise the neglected entry
    H_(n,n-1), which is not in the returned matrix H.  [Vm], [Hm]: the arrays returned by get(), with [arn_get a]
    columns, rows and columns. *)
Section Run.
Variable C : numClosedFieldType.
Variable nrm : forall m n, 'M[C]_(m, n) -> C.
Variable N : nat.
Local Notation vec := 'cV[C]_N.
Variable snorm : nat -> nat -> (nat -> nat -> C) -> C.
Variables (c : acfg C N) (v : vec) (Mv : option vec) (nv : option C) (a : arn C N).
Hypothesis hc : arn_cfg c.
Hypothesis hi : init_args c v Mv nv.
Hypothesis hM : cM c = None.
Hypothesis ha : arnoldi snorm c v Mv nv = Ok a.
Hypothesis h0 : (0 < a_iter a)%N.

Let m := (arn_get a).1.1.
Let n := (arn_get a).2.
Let Vm : 'M[C]_(N, m) := \matrix_(i, j) a_V a j i 0.
Let Hm : 'M[C]_(m, n) := \matrix_(i, j) a_H a i j.
Let R := imcols (cA c) (cols n Vm) - Vm *m Hm.

Let hB : valid_ip (cB c).
Proof. by case: hc => [/gs_B//|[h _]]; rewrite (hc_B h). Qed.
Let nm : (n <= m)%N.
Proof. by rewrite /n /m /arn_get; case: (a_inv a) => //=; rewrite ltnW. Qed.
Let VmE (k : 'I_m) : col k Vm = a_V a k.
Proof. by apply/matrixP => i j; rewrite ord1 !mxE. Qed.
Let PbE : Pb c a = a_V a.
Proof. by rewrite /Pb /sub_basis hM. Qed.
Let RE (j : 'I_n) : col j R = cA c (a_V a j) - \sum_(i < m) a_H a i j *: a_V a i.
Proof.
rewrite /R linearB /=; congr (_ - _).
  apply/matrixP => i k; rewrite !ord1 !mxE; congr (cA c _ i 0); rewrite (cols_firstn nm).
  by apply/matrixP => i' k'; rewrite !ord1 !mxE.
apply/matrixP => i k; rewrite !ord1 !mxE summxE; apply: eq_bigr => l _.
by rewrite !mxE mulrC.
Qed.

Let run : exists a0 k, [/\ arn_init c v Mv nv = Ok a0, arn_advance_n snorm c k a0 = Ok a, a_iter a = k,
  m = (k + ~~ a_inv a)%N & n = k].
Proof.
have [a0 [k [E0 E1]]] := C13_arnoldi_function ha; exists a0, k.
have [ek _] := C13_arnoldi_relation hc hi E0 E1; split=> //; rewrite /m /n /arn_get ek.
  by case: (a_inv a); rewrite ?addn0 ?addn1.
by case: (a_inv a).
Qed.

Lemma run_D0 : 1%:M - inner (cB c) Vm Vm = 0.
Proof.
have [a0 [k [E0 E1 ek em en]]] := run; have [on _] := C14_orthonormal hc hi E0 E1.
apply/matrixP => i j; rewrite mxE mxE [X in _ + X]mxE (inner_entry hB) !VmE.
by have := on i j; rewrite PbE -em => h; rewrite [ip1 _ _ _]h // subrr mxE.
Qed.

Lemma run_R0 : a_inv a = false -> R = 0.
Proof.
have [a0 [k [E0 E1 ek em en]]] := run; move=> hinv; apply/matrixP => i j.
transitivity (col j R i 0); first by rewrite [RHS]mxE.
have [z _ _ _] := C13_matrix_form hc hi E0 E1 hinv.
have jk : (j < k)%N by rewrite -en.
by rewrite RE z // PbE em hinv addn1 subrr !mxE.
Qed.

Theorem C67_arnoldi_run : nrm_ok nrm (1%:M - inner (cB c) Vm Vm) -> nrm_ok nrm R -> nrm_ok nrm (inner (cB c) R R) ->
  orthonormality nrm Vm (cB c) = Ok 0 /\
  arnoldi_res nrm (cA c) Vm Hm (cB c) = Ok (if a_inv a then a_H a (a_iter a) (a_iter a).-1 else 0).
Proof.
move=> hO hR hG; have [a0 [k [E0 E1 ek em en]]] := run.
have [_ mN] := C14_orthonormal hc hi E0 E1.
have k0 : (0 < k)%N by rewrite -ek.
have m0 : (0 < m)%N by rewrite em addn_gt0 k0.
have N0 : (0 < N)%N by apply: leq_trans mN; rewrite -em.
have ip0 := valid_is_ip hB.
split.
  have [t [-> _ [_ t0] _ _]] := C67_orthonormality hB m0 hO; congr Ok; apply: t0 => i j.
  rewrite -(inner_entry hB); have /eqP := run_D0; rewrite subr_eq0 => /eqP <-.
  by rewrite mxE.
have n0 : (0 < n)%N by rewrite en.
have [|t [-> ht t0]] := C67_arnoldi_res hB N0 n0 _ hR hG.
  by rewrite em en; case: (a_inv a); rewrite ?addn0 ?addn1; [left|right].
congr Ok; case hinv: (a_inv a).
  have [k' ek'] : exists k', k = k'.+1 by case: (k) k0 => // k' _; exists k'.
  have [z [w [w1 w2 w3]]] := C13_truncated hc hi E0 E1 hinv ek'.
  have em' : m = k'.+1 by rewrite em hinv addn0.
  have hk : (k' < n)%N by rewrite en ek'.
  rewrite ek ek' /= -ek' -w2; apply: (block_norm_uniq ht).
  have -> : ipnorm (cmip c) w = ipnorm (ip1 (cB c)) w by rewrite /ipnorm /cmip /mip /Mop hM.
  have cR (j : 'I_n) : col j R = ((j : nat) == k')%:R *: w.
    have sE l : \sum_(i < m) a_H a i l *: a_V a i = \sum_(i < k) a_H a i l *: Pb c a i.
      by rewrite PbE em' ek'.
    rewrite RE sE; case: (eqVneq (j : nat) k') => [e|ne].
      by rewrite e w1 addrAC subrr add0r scale1r.
    have jk : (j < k')%N by rewrite ltn_neqAle ne -ltnS -ek' -[X in (_ < X)%N]en ltn_ord.
    by rewrite z // subrr scale0r.
  apply: (block_norm_col ip0 (k := Ordinal hk)); rewrite -/R; apply/matrixP => i j.
  transitivity (col j R i 0); first by rewrite [RHS]mxE.
  by rewrite cR [LHS]mxE mxE big_ord1 !mxE mulrC andbT.
by apply: t0.2; apply/eqP; rewrite -subr_eq0; apply/eqP/run_R0.
Qed.
End Run.

(** C68.  norm_MMlr(M, Ml, A, Mr, b, x0, yk) is documented to return the residual norms together with the approximation
    xk = x0 + Mr yk; it raises TypeError for all data except those with Ml (b - A xk) = 0, because it calls norm with an
    argument which norm does not have. *)
Section MMlr.
Variable C : numClosedFieldType.
Variable N : nat.
Local Notation vec := 'cV[C]_N.
Variables (M Ml A Mr : vec -> vec) (b x0 yk : vec).

Theorem C68_norm_MMlr_refuted : Ml (b - A (x0 + Mr yk)) <> 0 ->
  norm_MMlr M Ml A Mr b x0 yk = Err TypeError.
Proof. by move=> h; rewrite /norm_MMlr norm2_eq0; case: eqP. Qed.

Theorem C68_norm_MMlr_zero : Ml (b - A (x0 + Mr yk)) = 0 ->
  norm_MMlr M Ml A Mr b x0 yk = Ok (x0 + Mr yk, 0, 0, 0).
Proof. by move=> h; rewrite /norm_MMlr norm2_eq0 h eqxx. Qed.
End MMlr.

(** Non-vacuity.  Every nonempty matrix has a norm as required of the oracle. *)
Example C67_oracle (C : numClosedFieldType) m n (X : 'M[C]_(m, n)) : (0 < n)%N -> exists t, block_norm (@ipE C m) X t.
Proof. exact: block_norm_ex. Qed.

(** A = [[0,1],[1,0]], v = e_0, one step, every variant: the run succeeds, no invariant subspace is flagged, and the oracle
    that gives 0 is right for the three matrices of C67_arnoldi_run. *)
Example C67_run (C : numClosedFieldType) o : o <> OrthoOther ->
  let c := swap_cfg C o 1 in let z : forall m n, 'M[C]_(m, n) -> C := fun _ _ _ => 0 in
  exists a, [/\ arnoldi (@frob C) c (e0 C) None None = Ok a, a_iter a = 1%N, a_inv a = false &
    let Vm : 'M[C]_(2, (arn_get a).1.1) := \matrix_(i, j) a_V a j i 0 in
    let Hm : 'M[C]_((arn_get a).1.1, (arn_get a).2) := \matrix_(i, j) a_H a i j in
    let R := imcols (cA c) (cols (arn_get a).2 Vm) - Vm *m Hm in
    [/\ nrm_ok z (1%:M - inner (cB c) Vm Vm), nrm_ok z R & nrm_ok z (inner (cB c) R R)]].
Proof.
move=> ho c z; have [hc [hi [_ [a0 [a [E0 E1 inv]]]]]] := C13_C18_run C ho (ltn0Sn 0).
have [ek _] := C13_arnoldi_relation hc hi E0 E1.
have E2 : arnoldi (@frob C) c (e0 C) None None = Ok a.
  have E : arn_advance_n (@frob C) c 0 a0 = Ok a0 by [].
  have [i0 [_ v0]] := C13_arnoldi_relation hc hi E0 E; rewrite (negbTE (e0_nz C)) in v0.
  by rewrite /arnoldi E0 /= i0 v0 /=; move: E1 => /= ->; rewrite /= ek.
have z0 m n (X : 'M[C]_(m, n)) : X = 0 -> nrm_ok z X.
  move=> -> _ n0; have hm := ipE_ip C m; split=> //.
    by move=> x; rewrite mul0mx (ipnorm0 hm) mul0r.
  exists (const_mx 1); last by rewrite mul0mx (ipnorm0 hm) mul0r.
  by apply/eqP => /matrixP/(_ (Ordinal n0) 0)/eqP; rewrite !mxE oner_eq0.
exists a; split=> // Vm Hm R; have R0 : R = 0 by apply: (run_R0 hc hi _ E2).
split; apply: z0 => //; first exact: (run_D0 hc hi (erefl _) E2).
by rewrite R0 /= mulmx0.
Qed.

(** The columns (1,0), (1,0): orthonormality is 1, the norm of [[0,-1],[-1,0]]. *)
Example C67_not_orthonormal (C : numClosedFieldType) (V : 'M[C]_2) : V = \matrix_(i, j) (i == 0)%:R ->
  nrm_ok (fun _ _ _ => 1) (1%:M - inner IpNone V V) /\
  orthonormality (fun _ _ _ => 1) V IpNone = Ok 1.
Proof.
move=> e; split=> // _ _; have hE := ipE_ip C 2.
have D (c : 'cV[C]_2) : (1%:M - inner IpNone V V) *m c = \col_i - c (rev_ord i) 0.
  rewrite e; apply/matrixP => i j; rewrite ord1 !mxE /inner tconjE !big_ord_recl big_ord0 !mxE !big_ord_recl !big_ord0 !mxE.
  case: i => -[|[|//]] hi; rewrite /= ?conjC1 ?conjC0 ?mulr1 ?mulr0 ?addr0 ?subrr ?mul0r ?add0r ?sub0r ?mulN1r ?addr0; congr (- c _ _); exact: val_inj.
have nD (c : 'cV[C]_2) : ipnorm (@ipE C 2) ((1%:M - inner IpNone V V) *m c) = ipnorm (@ipE C 2) c.
  rewrite D /ipnorm /ipE !mxE; congr sqrtC; rewrite (reindex_inj rev_ord_inj) /=.
  by apply: eq_bigr => i _; rewrite !mxE rev_ordK rmorphN mulrNN.
split; rewrite ?ler01 //; first by move=> c; rewrite nD mul1r.
exists (const_mx 1); last by rewrite nD mul1r.
by apply/eqP => /matrixP/(_ 0 0)/eqP; rewrite !mxE oner_eq0.
Qed.

(** C68: b = 1, A = 1, x0 = yk = 0. *)
Example C68_case (C : numClosedFieldType) :
  norm_MMlr id id id id (1%:M : 'cV[C]_1) 0 0 = Err TypeError.
Proof.
apply: C68_norm_MMlr_refuted; rewrite addr0 subr0 => /matrixP/(_ 0 0)/eqP.
by rewrite !mxE oner_eq0.
Qed.

Print Assumptions C67_norm_block.
Print Assumptions C67_norm_empty.
Print Assumptions C67_single.
Print Assumptions C67_orthonormality.
Print Assumptions C67_arnoldi_res.
Print Assumptions C67_arnoldi_shapes.
Print Assumptions C67_arnoldi_run.
Print Assumptions C68_norm_MMlr_refuted.
Print Assumptions C68_norm_MMlr_zero.
