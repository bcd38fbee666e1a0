(** How many iterations plain and deflated solvers need. *)
From mathcomp Require Import all_ssreflect all_algebra.
From mathcomp Require Import ring.
From Verif Require Import Base Spec.LinAlg Model.Inner Spec.Inner Proof.Algebra Proof.Inner Proof.IpTheory.
From Verif Require Import Model.Arnoldi Spec.Arnoldi Proof.Arnoldi Proof.ArnoldiAll.
From Verif Require Import Model.Solver Spec.Solver Model.LinearSystem Model.Krylov Spec.Krylov Spec.Agree.
From Verif Require Import Proof.ArnoldiRel Proof.SolverInv Proof.Gmres Proof.LinearSystem Proof.CgTheory Proof.Cg Proof.Minres Proof.Rates Proof.Agree.
From Verif Require Import Model.Projection Spec.Projection Proof.Qr Model.Deflation Spec.Deflation Proof.Logged Proof.Deflation Spec.DeflAgree Spec.DeflCount Proof.DeflAgree.
From Verif Require Properties.Solver Properties.Deflation.

Set Implicit Arguments.
Unset Strict Implicit.
Unset Printing Implicit Defensive.
Import Order.TTheory GRing.Theory Num.Theory.
Local Open Scope ring_scope.

Section Count.
Variable C : numClosedFieldType.
Variable N : nat.
Local Notation vec := 'cV[C]_N.
Local Notation optimal := Properties.Deflation.defl_optimal.
Local Notation eoptimal := Properties.Deflation.defl_energy_optimal.
Variable l : lsys C N.
Hypothesis hl : lsys_ok l.
Local Notation A := (lMlAMr l).
Local Notation M := (lMop l).
Local Notation ip := (inner (lB l)).
Local Notation ip_ := (ip1 (lB l)).
Let hip : is_ip ip_ := valid_is_ip (lo_B hl).
Let lin := lMlAMr_lin hl.
Let linM := lo_M hl.
Let hmp := lmip hl.
Local Notation kr x := (in_krylov A M (resid l x)).

Lemma linMA : is_linear (fun v => M (A v)).
Proof. exact: lin_comp. Qed.

(** A sum of m eigenvectors is reached in the m-th Krylov space. *)
Lemma eigen_reach m r : eigen_sum l m r -> exists2 z, in_krylov A M r m z & A z = r.
Proof.
elim: m r => [|m IH] r [v [mu [er ev]]].
  by exists 0; [exact: span0|rewrite er big_ord0 (lin0 lin)].
have [mu0 em] := ev m (ltnSn m); pose r' := r - (mu m)^-1 *: A (M r).
have [z' k' e'] : exists2 z, in_krylov A M r' m z & A z = r'.
  apply: IH; exists (fun i => (1 - (mu m)^-1 * mu i) *: v i), mu; split.
    rewrite /r' er (lin_sum linM) (lin_sum lin) scaler_sumr -sumrB big_ord_recr /= em scalerA mulVf // scale1r subrr addr0.
    apply: eq_bigr => i _; have [_ ->] := ev i (ltnW (ltn_ord i)).
    by rewrite scalerBl scale1r scalerA.
  move=> i hi; have [h1 h2] := ev i (ltnW hi); split=> //.
  by rewrite (linZ linM) (linZ lin) h2 !scalerA mulrC.
exists (z' + (mu m)^-1 *: M r); last by rewrite (linD lin) e' (linZ lin) subrK.
apply: spanD; last by apply: spanZ; exact: (@span_mem _ _ _ _ 0).
apply: (span_trans k') => i hi.
have -> : krylov (fun x => M (A x)) (M r') i =
    krylov (fun x => M (A x)) (M r) i - (mu m)^-1 *: krylov (fun x => M (A x)) (M r) i.+1.
  rewrite /krylov iterSr; elim: (i) => [|j IHj]; first by rewrite /= (linB linM) (linZ linM).
  by rewrite iterS IHj (linB linMA) (linZ linMA).
by apply: spanB; [|apply: spanZ]; apply: span_mem => //; apply: ltnW.
Qed.

Section Deflated.
Variables (k : nat) (U : 'M[C]_(N, k)).
Hypothesis hu : ip U (imcols A U) \in unitmx.
Hypothesis hMr : forall c, lMr l (U *m c) = U *m c.
Local Notation P := (defl_P (lB l) A U).
Local Notation kd r := (in_krylov (fun v => P (A v)) M (P r)).

Lemma PE a : exists2 c, P a = a - A (U *m c) & c = invmx (ip U (imcols A U)) *m ip U a.
Proof. by eexists; last by []; rewrite /defl_P -mulmxA (imcols_vec lin). Qed.

Lemma P_lin : is_linear P.
Proof.
have hB := lo_B hl; move=> a u v; rewrite /defl_P.
have -> : ip U (a *: u + v) = a *: ip U u + ip U v.
  by rewrite innerDr // -mul_mx_scalar innerMr // mul_mx_scalar.
by rewrite mulmxDr -scalemxAr scalerBr opprD addrACA.
Qed.

Lemma P_AU c : P (A (U *m c)) = 0.
Proof.
have hB := lo_B hl; rewrite /defl_P -(imcols_vec lin) innerMr // -!mulmxA mulKmx //.
by rewrite subrr.
Qed.

Lemma resid_c x z c : resid l (x + lMr l z + U *m c) = resid l x - A (z + U *m c).
Proof. by rewrite -addrA -{1}(hMr c) -(linD (lo_Mr hl)) resid_update. Qed.

(** A residual that P annihilates can be corrected away. *)
Lemma P_reach x z : P (resid l x - A z) = 0 -> exists c, resid l (x + lMr l z + U *m c) = 0.
Proof.
have [c -> _] := PE (resid l x - A z); move=> h; exists c.
by rewrite resid_c (linD lin) opprD addrA.
Qed.

(** The dimension of the orthogonal complement of U. *)
Lemma dependent (w : nat -> vec) : (forall i, ip U (w i) = 0) ->
  exists2 c : nat -> C, exists2 j, (j <= N - k)%N & c j != 0 & \sum_(i < (N - k).+1) c i *: w i = 0.
Proof.
move=> hw; have hB := lo_B hl; set d := (N - k)%N.
pose G := ip U 1%:M; have GE v : ip U v = G *m v by rewrite /G -innerMr // mul1mx.
pose W : 'M[C]_(N, d.+1) := \matrix_(i, j) w j i 0.
have GW : G *m W = 0.
  apply/matrixP => i j; rewrite mxE [RHS]mxE.
  transitivity ((G *m w j) i 0); last by rewrite -GE hw mxE.
  by rewrite mxE; apply: eq_bigr => a _; rewrite mxE.
have rG : (k <= \rank G)%N.
  have : \rank (G *m imcols A U) = k.
    by apply: mxrank_unit; rewrite /G -innerMr // mul1mx.
  by move=> e; have := mxrankM_maxl G (imcols A U); rewrite e.
have rW : (\rank W^T < d.+1)%N.
  rewrite mxrank_tr ltnS /d leq_subRL; last by rewrite (leq_trans rG) // rank_leq_col.
  by apply: leq_trans (mulmx0_rank_max GW); rewrite leq_add2r.
have : kermx W^T != 0 by rewrite -mxrank_eq0 mxrank_ker -lt0n subn_gt0.
move=> /rowV0Pn[v /sub_kermxP hv v0].
exists (fun i => v 0 (inord i)).
  have /existsP[j hj] : [exists j, v 0 j != 0].
    rewrite -negb_forall; apply/negP => /forallP h; case/negP: v0; apply/eqP/rowP => j.
    by rewrite mxE; apply/eqP; exact: h.
  by exists j; [rewrite -ltnS; exact: (ltn_ord j)|rewrite inord_val].
have e : W *m v^T = 0 by apply: trmx_inj; rewrite trmx_mul trmxK trmx0.
transitivity (W *m v^T); last exact: e.
apply/colP => i; rewrite summxE [RHS]mxE; apply: eq_bigr => j _.
by rewrite !mxE inord_val mulrC.
Qed.

Section Dim.
Hypothesis inj : injective_op A.
Variable r : vec.
Let T v := P (A (M v)).
Let w i := iter i T (P r).

Let T_lin : is_linear T.
Proof. exact: (lin_comp P_lin (lin_comp lin linM)). Qed.

Let w_orth i : ip U (w i) = 0.
Proof. by rewrite /w; case: i => [|i]; rewrite ?iterS; apply: (defl_P_orth hl). Qed.

Let T_inj v : ip U v = 0 -> T v = 0 -> v = 0.
Proof.
have hB := lo_B hl; move=> hv; rewrite /T; have [c -> _] := PE (A (M v)); rewrite -(linB lin) => /inj/eqP.
rewrite subr_eq0 => /eqP e; apply/eqP; rewrite -(ip_eq0 hmp) /mip e; apply/eqP.
rewrite (ipC hip); have -> : ip_ (U *m c) v = 0 by rewrite /ip1 innerMl // hv mulmx0 mxE.
by rewrite conjC0.
Qed.

Let kryE i : krylov (fun x => M (P (A x))) (M (P r)) i = M (w i).
Proof. by rewrite /krylov /w; elim: i => //= i ->. Qed.

Let reach d (c : nat -> C) : (exists2 j, (j <= d)%N & c j != 0) -> \sum_(i < d.+1) c i *: w i = 0 ->
  exists2 z, kd r d z & P (A z) = P r.
Proof.
elim: d c => [|d IH] c [j hj cj]; rewrite big_ord_recl => e.
  move: hj e; rewrite leqn0 => /eqP ej; rewrite ej in cj; rewrite big_ord0 addr0 => /eqP.
  rewrite scaler_eq0 (negbTE cj) /= => /eqP e; exists 0; first exact: span0.
  by rewrite (lin0 lin) (lin0 P_lin).
have sT : \sum_(i < d.+1) c (lift ord0 i) *: w (lift ord0 i) = T (\sum_(i < d.+1) c i.+1 *: w i).
  by rewrite (lin_sum T_lin); apply: eq_bigr => i _; rewrite (linZ T_lin).
rewrite sT in e; have [c0|c0] := eqVneq (c 0%N) 0.
  rewrite c0 scale0r add0r in e.
  have s0 : \sum_(i < d.+1) c i.+1 *: w i = 0.
    apply: T_inj e; have hB := lo_B hl; have -> : \sum_(i < d.+1) c i.+1 *: w i = (\matrix_(a, i) w (nat_of_ord i) a 0) *m (\col_(i < d.+1) c i.+1).
      by apply/colP => a; rewrite summxE mxE; apply: eq_bigr => i _; rewrite !mxE mulrC.
    rewrite innerMr // (_ : ip U _ = 0) ?mul0mx //; apply/matrixP => a i; rewrite [RHS]mxE.
    have := congr1 (fun X : 'cV[C]_k => X a 0) (w_orth i); rewrite [RHS]mxE => <-.
    have -> : w i = (\matrix_(a, i) w (nat_of_ord i) a 0) *m delta_mx i 0 :> vec.
      by rewrite -colE; apply/colP => b; rewrite !mxE.
    by rewrite innerMr // -colE mxE.
  have [|z kz ez] := IH (fun i => c i.+1) _ s0; last by exists z => //; apply: span_widen kz.
  by case: j hj cj => [|j] hj cj; [rewrite c0 eqxx in cj|exists j].
exists (- (c 0%N)^-1 *: M (\sum_(i < d.+1) c i.+1 *: w i)).
  apply: spanZ; rewrite (lin_sum linM); apply: span_sum => i _; rewrite (linZ linM) -kryE.
  by apply: spanZ; apply: span_mem.
rewrite (linZ lin) (linZ P_lin) -/(T _).
have -> : T (\sum_(i < d.+1) c i.+1 *: w i) = - (c 0%N *: w 0%N).
  by apply/eqP; rewrite -addr_eq0 addrC e.
by rewrite scalerN scaleNr opprK scalerA mulVf // scale1r.
Qed.

Lemma dim_reach : exists2 z, kd r (N - k) z & P (r - A z) = 0.
Proof.
have [c hc hs] := dependent w_orth; have [z kz ez] := reach hc hs.
by exists z => //; rewrite (linB P_lin) ez subrr.
Qed.
End Dim.

(** With an invariant U the plain Krylov space is contained in the deflated one plus U. *)
Section Invariant.
Hypothesis inv : invariant l U.

Lemma contain r n z : in_krylov A M r n z -> exists z' c, kd r n z' /\ z = z' + U *m c.
Proof.
have el i : exists c, krylov (fun x => M (A x)) (M r) i = krylov (fun x => M (P (A x))) (M (P r)) i + U *m c.
  rewrite /krylov; elim: i => [|i [c IH]] /=.
    have [c -> _] := PE r; have [d e] := inv c.
    by exists d; rewrite -e (linB linM) subrK.
  rewrite IH (linD linMA); have [d ->] := inv c.
  set v := iter _ _ _; have [c' -> _] := PE (A v); have [d' e] := inv c'.
  by exists (d + d'); rewrite mulmxDr -e (linB linM) addrCA addrC subrK addrC.
move=> [a ->]; elim: n => [|n [z' [c [k' e]]]].
  by exists 0, 0; rewrite big_ord0 mulmx0 addr0; split=> //; exact: span0.
have [c' e'] := el n; rewrite big_ord_recr /= e e'.
exists (z' + a n *: krylov (fun x => M (P (A x))) (M (P r)) n), (c + a n *: c'); split.
  by apply: spanD; [exact: span_widen k'|apply: spanZ; apply: span_mem].
by rewrite mulmxDr -scalemxAr scalerDr addrACA.
Qed.

Lemma P_contract a : mnorm ip_ M (P a) <= mnorm ip_ M a.
Proof.
have hB := lo_B hl; have [c e _] := PE a; have [d ed] := inv c.
have o : mip ip_ M (P a) (A (U *m c)) = 0.
  rewrite /mip ed (ipC hip); have -> : ip_ (U *m d) (P a) = 0; last by rewrite conjC0.
  by rewrite /ip1 innerMl // (defl_P_orth hl) // mulmx0 mxE.
rewrite -[mnorm _ _ _]/(ipnorm (mip ip_ M) _) -[X in _ <= X]/(ipnorm (mip ip_ M) _) (ipnorm_le hmp).
have ea : a = P a + A (U *m c) by rewrite e subrK.
have [b eb] : exists b, b = P a by eexists.
rewrite -eb in o ea *; rewrite ea.
by rewrite (pythagoras hmp o) ler_addl (ip_ge0' hmp).
Qed.
End Invariant.

Variable x0 : option vec.
Local Notation x := (x0_of x0).

(** Optimal approximations are exact once the solution is contained in the search space. *)
Lemma rn0 y : resid_norm l y <= 0 -> resid l y = 0.
Proof.
move=> h; apply/eqP; rewrite -(ipnorm_eq0 hmp) eq_le h.
by rewrite (ipnorm_ge0 hmp).
Qed.

Lemma opt_exact d n z c y : kd (resid l x) d z -> resid l (x + lMr l z + U *m c) = 0 -> (d <= n)%N ->
  optimal l U x0 n y -> resid l y = 0.
Proof.
have hB := lo_B hl; move=> kz e hd [_ [z' [c' [_ _ h]]]]; apply: rn0.
have := h z c (span_widen hd kz); rewrite /resid_norm e /mnorm (ipl0 hip) sqrtC0; apply.
by rewrite -[0]/(0 : vec) -(mulmx0 _ (0 : 'cV[C]_N)) innerMr // mulmx0.
Qed.

Lemma eopt_exact d n z c y : pos_def ip_ A -> kd (resid l x) d z -> resid l (x + lMr l z + U *m c) = 0 -> (d <= n)%N ->
  eoptimal l U x0 n y -> resid l y = 0.
Proof.
move=> pd kz e hd [_ [z' [c' [-> _ h]]]].
have e' : resid l (x + lMr l (z + U *m c)) = 0 by rewrite (linD (lo_Mr hl)) hMr addrA.
have := h _ _ c e' (span_widen hd kz); rewrite subrr (ipl0 hip) => h0.
have : z + U *m c - (z' + U *m c') = 0.
  by apply/eqP; apply: contraT => /pd /lt_le_trans/(_ h0); rewrite ltxx.
by move/eqP; rewrite subr_eq0 => /eqP e1; rewrite resid_c -e1 -resid_c.
Qed.

Lemma dmr_within d z c tol res xk : lMl l (lb l) <> 0 -> 0 <= tol -> kd (resid l x) d z ->
  resid l (x + lMr l z + U *m c) = 0 -> dmr_result l x0 U tol res xk -> within l d res xk.
Proof.
move=> nb t0 kz e /(dmr_facts hl hMr nb)[[s0 _] gt h1 [y ey hy]].
have z0 i : (d <= i)%N -> (i < size res)%N -> nth 0 res i = 0.
  move=> hi hs; have [y' o ->] := h1 i hs.
  by rewrite /resid_norm (opt_exact kz e hi o) /mnorm (ipl0 hip) sqrtC0 mul0r.
have hs : (size res <= d.+1)%N.
  rewrite leqNgt; apply/negP => h; have := gt d h; rewrite z0 //; last exact: ltnW.
  by move=> /(le_lt_trans t0); rewrite ltxx.
split=> // es; split; first by rewrite -nth_last z0 // es.
by exists y => //; apply: (opt_exact kz e _ hy); rewrite es.
Qed.

Lemma dcg_within d z c tol res xk : lMl l (lb l) <> 0 -> 0 <= tol -> kd (resid l x) d z ->
  resid l (x + lMr l z + U *m c) = 0 -> dcg_result l x0 U tol res xk -> within l d res xk.
Proof.
move=> nb t0 kz e /(dcg_facts hl hMr nb)[[s0 _ _ pd] gt h1 [y ey hy]].
have z0 i : (d <= i)%N -> (i < size res)%N -> nth 0 res i = 0.
  move=> hi hs; have [y' o ->] := h1 i hs.
  by rewrite /resid_norm (eopt_exact pd kz e hi o) /mnorm (ipl0 hip) sqrtC0 mul0r.
have hs : (size res <= d.+1)%N.
  rewrite leqNgt; apply/negP => h; have := gt d h; rewrite z0 //; last exact: ltnW.
  by move=> /(le_lt_trans t0); rewrite ltxx.
split=> // es; split; first by rewrite -nth_last z0 // es.
by exists y => //; apply: (eopt_exact pd kz e _ hy); rewrite es.
Qed.
End Deflated.

(** The same for the plain solvers. *)
Section Plain.
Variable x0 : option vec.
Local Notation x := (x0_of x0).

Lemma mr_within d z tol res xk : lMl l (lb l) <> 0 -> 0 <= tol -> kr x d z -> A z = resid l x ->
  mr_result l x0 tol res xk -> within l d res xk.
Proof.
move=> nb t0 kz e /(mr_facts hl nb)[s0 gt h1 [y ey hy]].
have ex n v : (d <= n)%N -> minimizer (fun z => resid_norm l (x + lMr l z)) (kr x n) v -> resid l (x + lMr l v) = 0.
  move=> hd [_ /(_ z (span_widen hd kz))]; rewrite {2}/resid_norm resid_update // e subrr.
  by rewrite /mnorm (ipl0 hip) sqrtC0 => /rn0.
have z0 i : (d <= i)%N -> (i < size res)%N -> nth 0 res i = 0.
  move=> hi hs; have [y' o ->] := h1 i hs.
  by rewrite /resid_norm (ex _ _ hi o) /mnorm (ipl0 hip) sqrtC0 mul0r.
have hs : (size res <= d.+1)%N.
  rewrite leqNgt; apply/negP => h; have := gt d h; rewrite z0 //; last exact: ltnW.
  by move=> /(le_lt_trans t0); rewrite ltxx.
split=> // es; split; first by rewrite -nth_last z0 // es.
by exists (x + lMr l y) => //; apply: (ex _ _ _ hy); rewrite es.
Qed.

Lemma cg_within d z tol res xk : lMl l (lb l) <> 0 -> 0 <= tol -> kr x d z -> A z = resid l x ->
  cg_result l x0 tol res xk -> within l d res xk.
Proof.
move=> nb t0 kz e /(cg_facts hl nb)[s0 gt h1 [ey sa pd _]].
have ex n v : (d <= n)%N -> kr x n v -> (forall u, kr x n u -> ip_ u (resid l (x + lMr l v)) = 0) -> resid l (x + lMr l v) = 0.
  move=> hd kv h; have := h (z - v) (spanB (span_widen hd kz) kv).
  rewrite resid_update // -e -(linB lin) => h0; have : z - v = 0.
    by apply/eqP; apply: contraT => /pd; rewrite h0 ltxx.
  by move=> ->; rewrite (lin0 lin).
have z0 i : (d <= i)%N -> (i < size res)%N -> nth 0 res i = 0.
  move=> hi hs; have [-> h2 h3] := h1 i hs.
  by rewrite /resid_norm (ex _ _ hi h2 h3) /mnorm (ipl0 hip) sqrtC0 mul0r.
have hs : (size res <= d.+1)%N.
  rewrite leqNgt; apply/negP => h; have := gt d h; rewrite z0 //; last exact: ltnW.
  by move=> /(le_lt_trans t0); rewrite ltxx.
split=> // es; split; first by rewrite -nth_last z0 // es.
have hd : (d < size res)%N by rewrite es.
by have [_ h2 h3] := h1 d hd; eexists; [exact: ey|rewrite es /=; apply: (ex d)].
Qed.
End Plain.
End Count.
