(** C77: deflation depends on the span of the deflation vectors only. *)
From mathcomp Require Import all_ssreflect all_algebra.
From Verif Require Import Base Spec.LinAlg Model.Inner Spec.Inner Proof.Algebra Proof.Inner Proof.IpTheory.
From Verif Require Import Model.Arnoldi Spec.Arnoldi Proof.Arnoldi Proof.ArnoldiAll Proof.ArnoldiExample.
From Verif Require Import Model.Solver Spec.Solver Model.LinearSystem Model.Krylov Spec.Krylov Spec.Agree.
From Verif Require Import Proof.ArnoldiRel Proof.Gmres Proof.LinearSystem.
From Verif Require Import Model.Projection Spec.Projection Proof.Qr Proof.QrExist Model.Deflation Spec.Deflation Proof.Deflation.
From Verif Require Import Spec.DeflAgree Proof.DeflAgree Properties.Deflation.

Set Implicit Arguments.
Unset Strict Implicit.
Unset Printing Implicit Defensive.
Import Order.TTheory GRing.Theory Num.Theory.
Local Open Scope ring_scope.

(** Reading guide: Spec/DeflAgree.v.  [same_span U V]: the columns of U and V span the
    same space.  [dmr_result l x0 U tol res xk]: some run of DeflatedGmres or
    DeflatedMinres on l with deflation vectors U ended with these attributes;
    [dcg_result]: of DeflatedCg.  [agree]: see Spec/Agree.v. *)
Section Properties.
Variable C : numClosedFieldType.
Variables (N k m : nat).
Local Notation vec := 'cV[C]_N.
Variables (l : lsys C N) (U : 'M[C]_(N, k)) (V : 'M[C]_(N, m)).
Hypothesis hl : lsys_ok l.
Hypothesis hs : same_span U V.
Local Notation A := (lMlAMr l).
Local Notation ip := (inner (lB l)).

(** ObliqueProjection.correct, whatever Mr, the keyword arguments of the projections and
    the QR decomposition are. *)
Theorem C77_correct sqr Minv same kw sqr' Minv' same' kw' ob ob' z : qr_spec sqr -> qr_spec sqr' ->
  defl_args sqr l Minv same U kw -> defl_args sqr' l Minv' same' V kw' ->
  mk_oblique sqr l Minv same U kw = Ok ob -> mk_oblique sqr' l Minv' same' V kw' = Ok ob' ->
  o_correct l ob z = o_correct l ob' z.
Proof.
move=> hq hq' ha ha' hob hob'; have hB := lo_B hl; have lin := lMlAMr_lin hl.
have [ob1 e1 k1] := C11_correct hq hl ha; move: e1; rewrite hob => -[?]; subst ob1.
have [ob2 e2 k2] := C11_correct hq' hl ha'; move: e2; rewrite hob' => -[?]; subst ob2.
have [c [-> hc]] := k1 z; have [d [-> hd]] := k2 z.
have [[F eV] [G eU]] := hs; congr (Ok (_ + _)).
have e : ip U (imcols A U) *m (c - F *m d) = 0.
  rewrite mulmxBr hc mulmxA -innerMr // -(imcolsM lin) -eV.
  by rewrite eU !innerMl // -mulmxA hd subrr.
have e0 : c - F *m d = 0.
  by rewrite -[LHS](mulKmx (da_unit ha)) e mulmx0.
by move/eqP: e0; rewrite subr_eq0 => /eqP ->; rewrite eV mulmxA.
Qed.

Hypothesis hU : forall c, lMr l (U *m c) = U *m c.
Hypothesis nb : lMl l (lb l) <> 0.
(** A component of the initial guess in the span of the deflation vectors has no effect. *)
Variables x0 x0' : option vec.
Hypothesis hx : exists c, x0_of x0' = x0_of x0 + U *m c.

Let hV c : lMr l (V *m c) = V *m c.
Proof. by have [[F ->] _] := hs; rewrite -mulmxA hU. Qed.

(** DeflatedGmres and DeflatedMinres. *)
Theorem C77_minimal_residual tol res xk tol' res' xk' :
  dmr_result l x0 U tol res xk -> dmr_result l x0' V tol' res' xk' ->
  agree tol res tol' res' /\ (size res = size res' -> injective_op A -> xk' = xk).
Proof.
move=> /(dmr_facts hl hU nb)[[s0 u0] g0 h1 h2] /(dmr_facts hl hV nb)[[s1 u1] g1 h3 h4].
have hs' := same_span_sym hs; have [d hd] := hx; split.
  apply: agree_intro => // i i1 i2; have [y k1 ->] := h1 i i1; have [y' k2 ->] := h3 i i2.
  by congr (_ / _); apply: (opt_norm (optimal_shift hl hU u0 hd (optimal_span hl hs' u1 u0 k2)) k1).
move=> e inj; have [y -> k1] := h2; have [y' -> k2] := h4; congr Some.
by rewrite -e in k2; apply: (optimal_uniq hl hU inj k1 (optimal_shift hl hU u0 hd (optimal_span hl hs' u1 u0 k2))).
Qed.

(** DeflatedCg. *)
Theorem C77_cg tol res xk tol' res' xk' :
  dcg_result l x0 U tol res xk -> dcg_result l x0' V tol' res' xk' ->
  agree tol res tol' res' /\ (size res = size res' -> xk' = xk).
Proof.
move=> /(dcg_facts hl hU nb)[[s0 u0 sa pd] g0 h1 h2] /(dcg_facts hl hV nb)[[s1 u1 _ _] g1 h3 h4].
have hs' := same_span_sym hs; have [d hd] := hx; split.
  apply: agree_intro => // i i1 i2; have [y k1 ->] := h1 i i1; have [y' k2 ->] := h3 i i2.
  by rewrite (eoptimal_uniq hl hU sa pd k1 (eoptimal_shift hl hU u0 hd (eoptimal_span hl hs' u1 u0 k2))).
move=> e; have [y -> k1] := h2; have [y' -> k2] := h4; congr Some.
by rewrite -e in k2; apply: (eoptimal_uniq hl hU sa pd k1 (eoptimal_shift hl hU u0 hd (eoptimal_span hl hs' u1 u0 k2))).
Qed.
End Properties.

(** The system of C29 with U = [e_0], orthonormalised, and with U = [3 e_0], not
    orthonormalised. *)
Section Examples.
Variable C : numClosedFieldType.
Definition three : 'cV[C]_2 := 3%:R *: e0 C.
Definition kw_raw : pkwargs := PKw 0 false 1.

Example C77_same_span : same_span (e0 C) three.
Proof.
split; first by exists (3%:R%:M); rewrite mul_mx_scalar.
by exists ((3%:R^-1)%:M); rewrite mul_mx_scalar scalerA mulVf ?scale1r // pnatr_eq0.
Qed.

Lemma three_args : defl_args (@some_qr C) (dex_lsys C) (dex_Minv C) false three kw_raw.
Proof.
have [h1 h2 h3 h4 _] := dex_args C; split=> //.
have [[F eF] _] := C77_same_span; have hB : valid_ip (lB (dex_lsys C)) by [].
have uF : F \in unitmx.
  rewrite unitmxE unitfE; apply/negP => /eqP d0; move: (congr1 (fun M : 'cV[C]_2 => M 0 0) eF).
  have -> : F = 0 by apply/matrixP => i j; rewrite !ord1 mxE -d0 det_mx11.
  by rewrite mulmx0 !mxE /= mulr1 => /eqP; rewrite pnatr_eq0.
rewrite eF (imcolsM (lMlAMr_lin (dex_ok C))) innerMl // innerMr // !unitmx_mul h4 uF.
by rewrite unitmx_ctr uF.
Qed.

Example C77_runs x0 :
  [/\ exists res xk, dmr_result (dex_lsys C) x0 (e0 C) 0 res xk,
      exists res xk, dmr_result (dex_lsys C) x0 three 0 res xk,
      exists res xk, dcg_result (dex_lsys C) x0 (e0 C) 0 res xk
    & exists res xk, dcg_result (dex_lsys C) x0 three 0 res xk].
Proof.
have ho' : ortho_ok (dex_lsys C) Mgs by [].
have hq := @some_qr_spec C; pose op := Opts (0 : C) 2 false.
have mr (u : 'cV[C]_2) (c : 'cV[C]_1) : lMr (dex_lsys C) (u *m c) = u *m c by [].
split.
- have [//|//|s E _] := C29_gmres_finite (o := op) hq (dex_ok C) (dex_args C) (mr _) x0 ho' (@dex_inj C) (@frob_bounds C) (@dex_nz C).
  by exists (s_res s), (s_xk s); exact: (DmrGmres hq (dex_args C) ho' (or_introl E)).
- have [//|//|s E _] := C29_minres_finite (o := op) hq (dex_ok C) three_args (mr _) x0 ho' (@dex_sa C) (@dex_inj C) (@frob_bounds C) (@dex_nz C).
  by exists (s_res s), (s_xk s); exact: (DmrMinres hq three_args ho' (@dex_sa C) (or_introl E)).
- have [//|//|s E _] := C29_cg_finite (o := op) (store := false) hq (dex_ok C) (dex_args C) (mr _) x0 (@dex_sa C) (@dex_pd C) isT (@dex_nz C).
  by exists (s_res s), (s_xk s); exact: (DcgRun hq (dex_args C) (@dex_sa C) (@dex_pd C) (or_introl E)).
have [//|//|s E _] := C29_cg_finite (o := op) (store := false) hq (dex_ok C) three_args (mr _) x0 (@dex_sa C) (@dex_pd C) isT (@dex_nz C).
by exists (s_res s), (s_xk s); exact: (DcgRun hq three_args (@dex_sa C) (@dex_pd C) (or_introl E)).
Qed.
End Examples.

Print Assumptions C77_correct.
Print Assumptions C77_minimal_residual.
Print Assumptions C77_cg.
Print Assumptions C77_runs.
