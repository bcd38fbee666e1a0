(** C44: the convenience functions cg, minres, gmres. *)
From mathcomp Require Import all_ssreflect all_algebra ring.
From Verif Require Import Base Spec.LinAlg Model.Inner Spec.Inner Proof.Algebra Proof.Inner Proof.IpTheory.
From Verif Require Import Model.Arnoldi Spec.Arnoldi Proof.Arnoldi Proof.ArnoldiAll Proof.ArnoldiExample.
From Verif Require Import Model.Solver Spec.Solver Model.LinearSystem Model.Krylov Spec.Krylov.
From Verif Require Import Proof.ArnoldiRel Proof.SolverInv Proof.Gmres Proof.Minres Proof.CgTheory Proof.Cg Proof.LinearSystem.
From Verif Require Import Model.Projection Spec.Projection Proof.QrExist Model.Deflation Spec.Deflation Proof.Ext Proof.Logged Proof.Deflation.
From Verif Require Import Properties.Solver Properties.Gmres Properties.Minres Properties.Cg Properties.Deflation.
From Verif Require Import Model.LinearOperator Model.Convenience Spec.Convenience.

Set Implicit Arguments.
Unset Strict Implicit.
Unset Printing Implicit Defensive.
Import Order.TTheory GRing.Theory Num.Theory.
Local Open Scope ring_scope.
Local Arguments norm : simpl never.

Section Properties.
Variable C : numClosedFieldType.
Variable sqr : forall n k, 'M[C]_(n, k) -> 'M[C]_(n, k) * 'M[C]_k.
Variable snorm : nat -> nat -> (nat -> nat -> C) -> C.
Variable N : nat.
Local Notation vec := 'cV[C]_N.
Implicit Types (a : cargs C N) (ortho : ortho_t) (store : bool).

(** The assertions: A.shape must be (N, N) for b of length N. *)
Theorem C44_asserts a ortho store k (U : 'M[C]_(N, k)) : c_shape a <> [:: N; N] ->
  [/\ conv_cg a store = CRaises AssertionError, conv_minres snorm a ortho = CRaises AssertionError,
      conv_gmres snorm a ortho = CRaises AssertionError
    & [/\ conv_cg_U sqr a store U = CRaises AssertionError, conv_minres_U sqr snorm a ortho U = CRaises AssertionError
        & conv_gmres_U sqr snorm a ortho U = CRaises AssertionError]].
Proof.
move=> ne; have E : c_asserts a = Err AssertionError.
  rewrite /c_asserts; case: (c_shape a) ne => [|r [|c [|z q]]] //= ne.
  case: eqP => //= e1; case: eqP => //= e2; by rewrite e1 e2 in ne.
rewrite /conv_cg /conv_minres /conv_gmres /conv_cg_U /conv_minres_U /conv_gmres_U /c_deflated /c_call E.
by case: ifP.
Qed.

Let sysE a : c_Mr a = None -> c_lsys a = full_lsys a.
Proof. by move=> e; rewrite /c_lsys /full_lsys /u_Mr /u_Ml /wrap_ip e; case: (c_Ml a). Qed.

Let noMr a := CArgs (c_shape a) (c_A a) (c_isI a) (c_b a) (c_M a) (c_Minv a) (c_Ml a) None (c_ip a)
  (c_exact a) (c_x0 a) (c_tol a) (c_maxiter a) (c_explicit a).

Let assertE a : c_shape a = [:: N; N] -> c_asserts a = Ok tt.
Proof. by rewrite /c_asserts => -> /=; rewrite !eqxx. Qed.

Let callE a T (out : outcome C vec T) : c_shape a = [:: N; N] -> (forall s, out = Returns s -> s_xk s <> None) ->
  solver_of (c_call a out) = out.
Proof.
move=> hs hx; rewrite /c_call assertE // /c_finish; case: out hx => // s /(_ s erefl).
by case: ifP => // _; case: (s_xk s).
Qed.

Let bindO_ret A T (m : res A) (f : A -> outcome C vec T) s : bindO m f = Returns s ->
  exists2 x, m = Ok x & f x = Returns s.
Proof. by case: m => // x /=; exists x. Qed.

Let cg_xk (l : lsys C N) o store x0 s : cg_solve l o store x0 = Returns s -> s_xk s <> None.
Proof. by move=> /bindO_ret[bn _ E]; have [] := C23_normal_return (cg_good _ _) E. Qed.
Let minres_xk (l : lsys C N) o ortho x0 s : minres_solve snorm l o ortho x0 = Returns s -> s_xk s <> None.
Proof. by move=> /bindO_ret[bn _ E]; have [] := C23_normal_return (minres_good _ _ _ _) E. Qed.
Let gmres_xk (l : lsys C N) o ortho x0 s : gmres_solve snorm l o ortho x0 = Returns s -> s_xk s <> None.
Proof. by move=> /bindO_ret[bn _ E]; have [] := C23_normal_return (gmres_good _ _ _ _) E. Qed.

Let dcg_xk (l : lsys C N) Minv same k (U : 'M[C]_(N, k)) kw o store x0 s :
  deflated_cg sqr l Minv same U kw o store x0 = Returns s -> s_xk s <> None.
Proof.
move=> /bindO_ret[bn _ /bindO_ret[ob _ E]].
by have [] := C23_normal_return (logged_good _ _ (cg_good _ _)) E.
Qed.
Let dminres_xk (l : lsys C N) Minv same k (U : 'M[C]_(N, k)) kw o ortho x0 s :
  deflated_minres sqr snorm l Minv same U kw o ortho x0 = Returns s -> s_xk s <> None.
Proof.
move=> /bindO_ret[bn _ /bindO_ret[ob _ E]].
by have [] := C23_normal_return (logged_good _ _ (minres_good _ _ _ _)) E.
Qed.
Let dgmres_xk (l : lsys C N) Minv same k (U : 'M[C]_(N, k)) kw o ortho x0 s :
  deflated_gmres sqr snorm l Minv same U kw o ortho x0 = Returns s -> s_xk s <> None.
Proof.
move=> /bindO_ret[bn _ /bindO_ret[ob _ E]].
by have [] := C23_normal_return (logged_good _ _ (gmres_good _ _ _ _)) E.
Qed.

(** Without Mr, the returned solver (or the exception) is that of the class called with
    all the arguments. *)
Theorem C44_solver a ortho store : c_shape a = [:: N; N] -> c_Mr a = None ->
  [/\ solver_of (conv_cg a store) = cg_solve (full_lsys a) (full_opts a) store (c_x0 a),
      solver_of (conv_minres snorm a ortho) = minres_solve snorm (full_lsys a) (full_opts a) ortho (c_x0 a)
    & solver_of (conv_gmres snorm a ortho) = gmres_solve snorm (full_lsys a) (full_opts a) ortho (c_x0 a)].
Proof.
move=> hs hM; rewrite /conv_cg /conv_minres /conv_gmres !callE ?sysE //.
- by move=> s; apply: gmres_xk.
- by move=> s; apply: minres_xk.
- by move=> s; apply: cg_xk.
Qed.

(** With U, the deflated class is called with all the arguments; with inner_product, for
    one column. *)
Theorem C44_solver_U a ortho store k (U : 'M[C]_(N, k)) : c_shape a = [:: N; N] -> c_Mr a = None ->
  c_ip a = None \/ k = 1%N ->
  let same := c_isI a && (if c_Ml a is Some _ then false else true) in let kw := PKw 0 true 2 in
  [/\ solver_of (conv_cg_U sqr a store U) =
        deflated_cg sqr (full_lsys a) (c_Minv a) same U kw (full_opts a) store (c_x0 a),
      solver_of (conv_minres_U sqr snorm a ortho U) =
        deflated_minres sqr snorm (full_lsys a) (c_Minv a) same U kw (full_opts a) ortho (c_x0 a)
    & solver_of (conv_gmres_U sqr snorm a ortho U) =
        deflated_gmres sqr snorm (full_lsys a) (c_Minv a) same U kw (full_opts a) ortho (c_x0 a)].
Proof.
move=> hs hM hk /=; have nk : isSome (c_ip a) && (k != 1%N) = false by case: hk => ->; rewrite ?andbF.
rewrite /conv_cg_U /conv_minres_U /conv_gmres_U /c_deflated nk /c_same /c_kw.
have -> : ~~ isSome (c_Ml a) = (if c_Ml a is Some _ then false else true) by case: (c_Ml a).
rewrite !callE ?sysE //.
- by move=> s; apply: dgmres_xk.
- by move=> s; apply: dminres_xk.
- by move=> s; apply: dcg_xk.
Qed.

Let col1 (x : vec) : col 0 x = x.
Proof. by apply/matrixP => i j; rewrite mxE (ord1 j). Qed.

Lemma c_ipE a x y : ip1 (lB (c_lsys a)) x y = u_ip a x y.
Proof.
rewrite /c_lsys /u_ip /ip1 /=; case: (c_ip a) => [f|] /=; first by rewrite mxE !col1.
by rewrite mxE; apply: eq_bigr => i _; rewrite tconjE ctrE.
Qed.

Let MlE a : lMl (c_lsys a) = u_Ml a.
Proof. by rewrite /= /u_Ml; case: (c_Ml a). Qed.

Let ME a x : lMop (c_lsys a) x = u_M a x.
Proof. by rewrite /lMop /u_M /=; case: (c_M a). Qed.

Lemma c_lsys_ok a : args_ok a -> lsys_ok (c_lsys a).
Proof.
case=> _ h1 h2 h3 h4 h5 h6; split; rewrite ?MlE //=.
- rewrite /valid_ip /=; move: h3; rewrite /u_ip; case: (c_ip a) => [f|] //= hf; split.
    by apply: eq_is_ip hf => x y; rewrite mxE !col1.
  by move=> m n X Y; apply/matrixP => i j; rewrite !mxE !col1.
- by move=> c x y; rewrite !ME; apply: h4.
- by move=> x y; rewrite !c_ipE !ME; apply: h5.
- by move=> x nx; rewrite c_ipE ME; apply: h6.
Qed.

Let residE a x : resid_norm (c_lsys a) x = u_norm a (bval (c_b a) - c_A a x).
Proof. by rewrite /resid_norm /mnorm c_ipE ME /resid MlE. Qed.
Let rhsE a : rhs_norm (c_lsys a) = u_norm a (bval (c_b a)).
Proof. by rewrite /rhs_norm /mnorm c_ipE ME MlE. Qed.

(** What is returned: the array with the values of out.xk and the shape of b if the
    relative residual norm of out.xk is less than tol, None otherwise. *)
Definition returns_solution a T (y : option (bvec C N)) (s : sol C vec T) : Prop :=
  exists2 xk, s_xk s = Some xk & shaped_like (c_b a) xk y /\ solved a xk \/ y = None /\ ~ solved a xk.

Let finishP a T (out : outcome C vec T) y s : args_ok a -> u_Ml a (bval (c_b a)) <> 0 ->
  (forall s, out = Returns s ->
     exists2 xk, s_xk s = Some xk & last 0 (s_res s) = resid_norm (c_lsys a) xk / rhs_norm (c_lsys a)) ->
  c_call a out = CReturns y s -> returns_solution a y s.
Proof.
move=> ha /eqP nb h; rewrite /c_call (assertE (ao_shape ha)) /c_finish.
case: out h => // s0 /(_ s0 erefl)[xk ex el].
have pos : 0 < rhs_norm (c_lsys a).
  rewrite lt_def rhs_norm_eq0 ?MlE ?nb /=; last exact: c_lsys_ok.
  by rewrite sqrtC_ge0; apply: (ip_ge0' (lmip (c_lsys_ok ha))).
have sE : (last 0 (s_res s0) < o_tol (c_opts a)) <-> solved a xk.
  by rewrite el ltr_pdivr_mulr // /= rhsE residE.
case: ifP => [/sE hs|/negP hn]; rewrite ?ex => -[<- <-]; exists xk => //.
  by left; split=> //; rewrite /reshape_like; case: (c_b a).
by right; split=> // /sE.
Qed.

(** C44.  cg, minres, gmres without U.  For cg also with Mr, which is not used. *)
Theorem C44_cg_solution a store y s : args_ok a ->
  self_adjoint (u_ip a) (fun x => u_Ml a (c_A a x)) -> pos_def (u_ip a) (fun x => u_Ml a (c_A a x)) ->
  u_Ml a (bval (c_b a)) <> 0 ->
  conv_cg a store = CReturns y s -> returns_solution a y s.
Proof.
move=> ha sa pd nb; apply: finishP => // s0 E.
have [||||_ ] // := @C21_cg_last_norm C N (c_lsys a) (c_opts a) store (c_x0 a) (c_lsys_ok ha) _ _ s0; last by left.
- by move=> u v; rewrite !c_ipE /lMlAMr MlE; apply: sa.
- by move=> u nu; rewrite !c_ipE /lMlAMr MlE; apply: pd.
- by rewrite MlE.
Qed.

Theorem C44_minres_solution a ortho y s : args_ok a -> c_Mr a = None -> ortho_ok (full_lsys a) ortho ->
  self_adjoint (u_ip a) (fun x => u_Ml a (c_A a x)) -> u_Ml a (bval (c_b a)) <> 0 ->
  conv_minres snorm a ortho = CReturns y s -> returns_solution a y s.
Proof.
move=> ha hM; rewrite -(sysE hM) => ho sa nb; apply: finishP => // s0 E.
have [|||_ ] // := @C20_minres_last_norm C N snorm (c_lsys a) (c_opts a) ortho (c_x0 a) (c_lsys_ok ha) ho _ s0; last by left.
- by move=> u v; rewrite !c_ipE /lMlAMr MlE; apply: sa.
- by rewrite MlE.
Qed.

Theorem C44_gmres_solution a ortho y s : args_ok a -> c_Mr a = None -> ortho_ok (full_lsys a) ortho ->
  u_Ml a (bval (c_b a)) <> 0 ->
  conv_gmres snorm a ortho = CReturns y s -> returns_solution a y s.
Proof.
move=> ha hM; rewrite -(sysE hM) => ho nb; apply: finishP => // s0 E.
have [||_ ] // := @C19_gmres_last_norm C N snorm (c_lsys a) (c_opts a) ortho (c_x0 a) (c_lsys_ok ha) ho s0; last by left.
by rewrite MlE.
Qed.

(** For a right hand side with Ml b = 0 the zero vector is returned if tol > 0. *)
Theorem C44_zero_rhs a ortho store : args_ok a -> c_Mr a = None -> ortho_ok (full_lsys a) ortho ->
  0 < c_tol a -> u_Ml a (bval (c_b a)) = 0 ->
  [/\ exists2 y, (exists s, conv_cg a store = CReturns y s) & shaped_like (c_b a) 0 y,
      exists2 y, (exists s, conv_minres snorm a ortho = CReturns y s) & shaped_like (c_b a) 0 y
    & exists2 y, (exists s, conv_gmres snorm a ortho = CReturns y s) & shaped_like (c_b a) 0 y].
Proof.
move=> ha hM; rewrite -(sysE hM) => ho tol0 hb; have t0 := ltW tol0.
have hl := c_lsys_ok ha; have hb' : lMl (c_lsys a) (lb (c_lsys a)) = 0 by rewrite MlE.
have fin T (out : outcome C vec T) : (exists2 s, out = Returns s & [/\ s_xk s = Some 0, s_x0 s = 0 & s_res s = [:: 0]]) ->
    exists2 y, (exists s, c_call a out = CReturns y s) & shaped_like (c_b a) 0 y.
  move=> [s -> [e1 _ e2]]; rewrite /c_call (assertE (ao_shape ha)) /c_finish e2 /= tol0 e1.
  by eexists; [eexists; reflexivity|rewrite /reshape_like; case: (c_b a)].
split; apply: fin.
- exact: (@C26_cg_zero_rhs C N (c_lsys a) (c_opts a)).
- exact: (@C26_minres_zero_rhs C N snorm (c_lsys a) (c_opts a)).
- exact: (@C26_gmres_zero_rhs C N snorm (c_lsys a) (c_opts a)).
Qed.

(** For a self-adjoint positive definite Ml A and the default maxiter (or at least N), cg
    returns after at most N iterations, and the solution unless its relative residual norm
    equals tol. *)
Theorem C44_cg_converges a : args_ok a ->
  self_adjoint (u_ip a) (fun x => u_Ml a (c_A a x)) -> pos_def (u_ip a) (fun x => u_Ml a (c_A a x)) ->
  u_Ml a (bval (c_b a)) <> 0 -> 0 <= c_tol a -> (forall m, c_maxiter a = Some m -> (N <= m)%N) ->
  exists y s xk, [/\ conv_cg a false = CReturns y s, s_xk s = Some xk, (cg_it (s_st s) <= N)%N,
    u_norm a (bval (c_b a) - c_A a xk) <= c_tol a * u_norm a (bval (c_b a))
    & u_norm a (bval (c_b a) - c_A a xk) <> c_tol a * u_norm a (bval (c_b a)) -> shaped_like (c_b a) xk y].
Proof.
move=> ha sa pd nb tol0 hm.
have sa' : self_adjoint (ip1 (lB (c_lsys a))) (lMlAMr (c_lsys a)).
  by move=> u v; rewrite !c_ipE /lMlAMr MlE; apply: sa.
have pd' : pos_def (ip1 (lB (c_lsys a))) (lMlAMr (c_lsys a)).
  by move=> u nu; rewrite !c_ipE /lMlAMr MlE; apply: pd.
have nb' : lMl (c_lsys a) (lb (c_lsys a)) <> 0 by rewrite MlE.
have hm' : (N <= o_maxiter (c_opts a))%N by rewrite /=; case: (c_maxiter a) hm => //= m; apply.
have [s E [h1 [xk ex hx]]] := @C28_cg_converges C N (c_lsys a) (c_opts a) false (c_x0 a) (c_lsys_ok ha) sa' pd' isT nb' hm' tol0.
rewrite residE rhsE in hx.
case E2: (conv_cg a false) => [y s'|s'|e]; move: (E2); rewrite /conv_cg /c_call E (assertE (ao_shape ha)) /c_finish; last first.
- by rewrite ex; case: ifP.
- by rewrite ex; case: ifP.
have [xk' ex' h] := C44_cg_solution ha sa pd nb E2.
move=> e; have e' : s = s' by move: e; rewrite ex; case: ifP => _ [].
rewrite -e' ex in ex'; case: ex' => ex'; subst xk'.
exists y, s', xk; rewrite -e'; split=> // ne; case: h => -[h1' h2'] //; exfalso; apply: h2'.
by rewrite /solved lt_def eq_sym; apply/andP; split=> //; apply/eqP => e3; apply: ne; rewrite e3.
Qed.

Section Deflated.
Hypothesis hsqr : qr_spec sqr.
Variables (a : cargs C N) (k : nat) (U : 'M[C]_(N, k)).
Let same := c_isI a && (if c_Ml a is Some _ then false else true).
Hypothesis ha : args_ok a.
Hypothesis hM : c_Mr a = None.
Hypothesis hk : c_ip a = None \/ k = 1%N.
Hypothesis hU : defl_args sqr (full_lsys a) (c_Minv a) same U (PKw 0 true 2).
Hypothesis nb : u_Ml a (bval (c_b a)) <> 0.

Let hU' : defl_args sqr (c_lsys a) (c_Minv a) (c_same a) U (PKw 0 true 2).
Proof.
rewrite sysE // /c_same; have -> // : ~~ isSome (c_Ml a) = (if c_Ml a is Some _ then false else true) by case: (c_Ml a).
Qed.

Let callU T (out : outcome C vec T) : c_deflated a k out = c_call a out.
Proof. by rewrite /c_deflated; case: hk => ->; rewrite ?andbF. Qed.

Let nb' : lMl (c_lsys a) (lb (c_lsys a)) <> 0.
Proof. by rewrite MlE. Qed.

Theorem C44_cg_U_solution store y s :
  self_adjoint (u_ip a) (fun x => u_Ml a (c_A a x)) -> pos_def (u_ip a) (fun x => u_Ml a (c_A a x)) ->
  conv_cg_U sqr a store U = CReturns y s -> returns_solution a y s.
Proof.
move=> sa pd; rewrite /conv_cg_U callU; apply: finishP => // s0 E.
have sa' : self_adjoint (ip1 (lB (c_lsys a))) (lMlAMr (c_lsys a)).
  by move=> u v; rewrite !c_ipE /lMlAMr MlE; apply: sa.
have pd' : pos_def (ip1 (lB (c_lsys a))) (lMlAMr (c_lsys a)).
  by move=> u nu; rewrite !c_ipE /lMlAMr MlE; apply: pd.
have [[xk [h1 _ h2]] _ _] := C29_cg_optimal hsqr (c_lsys_ok ha) hU' (fun c => erefl) sa' pd' nb' (or_introl E).
by exists xk.
Qed.

Theorem C44_minres_U_solution ortho y s : ortho_ok (full_lsys a) ortho ->
  self_adjoint (u_ip a) (fun x => u_Ml a (c_A a x)) ->
  conv_minres_U sqr snorm a ortho U = CReturns y s -> returns_solution a y s.
Proof.
rewrite -(sysE hM) => ho sa; rewrite /conv_minres_U callU; apply: finishP => // s0 E.
have sa' : self_adjoint (ip1 (lB (c_lsys a))) (lMlAMr (c_lsys a)).
  by move=> u v; rewrite !c_ipE /lMlAMr MlE; apply: sa.
exact: (C29_minres_true_residual hsqr (c_lsys_ok ha) hU' (fun c => erefl) ho sa' nb' (or_introl E)).
Qed.

Theorem C44_gmres_U_solution ortho y s : ortho_ok (full_lsys a) ortho ->
  conv_gmres_U sqr snorm a ortho U = CReturns y s -> returns_solution a y s.
Proof.
rewrite -(sysE hM) => ho; rewrite /conv_gmres_U callU; apply: finishP => // s0 E.
exact: (C29_gmres_true_residual hsqr (c_lsys_ok ha) hU' (fun c => erefl) ho nb' (or_introl E)).
Qed.
End Deflated.
End Properties.

(** wrap_inner_product: for two columns the wrapped function returns the 1x1 array with the
    value of the given one, as a LinearSystem expects it. *)
Theorem C44_wrap (C : numClosedFieldType) N (f : 'cV[C]_N -> 'cV[C]_N -> C) (x y : 'cV[C]_N) :
  wrap_arr f (Arr x) (Arr y) = Ok (Arr (inner (block_ip f) x y)).
Proof.
rewrite /wrap_arr /= !eqxx /= !insubT /=; congr (Ok (Arr _)).
have e (v : 'cV[C]_N) : \col_(i < N) match insub (i : nat) : option 'I_N with Some i' => v i' (Ordinal (ltn0Sn 0)) | None => 0 end = v.
  by apply/matrixP => i j; rewrite mxE valK; congr (v _ _); apply: val_inj; rewrite (ord1 j).
have c1 (v : 'cV[C]_N) (j : 'I_1) : col j v = v by apply/matrixP => r s; rewrite mxE !ord1.
by apply/matrixP => i j; rewrite !mxE !ord1 eqxx mulr1n !c1; congr (f _ _); rewrite -[RHS]e; apply/matrixP => r s; rewrite !mxE.
Qed.

(** For blocks with more than one column it is not a block inner product: the result is a 1x1
    array with the value for the first columns; an array of shape (1, 0) if the first block has no columns,
    and IndexError if only the second one has none. *)
Theorem C44_wrap_refuted (C : numClosedFieldType) N (f : 'cV[C]_N -> 'cV[C]_N -> C) m n
    (X : 'M[C]_(N, m.+1)) (Y : 'M[C]_(N, n.+1)) (E : 'M[C]_(N, 0)) b :
  [/\ wrap_arr f (Arr X) (Arr Y) = Ok (Arr ((f (col 0 X) (col 0 Y))%:M : 'M[C]_1)),
      wrap_arr f (Arr E) b = Ok (Arr (0 : 'M[C]_(1, 0)))
    & wrap_arr f (Arr X) (Arr E) = Err IndexError].
Proof.
split=> //; rewrite /wrap_arr /= !eqxx /= !insubT /=; congr (Ok (Arr (f _ _)%:M)).
- by apply/matrixP => i j; rewrite !mxE valK; congr (X _ _); apply: val_inj.
by apply/matrixP => i j; rewrite !mxE valK; congr (Y _ _); apply: val_inj.
Qed.

Section Example.
Variable C : numClosedFieldType.
Local Notation vec := 'cV[C]_2.
Local Notation ip := (ip1 (@IpNone C 2)).
Let hip := valid_is_ip (B := @IpNone C 2) I.

(** A = [[2,1],[1,2]], b = e_0 (flat), the inner product 2<.,.>, tol = 1/4 *)
Definition cex_inv (x : vec) : vec := 3%:R^-1 *: (2%:R *: x - swap_op x).
Definition cex (maxiter : option nat) (Mr : option (vec -> vec)) : cargs C 2 :=
  CArgs [:: 2; 2]%N (@spd_op C) false (Flat (e0 C)) None None None Mr
    (Some (fun x y => 2%:R * ip x y)) None None 4%:R^-1 maxiter false.

Let ipd x y : u_ip (cex None None) x y = 2%:R * ip x y.
Proof. by []. Qed.

Lemma cex_ok m Mr : args_ok (cex m Mr).
Proof.
have h2 : is_ip (fun x y => 2%:R * ip x y) .
  case: hip => h1 h2 h3; split=> [x c y z|x y|x nx]; rewrite /=.
  - by rewrite h1; ring.
  - by rewrite h2 rmorphM conjC_nat.
  - by rewrite mulr_gt0 ?ltr0n ?h3.
split=> //=; first exact: spd_lin.
move=> x nx; rewrite /u_M /u_ip /= mulr_gt0 ?ltr0n //; exact: (ip_pos hip).
Qed.

Lemma cex_sa m Mr : self_adjoint (u_ip (cex m Mr)) (fun x => u_Ml (cex m Mr) (c_A (cex m Mr) x)).
Proof. by move=> x y; rewrite /u_ip /u_Ml /= spd_sa. Qed.

Lemma cex_pd m Mr : pos_def (u_ip (cex m Mr)) (fun x => u_Ml (cex m Mr) (c_A (cex m Mr) x)).
Proof. by move=> x nx; rewrite /u_ip /u_Ml /= mulr_gt0 ?ltr0n // spd_pd. Qed.

Lemma cex_nz m Mr : u_Ml (cex m Mr) (bval (c_b (cex m Mr))) <> 0.
Proof. by apply/eqP; exact: e0_nz. Qed.

(** Non-vacuity: cg returns within two iterations. *)
Example C44_run : exists y s, conv_cg (cex None None) false = CReturns y s.
Proof.
have [||y [s [xk [E _ _ _ _]]]] := C44_cg_converges (cex_ok None None) (@cex_sa _ _) (@cex_pd _ _) (@cex_nz None None) _ _ => //.
- by rewrite /= invr_ge0 ler0n.
by exists y, s.
Qed.

(** With M, Minv, Ml and U = [e_0]: the arguments meet the hypotheses of the theorems, and
    the functions return. *)
Definition cex_U (tol : C) : cargs C 2 :=
  CArgs [:: 2; 2]%N (@spd_op C) false (Column (e0 C)) (Some (fun x => 5%:R *: x)) (dex_Minv C)
    (Some (fun x => 2%:R *: x)) None None None None tol None false.

Lemma cex_U_args tol : args_ok (cex_U tol) /\
  defl_args (@some_qr C) (full_lsys (cex_U tol)) (c_Minv (cex_U tol)) false (e0 C) (PKw 0 true 2).
Proof.
split; last exact: dex_args.
have ipE x y : u_ip (cex_U tol) x y = ip x y by rewrite -c_ipE.
case: (dex_ok C) => h1 h2 h3 h4 h5 h6 h7; split=> //; first exact: (eq_is_ip ipE hip).
- by move=> x y; rewrite !ipE; apply: h6.
- by move=> x nx; rewrite ipE; apply: h7.
Qed.

Example C44_U_run tol : 0 <= tol ->
  [/\ exists y s, conv_gmres_U (@some_qr C) (@frob C) (cex_U tol) Mgs (e0 C) = CReturns y s,
      exists y s, conv_minres_U (@some_qr C) (@frob C) (cex_U tol) Lanczos (e0 C) = CReturns y s
    & exists y s, conv_cg_U (@some_qr C) (cex_U tol) false (e0 C) = CReturns y s].
Proof.
move=> t0; have [r1 _ r3] := C29_run (ortho := Mgs) None (or_introl erefl) t0.
have [_ r2 _] := C29_run (ortho := Lanczos) None (or_intror (or_intror erefl)) t0.
have [e1 _ e3] := C44_solver_U (@some_qr C) (@frob C) (a := cex_U tol) Mgs false (e0 C) erefl erefl (or_introl erefl).
have [_ e2 _] := C44_solver_U (@some_qr C) (@frob C) (a := cex_U tol) Lanczos false (e0 C) erefl erefl (or_introl erefl).
have fin T (r : cres C 2 T) out : solver_of r = out -> (exists s, out = Returns s) -> exists y s, r = CReturns y s.
  by move=> e [s]; rewrite -e; case: r {e} => //= y s' _; exists y, s'.
by split; [apply: fin e3 r1|apply: fin e2 r2|apply: fin e1 r3].
Qed.

Let cg_any (l : lsys C 2) o x0 : lsys_ok l -> self_adjoint (ip1 (lB l)) (lMlAMr l) ->
  pos_def (ip1 (lB l)) (lMlAMr l) -> lMl l (lb l) <> 0 -> 0 <= o_tol o -> lexact l = None ->
  exists s, of_run (cg_solve l o false x0) s.
Proof.
move=> hl sa pd nb tol0 ee; have h : is_ip (ip1 (lB l)) := valid_is_ip (lo_B hl).
have bn : 0 < rhs_norm l.
  by rewrite lt_def rhs_norm_eq0 //; move/eqP: nb => ->; rewrite sqrtC_ge0; apply: (ip_ge0' (lmip hl)).
have he en x : y_errnorm (lsys_sys l (rhs_norm l)) = Some en -> exists e, en x = Ok e by rewrite /= ee.
have hst : false -> forall j : nat, (j <= o_maxiter o)%N -> cr (ip1 (lB l)) (lMlAMr l) (lMop l) (resid l (x0_of x0)) j != 0 by [].
have := cg_total (o := o) (store := false) (lsys_kd hl x0) (pos_def_spd _ h (lMlAMr_lin hl) sa pd) bn he hst tol0.
rewrite /cg_solve (bnorm_ok hl) /=; case E: (krun _ _ _ _) => [s|s|//] _; exists s; by [left|right].
Qed.

Let a1 := cex (Some 1%N) (Some cex_inv).

Let inv_lin : is_linear cex_inv.
Proof.
have h (x y u v t c : C) : t * (2%:R * (c * x + y) - (c * u + v)) = c * (t * (2%:R * x - u)) + t * (2%:R * y - v) by ring.
by move=> c x y; rewrite /cex_inv (@swap_lin C); move: (swap_op x) (swap_op y) => u v; apply/matrixP => i j; rewrite !mxE; apply: h.
Qed.

Let invK x : spd_op (cex_inv x) = x.
Proof.
rewrite /cex_inv (linZ (@spd_lin C)) /spd_op.
have -> : swap_op (2%:R *: x - swap_op x) = 2%:R *: swap_op x - x.
  by rewrite (linB (@swap_lin C)) (linZ (@swap_lin C)) swap_swap.
have h (a b : C) : 3%:R^-1 * (2%:R * (2%:R * a - b) + (2%:R * b - a)) = a by field.
by move: (swap_op x) => u; apply/matrixP => i j; rewrite !mxE.
Qed.

Let fl := full_lsys a1.
Let fl_ok : lsys_ok fl.
Proof. by case: (c_lsys_ok (cex_ok (Some 1%N) (Some cex_inv))) => *; split=> //; exact: inv_lin. Qed.
Let flA x : lMlAMr fl x = x.
Proof. exact: invK. Qed.
Let fl_ip : is_ip (ip1 (lB fl)) := valid_is_ip (lo_B fl_ok).
Let fl_sa : self_adjoint (ip1 (lB fl)) (lMlAMr fl).
Proof. by move=> x y; rewrite !flA. Qed.
Let fl_pd : pos_def (ip1 (lB fl)) (lMlAMr fl).
Proof. by move=> x nx; rewrite !flA; apply: (ip_pos fl_ip). Qed.
Let fl_nz : lMl fl (lb fl) <> 0.
Proof. by apply/eqP; exact: e0_nz. Qed.
Let tol_gt0 : 0 < 4%:R^-1 :> C.
Proof. by rewrite invr_gt0 ltr0n. Qed.

Let full_conv : exists2 s, cg_solve fl (full_opts a1) false None = Returns s & last 0 (s_res s) <= 4%:R^-1.
Proof.
have [s hs] := cg_any (o := full_opts a1) None fl_ok fl_sa fl_pd fl_nz (ltW tol_gt0) erefl.
have [hsz [xk ex el]] := C21_cg_last_norm fl_ok fl_sa fl_pd fl_nz hs.
have [z [ez hz hopt]] := C21_cg_optimal fl_ok fl_sa fl_pd fl_nz hs.
have lr : last 0 (s_res s) \is Num.real.
  by rewrite el ger0_real // divr_ge0 // sqrtC_ge0; apply: (ip_ge0' (lmip fl_ok)).
have [E|E] := hs.
  exists s => //; move: (E); rewrite /cg_solve (bnorm_ok fl_ok) => E'.
  have [_ h] := C23_normal_return (cg_good _ _) E'.
  have tr : 4%:R^-1 \is @Num.real C by rewrite ger0_real // ltW.
  by rewrite real_leNgt //; apply/negP => hg; case: (h hg).
exfalso; move: (E); rewrite /cg_solve (bnorm_ok fl_ok) => E'.
have [_ ei sz hg _] := C23_convergence_error (cg_good _ _) E'.
have i1 : cg_it (s_st s) = 1%N := ei.
have ze : z = e0 C.
  apply/eqP; rewrite eq_sym -subr_eq0; apply/negPn/negP => ne.
  have r0 : resid fl (x0_of None + lMr fl (e0 C)) = 0.
    by rewrite /resid add0r -[lA fl _]/(lMlAMr fl (e0 C)) flA subrr; apply: (lin0 (lo_Ml fl_ok)).
  have := hopt _ (e0 C) r0; rewrite i1.
  have k1 : in_krylov (lMlAMr fl) (lMop fl) (resid fl (x0_of None)) 1 (e0 C).
    by exists (fun=> 1); rewrite big_ord1 scale1r /krylov /= /resid /= (lin0 (@spd_lin C)) subr0.
  move=> /(_ k1); rewrite subrr (ipl0 fl_ip) => le0.
  by have := ip_pos fl_ip ne; rewrite -[X in ip1 _ _ X]flA (le_gtF le0).
have := hg 1%N isT; have -> : nth 0 (s_res s) 1 = last 0 (s_res s) by rewrite (last_nth 0); case: (s_res s) sz => // r0 [|r1 [|]].
rewrite el; have -> : resid_norm fl xk = 0.
  apply: (proj1 (C52_zero_residual xk fl_ok)).
  by move: ex; rewrite ez ze /= add0r => -[<-]; rewrite invK.
by rewrite mul0r (lt_gtF tol_gt0).
Qed.

Let a1_conv : exists s, conv_cg a1 false = CNoConvergence s.
Proof.
have ok := cex_ok (Some 1%N) (Some cex_inv); have hl := c_lsys_ok ok.
have sa : self_adjoint (ip1 (lB (c_lsys a1))) (lMlAMr (c_lsys a1)).
  by move=> x y; rewrite !c_ipE; apply: (@cex_sa (Some 1%N) (Some cex_inv)).
have pd : pos_def (ip1 (lB (c_lsys a1))) (lMlAMr (c_lsys a1)).
  by move=> x nx; rewrite !c_ipE; apply: (@cex_pd (Some 1%N) (Some cex_inv)).
have nz : lMl (c_lsys a1) (lb (c_lsys a1)) <> 0 by apply/eqP; exact: e0_nz.
have [s hs] := cg_any (o := c_opts a1) None hl sa pd nz (ltW tol_gt0) erefl.
have [hsz [xk ex el]] := C21_cg_last_norm hl sa pd nz hs.
have [z [ez hz _]] := C21_cg_optimal hl sa pd nz hs.
have [E|E] := hs; last by exists s; rewrite /conv_cg /c_call /= E.
exfalso; move: (E); rewrite /cg_solve (bnorm_ok hl) => E'.
have [_ h] := C23_normal_return (cg_good _ _) E'.
have [x [_ [hh _]]] := C24_accounting (cg_good _ _) E'; have := h_max hh => hm.
have [c ec] : exists c, xk = c *: e0 C.
  move: ex; rewrite ez /= add0r => -[<-]; case: hz => c ->; move: hm => /=.
  have k0 : krylov (fun x => lMop (c_lsys a1) (lMlAMr (c_lsys a1) x)) (lMop (c_lsys a1) (resid (c_lsys a1) (x0_of None))) 0 = e0 C.
    by rewrite /krylov /= /resid /= (lin0 (@spd_lin C)) subr0.
  case: (cg_it (s_st s)) => [|[|//]] _; first by exists 0; rewrite big_ord0 scale0r.
  by exists (c 0%N); rewrite big_ord1 k0.
have ge5 : 5%:R^-1 <= last 0 (s_res s) ^+ 2.
  have ip2 (u v : vec) : ip u v = (u 0 0)^* * v 0 0 + (u 1 0)^* * v 1 0.
    by rewrite /ip1 /= mxE big_ord_recl big_ord1 !tconjE !ctrE; congr (_ + _ * _); [congr ((u _ _)^*)|congr (v _ _)]; apply: val_inj.
  rewrite el expr_div_n !sqrtCK !c_ipE /u_ip /= /resid /= ec (linZ (@spd_lin C)) /spd_op swap_e0 !ip2 !mxE /=.
  rewrite !(mulr1, mulr0, addr0, add0r, sub0r, rmorphN, rmorphB, rmorphM, rmorph1, rmorph0, conjC_nat, mulrNN).
  rewrite -[5%:R^-1]mulr1 ler_pdivr_mull ?ltr0n // -subr_ge0.
  set d := (X in 0 <= X); have -> : d = (5%:R * c - 2%:R) * (5%:R * c - 2%:R)^*; last exact: mul_conjC_ge0.
  rewrite /d rmorphB rmorphM !conjC_nat; move: c^* => cc; by field.
have : last 0 (s_res s) <= 4%:R^-1.
  have tr : 4%:R^-1 \is @Num.real C by rewrite ger0_real // ltW.
  rewrite real_leNgt //; first by apply/negP => hg; case: (h hg).
  by rewrite el ger0_real // divr_ge0 // sqrtC_ge0; apply: (ip_ge0' (lmip hl)).
move=> le4; have : last 0 (s_res s) ^+ 2 <= 4%:R^-1 ^+ 2.
  rewrite ler_pexpn2r // ?nnegrE ?(ltW tol_gt0) // el divr_ge0 // sqrtC_ge0; apply: (ip_ge0' (lmip hl)).
move=> /(le_trans ge5); rewrite exprVn -natrX ler_pinv ?inE ?unitfE ?pnatr_eq0 ?ltr0n // ler_nat.
by [].
Qed.

(** The argument Mr is not used: the results with and without it are the same. *)
Theorem C44_Mr_unused sqr snorm N (a a' : cargs C N) ortho store k (U : 'M[C]_(N, k)) :
  a' = CArgs (c_shape a) (c_A a) (c_isI a) (c_b a) (c_M a) (c_Minv a) (c_Ml a) None (c_ip a)
         (c_exact a) (c_x0 a) (c_tol a) (c_maxiter a) (c_explicit a) ->
  [/\ conv_cg a store = conv_cg a' store, conv_minres snorm a ortho = conv_minres snorm a' ortho,
      conv_gmres snorm a ortho = conv_gmres snorm a' ortho
    & [/\ conv_cg_U sqr a store U = conv_cg_U sqr a' store U,
          conv_minres_U sqr snorm a ortho U = conv_minres_U sqr snorm a' ortho U
        & conv_gmres_U sqr snorm a ortho U = conv_gmres_U sqr snorm a' ortho U]].
Proof. by move=> ->. Qed.

(** So the system with all the given arguments is not the one that is solved: for
    A = [[2,1],[1,2]], Mr = A^-1, maxiter = 1 the solver called with Mr converges, cg with
    the same arguments does not.  And a run without convergence does not return None, it
    raises ConvergenceError. *)
Theorem C44_Mr_refuted : let a := cex (Some 1%N) (Some cex_inv) in
  [/\ args_ok a, forall x, c_A a (u_Mr a x) = x,
      exists2 s, cg_solve (full_lsys a) (full_opts a) false (c_x0 a) = Returns s & last 0 (s_res s) <= c_tol a
    & exists s, conv_cg a false = CNoConvergence s].
Proof. by move=> a; split; [exact: cex_ok|exact: invK|exact: full_conv|exact: a1_conv]. Qed.

(** resnorms[-1] < tol is strict, although the iterations stop when resnorms[-1] <= tol:
    with b = 0 and tol = 0 the solver returns the exact solution xk = 0, the functions
    return None. *)
Theorem C44_strict_refuted snorm : let a := CArgs [:: 2; 2]%N (@spd_op C) false (Flat (0 : vec)) None None None None
    None None None 0 None false in
  [/\ exists2 s, conv_cg a false = CReturns None s & s_xk s = Some 0 /\ last 0 (s_res s) <= c_tol a,
      exists2 s, conv_minres snorm a Mgs = CReturns None s & s_xk s = Some 0 /\ last 0 (s_res s) <= c_tol a
    & exists2 s, conv_gmres snorm a Mgs = CReturns None s & s_xk s = Some 0 /\ last 0 (s_res s) <= c_tol a].
Proof.
move=> a; have ipE x y : u_ip a x y = ip x y by rewrite -c_ipE.
have ha : args_ok a.
  split=> //; first exact: spd_lin; first exact: (eq_is_ip ipE hip).
  by move=> x nx; rewrite ipE; apply: (ip_pos hip).
have hl := c_lsys_ok ha.
split.
- have [|s E [e1 _ e2]] := @C26_cg_zero_rhs C 2 (c_lsys a) (c_opts a) false None hl (lexx 0); first by [].
  by exists s; rewrite ?e2 //= /conv_cg /c_call /= E /c_finish e2 /= ltxx.
- have [|s E [e1 _ e2]] := @C26_minres_zero_rhs C 2 snorm (c_lsys a) (c_opts a) Mgs None hl I (lexx 0); first by [].
  by exists s; rewrite ?e2 //= /conv_minres /c_call /= E /c_finish e2 /= ltxx.
- have [|s E [e1 _ e2]] := @C26_gmres_zero_rhs C 2 snorm (c_lsys a) (c_opts a) Mgs None hl I (lexx 0); first by [].
  by exists s; rewrite ?e2 //= /conv_gmres /c_call /= E /c_finish e2 /= ltxx.
Qed.
End Example.

Print Assumptions C44_asserts.
Print Assumptions C44_solver.
Print Assumptions C44_solver_U.
Print Assumptions C44_cg_solution.
Print Assumptions C44_minres_solution.
Print Assumptions C44_gmres_solution.
Print Assumptions C44_zero_rhs.
Print Assumptions C44_cg_converges.
Print Assumptions C44_cg_U_solution.
Print Assumptions C44_minres_U_solution.
Print Assumptions C44_gmres_U_solution.
Print Assumptions C44_wrap.
Print Assumptions C44_wrap_refuted.
Print Assumptions C44_Mr_unused.
Print Assumptions C44_Mr_refuted.
Print Assumptions C44_strict_refuted.
