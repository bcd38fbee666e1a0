(** Solvers that use operators with the same values compute the same. *)
From mathcomp Require Import all_ssreflect all_algebra.
From Verif Require Import Base Model.Inner Model.Arnoldi Model.Solver Model.LinearSystem Model.Krylov.

Set Implicit Arguments.
Unset Strict Implicit.
Unset Printing Implicit Defensive.
Import Order.TTheory GRing.Theory Num.Theory.
Local Open Scope ring_scope.

Local Arguments norm : simpl never.

Section Ext.
Variable C : numClosedFieldType.
Variable N : nat.
Local Notation vec := 'cV[C]_N.

Lemma bindO_ext S A (r r' : res A) (f f' : A -> outcome C vec S) : r = r' -> (forall a, f a = f' a) ->
  bindO r f = bindO r' f'.
Proof. by move=> -> h; case: r' => //= a; apply: h. Qed.

Section Method.
Variable St : Type.
Variables (r0 r0' : option vec -> res C) (start start' : option vec -> vec -> res St)
  (it : St -> nat) (inv : St -> bool) (step step' : St -> res (St * C)) (getx getx' : St -> res vec)
  (gx0 gx0' : vec -> res vec) (feed : St -> C -> St) (incr : bool).
Hypothesis h0 : forall x, r0 x = r0' x.
Hypothesis hs : forall x y, start x y = start' x y.
Hypothesis ht : forall t, step t = step' t.
Hypothesis hx : forall t, getx t = getx' t.
Hypothesis hx0 : forall t, gx0 t = gx0' t.

Let m := Method r0 start it inv step getx gx0 feed incr.
Let m' := Method r0' start' it inv step' getx' gx0' feed incr.
Local Notation gt := (fun a b : C => b < a).

Lemma more_ext o (s : sol C vec St) : more (m := m) gt 0 o s = more (m := m') gt 0 o s.
Proof. by []. Qed.

Lemma krun_ext ys o x0 :
  krun ys o (Method r0 start it inv step getx gx0 feed incr) x0 =
  krun ys o (Method r0' start' it inv step' getx' gx0' feed incr) x0.
Proof.
rewrite /krun /run /=; apply: bindO_ext => // r.
apply: bindO_ext; first by case: (y_errnorm ys) => // en; rewrite hx0.
move=> err; apply: bindO_ext => // t.
move: (Sol _ _ _ _ _ _) => s; elim: (o_maxiter o) s => [|f IH] s.
  rewrite /loop [more _ _ _ _]more_ext; case: ifP => // _; case: (s_xk s) => [x|] //=.
  by rewrite hx.
rewrite /loop -/loop [more _ _ _ _]more_ext.
case: ifP => _; last by case: (s_xk s) => //=; rewrite hx.
rewrite /body; apply: bindO_ext => [|[t' rn]]; first exact: ht.
rewrite /finalize_iteration; apply: bindO_ext => [|[xk e']].
  by case: (y_errnorm ys) => // en; rewrite [m_getx _]hx.
case: ifP => _; last exact: IH.
apply: bindO_ext; first by case: xk => //; apply: hx.
move=> y; apply: bindO_ext => // rk; case: ifP => // _; exact: IH.
Qed.
End Method.

Variables d d' : kdata C N.
Hypothesis eA : forall v, k_A d v = k_A d' v.
Hypothesis eM : k_M d = k_M d'.
Hypothesis eB : k_B d = k_B d'.
Hypothesis eMr : k_Mr d = k_Mr d'.
Hypothesis eres : forall x, k_res0 d x = k_res0 d' x.
Hypothesis efix : forall x, k_fix d x = k_fix d' x.
Variable snorm : nat -> nat -> (nat -> nat -> C) -> C.

Lemma advance_ext (A A' : vec -> vec) M B o m a : (forall v, A v = A' v) ->
  advance snorm (ACfg A M B o m) a = advance snorm (ACfg A' M B o m) a.
Proof.
move=> h; have e := h (a_V a (a_iter a)); rewrite /advance.
have -> : advance_gs snorm (ACfg A M B o m) a = advance_gs snorm (ACfg A' M B o m) a.
  rewrite -[LHS]/(advance_gs snorm (ACfg (fun _ => A (a_V a (a_iter a))) M B o m) a) e.
  by [].
have -> : advance_house snorm (ACfg A M B o m) a = advance_house snorm (ACfg A' M B o m) a.
  by rewrite /advance_house [cA _ _]e.
by [].
Qed.

Lemma k_arn_ext maxiter ortho x : k_arn d maxiter ortho x = k_arn d' maxiter ortho x.
Proof.
rewrite /k_arn eres /k_cfg eM eB; case: (k_res0 d' x) => [[[r1 r2] r3]|] //=.
Qed.

Lemma adv_ext maxiter ortho a : advance snorm (k_cfg d maxiter ortho) a = advance snorm (k_cfg d' maxiter ortho) a.
Proof. by rewrite /k_cfg eM eB; apply: advance_ext. Qed.

Lemma gmres_ext ys o maxiter ortho x0 :
  krun ys o (gmres snorm d maxiter ortho) x0 = krun ys o (gmres snorm d' maxiter ortho) x0.
Proof.
apply: krun_ext => //.
- by move=> x; rewrite /r0_norm eres.
- by move=> x y; rewrite /gmres_start k_arn_ext.
- by move=> t; rewrite /gmres_step adv_ext.
- by move=> t; rewrite /gmres_getx eMr; case: ifP => // _; case: (solve_tri _ _ _) => //= a; apply: efix.
Qed.

Lemma minres_ext ys o maxiter ortho x0 :
  krun ys o (minres snorm d maxiter ortho) x0 = krun ys o (minres snorm d' maxiter ortho) x0.
Proof.
apply: krun_ext => //.
- by move=> x; rewrite /r0_norm eres.
- by move=> x y; rewrite /minres_start k_arn_ext.
- by move=> t; rewrite /minres_step adv_ext.
- by move=> t; rewrite /minres_getx eMr efix.
Qed.

Lemma cg_ext ys o store x0 : krun ys o (cg d store) x0 = krun ys o (cg d' store) x0.
Proof.
apply: krun_ext => //.
- by move=> x; rewrite /r0_norm eres.
- by move=> x y; rewrite /cg_start eres eM.
- by move=> t; rewrite /cg_step /k_Mop eM eB; case: (if _ then divE _ _ else _) => //= om; rewrite eA.
- by move=> t; rewrite /cg_getx eMr efix.
Qed.
End Ext.
