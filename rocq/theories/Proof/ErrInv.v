(** The error norms recorded by the solvers. *)
From mathcomp Require Import all_ssreflect all_algebra.
From Verif Require Import Base Spec.LinAlg Model.Inner Spec.Inner Proof.Algebra Proof.Inner Proof.IpTheory.
From Verif Require Import Model.Arnoldi Spec.Arnoldi Proof.Arnoldi Proof.ArnoldiAll.
From Verif Require Import Model.Solver Spec.Solver Model.LinearSystem Model.Krylov Spec.Krylov.
From Verif Require Import Proof.Solver Proof.ArnoldiRel Proof.SolverInv Proof.Gmres Proof.LinearSystem Proof.CgTheory Proof.Cg Proof.Minres.

Set Implicit Arguments.
Unset Strict Implicit.
Unset Printing Implicit Defensive.
Import Order.TTheory GRing.Theory Num.Theory.

Section Inv.
Variables (S X : Type).
Variables (gt le : S -> S -> bool) (isz : S -> bool) (div : S -> S -> S) (zero : S).
Variable zeroX : X.
Variables (y : sys S X) (o : opts S) (m : method S X) (x0 : option X) (en : X -> res S).
Hypothesis gm : good_method m.
Local Notation st := (m_st m).
(** P i x: x is the i-th approximation. *)
Variables (Inv : st -> Prop) (P : nat -> X -> Prop).
Let x0' := if x0 is Some x then x else zeroX.
Hypothesis hen : y_errnorm y = Some en.
Hypothesis H0 : forall t, m_start m x0 x0' = Ok t -> Inv t.
Hypothesis Hp : forall x, m_getx0 m x0' = Ok x -> P 0 x.
Hypothesis Hs : forall (t t' : st) r, Inv t -> m_inv t = false -> (m_iter t < o_maxiter o)%N ->
  m_step t = Ok (t', r) -> Inv t'.
Hypothesis Hx : forall (t : st) x r, Inv t -> (0 < m_iter t)%N ->
  m_getx t = Ok x -> y_resnorm y x = Ok r -> Inv (m_feed t r).
Hypothesis Hg : forall (t : st) x, Inv t -> m_getx t = Ok x -> P (m_iter t) x.
Hypothesis bn : isz (y_bnorm y) = false.

Definition allP (es : seq S) : Prop :=
  forall i, (i < size es)%N -> exists2 x, P i x & en x = Ok (nth zero es i).

Definition egood (s : sol S X st) : Prop :=
  [/\ Inv (s_st s), allP (s_err s), size (s_res s) = (m_iter (s_st s)).+1 & size (s_err s) = size (s_res s)].

Definition egoodo (out : outcome S X st) : Prop :=
  match out with
  | Returns s | NoConvergence s => allP (s_err s) /\ size (s_err s) = size (s_res s)
  | Raises _ => True end.

Lemma allP_rcons es x e : allP es -> P (size es) x -> en x = Ok e -> allP (rcons es e).
Proof.
move=> h hp he i; rewrite size_rcons ltnS leq_eqVlt nth_rcons => /orP[/eqP->|hi].
  by rewrite ltnn eqxx; exists x.
by rewrite hi; apply: h.
Qed.

Lemma ebody s k : egood s -> more gt zero o s -> (forall s', egood s' -> egoodo (k s')) ->
  egoodo (body gt le div y o s k).
Proof.
move=> [h1 h2 h3 h4] /and3P[_ hit /negbTE hinv] hk; rewrite /body.
case Es: (m_step (s_st s)) => [[t r]|e] //=; have it := gm_step gm Es.
have i1 := Hs h1 hinv hit Es.
rewrite /finalize_iteration /= hen; case Ex: (m_getx t) => [x|//] /=; case Ee: (en x) => [e|//] /=.
have he : allP (rcons (s_err s) e).
  by apply: (allP_rcons h2 _ Ee); rewrite h4 h3 -it; apply: Hg.
case: ifP => _; last by apply: hk; split=> //=; rewrite !size_rcons ?h4 ?h3 ?it.
case Er: (y_resnorm y x) => [rkn|//] /=.
case: ifP => _; first by split=> //=; rewrite !size_rcons h4.
have t0 : (0 < m_iter t)%N by rewrite it.
by apply: hk; split=> /=; rewrite ?size_rcons ?h4 ?h3 ?(gm_iter gm) ?it //; exact: Hx Er.
Qed.

Lemma eloop f s : egood s -> egoodo (loop gt le div zero y o f s).
Proof.
have fin s' : egood s' -> egoodo (match s_xk s' with
    | Some _ => Returns s'
    | None => bindO (m_getx (s_st s')) (fun x =>
        Returns (Sol (s_st s') (s_iter s') (s_x0 s') (Some x) (s_res s') (s_err s')))
    end).
  by case=> _ h1 _ h2; case: (s_xk s') => //; case: (m_getx _).
elim: f s => [|f IH] s h /=; case: ifP => [hm|_] //; try exact: fin.
by apply: (ebody h hm) => s' h'; apply: IH.
Qed.

Lemma erun : egoodo (run gt le isz div zero zeroX y o m x0).
Proof.
rewrite /run; case E0: (m_r0 m x0) => [r0|e] //=; rewrite bn hen.
case Ex: (m_getx0 m _) => [x|//] /=; case Ee: (en x) => [e|//] /=.
case Es: (m_start m x0 _) => [t|//] /=; apply: eloop; split=> //=.
- exact: H0.
- by case=> // _; exists x => //; apply: Hp.
- by rewrite (gm_start gm Es).
Qed.
End Inv.

Local Open Scope ring_scope.

Section Methods.
Variable C : numClosedFieldType.
Variable N : nat.
Local Notation vec := 'cV[C]_N.
Variables (d : kdata C N) (ys : sys C vec) (x0 : option vec) (r0 : vec) (o : opts C) (en : vec -> res C).
Variable snorm : nat -> nat -> (nat -> nat -> C) -> C.
Variable ortho : ortho_t.
Hypothesis hd : kd_ok d ys x0 r0.
Local Notation ip := (ip1 (k_B d)).
Local Notation A := (k_A d).
Local Notation M := (k_Mop d).
Local Notation K n := (in_krylov A M r0 n).
Local Notation rn := (rnorm ip A M r0).
Hypothesis hen : y_errnorm ys = Some en.
Hypothesis nb : y_bnorm ys != 0.
(** The entry e of errnorms belongs to the approximation with the coefficient vector z. *)
Definition err_of z e := exists2 x, k_fix d (x0_of x0 + k_Mr d z) = Ok x & en x = Ok e.

Section Arnoldi.
Hypothesis hc : arn_cfg (k_cfg d (o_maxiter o) ortho).

Lemma gmres_err s : of_run (krun ys o (gmres snorm d (o_maxiter o) ortho) x0) s ->
  size (s_err s) = size (s_res s) /\
  forall i, (i < size (s_err s))%N -> exists2 z, minimizer rn (K i) z & err_of z (nth 0 (s_err s) i).
Proof.
pose gm := gmres snorm d (o_maxiter o) ortho; pose inv := gm_inv d x0 r0 (o_maxiter o) snorm ortho.
pose P i x := exists2 z, minimizer rn (K i) z & k_fix d (x0_of x0 + k_Mr d z) = Ok x.
have := @erun C vec (fun a b => b < a) (fun a b => a <= b) (fun a => a == 0)
  (fun a b => a / b) 0 (0 : vec) ys o gm x0 en (gmres_good d (o_maxiter o) snorm ortho) inv P hen.
have -> : (if x0 is Some x then x else 0) = x0_of x0 by [].
move=> h; have {}h := h (gm_start_inv snorm hd hc).
have hp x : m_getx0 gm (x0_of x0) = Ok x -> P 0%N x.
  move=> /= E; exists 0; last by rewrite (lin0 (ko_Mr hd)) addr0.
  by split=> [|z [e ->]]; [exact: span0|rewrite big_ord0].
have hs (t t' : m_st gm) r : inv t -> m_inv t = false -> (m_iter t < o_maxiter o)%N ->
   m_step t = Ok (t', r) -> inv t'.
  by move=> i1 i2 _ E; have [] := gm_step_inv hd hc i1 i2 E.
have hx (t : m_st gm) x r : inv t -> (0 < m_iter t)%N -> m_getx t = Ok x -> y_resnorm ys x = Ok r -> inv (m_feed t r) by [].
have hg (t : m_st gm) x : inv t -> m_getx t = Ok x -> P (m_iter t) x.
  by move=> i1 E; have [z h1 h2] := gm_getx_min hd i1 E; exists z.
have {}h := h hp hs hx hg (negbTE nb).
by case=> E; move: h; rewrite -/(krun ys o gm x0) E => -[h1 h2]; split=> // i /h1[x [z ? ?] ?]; exists z => //; exists x.
Qed.

Lemma minres_err s : self_adjoint ip A -> of_run (krun ys o (minres snorm d (o_maxiter o) ortho) x0) s ->
  size (s_err s) = size (s_res s) /\
  forall i, (i < size (s_err s))%N -> exists2 z, minimizer rn (K i) z & err_of z (nth 0 (s_err s) i).
Proof.
move=> hsa; pose mr := minres snorm d (o_maxiter o) ortho; pose inv := mr_inv d x0 r0 (o_maxiter o) snorm ortho.
pose P i x := exists2 z, minimizer rn (K i) z & k_fix d (x0_of x0 + k_Mr d z) = Ok x.
have := @erun C vec (fun a b => b < a) (fun a b => a <= b) (fun a => a == 0)
  (fun a b => a / b) 0 (0 : vec) ys o mr x0 en (minres_good d (o_maxiter o) snorm ortho) inv P hen.
have -> : (if x0 is Some x then x else 0) = x0_of x0 by [].
move=> h; have {}h := h (mr_start_inv snorm hd hc).
have hp x : m_getx0 mr (x0_of x0) = Ok x -> P 0%N x.
  move=> /= E; exists 0; last by rewrite (lin0 (ko_Mr hd)) addr0.
  by split=> [|z [e ->]]; [exact: span0|rewrite big_ord0].
have hs (t t' : m_st mr) r : inv t -> m_inv t = false -> (m_iter t < o_maxiter o)%N ->
   m_step t = Ok (t', r) -> inv t'.
  by move=> i1 i2 _ E; have [] := mr_step_inv hd hc hsa i1 i2 E.
have hx (t : m_st mr) x r : inv t -> (0 < m_iter t)%N -> m_getx t = Ok x -> y_resnorm ys x = Ok r -> inv (m_feed t r) by [].
have hg (t : m_st mr) x : inv t -> m_getx t = Ok x -> P (m_iter t) x.
  by move=> i1; rewrite /= /minres_getx (mr_x0E i1) => E; exists (mr_yk t) => //; have [] := mr_min hd i1.
have {}h := h hp hs hx hg (negbTE nb).
by case=> E; move: h; rewrite -/(krun ys o mr x0) E => -[h1 h2]; split=> // i /h1[x [z ? ?] ?]; exists z => //; exists x.
Qed.
End Arnoldi.

Lemma cg_err store s : cg_spd ip A r0 -> of_run (krun ys o (cg d store) x0) s ->
  size (s_err s) = size (s_res s) /\
  forall i, (i < size (s_err s))%N -> err_of (cy ip A M r0 i) (nth 0 (s_err s) i).
Proof.
move=> hspd; pose m := cg d store; pose inv := cg_ok d x0 r0 store.
pose P i x := k_fix d (x0_of x0 + k_Mr d (cy ip A M r0 i)) = Ok x.
have := @erun C vec (fun a b => b < a) (fun a b => a <= b) (fun a => a == 0)
  (fun a b => a / b) 0 (0 : vec) ys o m x0 en (cg_good d store) inv P hen.
have -> : (if x0 is Some x then x else 0) = x0_of x0 by [].
move=> h; have {}h := h (fun t => cg_start_inv hd (t := t)).
have hp x : m_getx0 m (x0_of x0) = Ok x -> P 0%N x.
  by move=> /= E; rewrite /P /cy big_ord0 (lin0 (ko_Mr hd)) addr0.
have hs (t t' : m_st m) r : inv t -> m_inv t = false -> (m_iter t < o_maxiter o)%N ->
   m_step t = Ok (t', r) -> inv t'.
  by move=> i1 i2 _ E; have [] := cg_step_inv hd hspd i1 E.
have hx (t : m_st m) x r : inv t -> (0 < m_iter t)%N -> m_getx t = Ok x -> y_resnorm ys x = Ok r -> inv (m_feed t r).
  by move=> i1 _ E Er; apply: cg_feed_inv => //; apply: (cg_explicit hd i1 E Er).
have hg (t : m_st m) x : inv t -> m_getx t = Ok x -> P (m_iter t) x.
  by move=> i1; rewrite /= /cg_getx (ci_x0 i1) (ci_y i1).
have {}h := h hp hs hx hg (negbTE nb).
by case=> E; move: h; rewrite -/(krun ys o m x0) E => -[h1 h2]; split=> // i /h1[x ? ?]; exists x.
Qed.
End Methods.
