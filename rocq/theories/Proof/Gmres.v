(** Proof that GMRES minimises the residual norm over the Krylov space. *)
From mathcomp Require Import all_ssreflect all_algebra.
From Verif Require Import Base Spec.LinAlg Proof.Algebra Model.Inner Spec.Inner Proof.Inner Model.Arnoldi.
From Verif Require Import Spec.Arnoldi Proof.IpTheory Proof.ArnoldiRel Proof.Arnoldi Proof.HouseArnoldi Proof.ArnoldiAll.
From Verif Require Import Model.Solver Spec.Solver Proof.Solver Proof.SolverInv Properties.Solver.
From Verif Require Import Model.LinearSystem Model.Krylov Spec.Krylov Proof.Projected.

Set Implicit Arguments.
Unset Strict Implicit.
Unset Printing Implicit Defensive.
Import Order.TTheory GRing.Theory Num.Theory.
Local Open Scope ring_scope.

(** Minimal residuals in terms of an Arnoldi relation and its QR factorisation. *)
Section Min.
Variable C : numClosedFieldType.
Variable N : nat.
Local Notation vec := 'cV[C]_N.
Variables (ip : vec -> vec -> C) (A M : vec -> vec) (r0 : vec).
Hypothesis hip : is_ip ip.
Hypothesis hA : is_linear A.
Hypothesis hM : is_linear M.
Hypothesis hMsa : self_adjoint ip M.
Hypothesis hMpd : pos_def ip M.
Let mp := mip ip M.
Let hmp : is_ip mp := hmp hip hM hMsa hMpd.
Variables (n m : nat) (V P : nat -> vec) (H : nat -> nat -> C).
Hypothesis Rl : arnoldi_rel ip A M r0 n m V P H.
Hypothesis hm : m = n.+1 \/ m = n /\ ((0 < n)%N \/ r0 = 0).

Hypothesis hv : (0 < n)%N -> r0 != 0.

(** ||M(r0 - A z)||_{M^-1} *)
Definition rnorm (z : vec) : C := mnorm ip M (r0 - A z).

Lemma mnormE x : mnorm ip M x = ipnorm mp x. Proof. by []. Qed.

Lemma krylov_V z : in_krylov A M r0 n z <-> in_span V n z.
Proof.
have hnm : (n <= m)%N by case: hm => [->|[->]].
case: (posnP n) => [n0|n0].
  by split=> [[c ->]|[c ->]]; exists c; rewrite !big1 // => i; have := ltn_ord i; rewrite {2}n0.
have v0 := hv n0.
have [h1 h2] := rel_krylov hip hA hM hMsa hMpd Rl hnm (leqW (leqnn n)) v0.
have kM j : krylov (fun x => M (A x)) (M r0) j = M (krylov (fun x => A (M x)) r0 j).
  by elim: j => //= j ->.
split=> hz.
  apply: (span_trans hz) => i hi; rewrite kM.
  have := span_map hM (h1 i hi) => hs.
  apply: (@span_widen _ _ _ i.+1) => //.
  by apply: (span_ext _ hs) => j hj; rewrite (ar_V Rl) // (leq_trans hj) // (leq_trans hi).
apply: (span_trans hz) => i hi; rewrite (ar_V Rl); last exact: leq_trans hnm.
have := span_map hM (h2 i hi) => hs; apply: (@span_widen _ _ _ i.+1) => //.
by apply: (span_ext _ hs) => j hj; rewrite kM.
Qed.

Variables (R : nat -> nat -> C) (G : nat -> givens C) (y : nat -> C).
Definition rhs : nat -> C := upd (fun _ => 0) 0 (ipnorm mp r0).
Hypothesis q : qr_state n H R G rhs y.

Lemma rhsE i : rhs i = if i == 0%N then ipnorm mp r0 else 0.
Proof. by []. Qed.

Lemma rnorm_sq (c : nat -> C) : rnorm (\sum_(j < n) c j *: V j) ^+ 2 =
  \sum_(i < n) `|y i - \sum_(j < n) c j * R i j| ^+ 2 + `|y n| ^+ 2.
Proof.
rewrite /rnorm mnormE (ipnorm_sq mp) -(lsq q).
have := rel_comb hip hA hM hMsa hMpd Rl hm 1 c; rewrite scale1r mul1r => e.
rewrite [LHS]e; apply: eq_bigr => i _; by rewrite rhsE.
Qed.

Lemma rnorm_ge z : in_krylov A M r0 n z -> `|y n| <= rnorm z.
Proof.
move=> /krylov_V[c ->].
rewrite -(@ler_pexpn2r _ 2) ?nnegrE // ?(ipnorm_ge0 hmp) //.
rewrite rnorm_sq ler_addr sumr_ge0 // => i _; exact: exprn_ge0.
Qed.

Lemma rnorm_solve c : solve_tri R y n = Ok c ->
  in_krylov A M r0 n (\sum_(j < n) c j *: V j) /\ rnorm (\sum_(j < n) c j *: V j) = `|y n|.
Proof.
move=> E; have [_ hc] := solve_tri_ok E; split; first by apply/krylov_V; exists c.
apply/eqP; rewrite -(@eqr_expn2 _ 2) ?(ipnorm_ge0 hmp) // rnorm_sq big1 ?add0r //.
by move=> i _; rewrite hc ?subrr ?normr0 ?expr0n //; apply: (q_tri q).
Qed.

Lemma solve_min c : solve_tri R y n = Ok c ->
  minimizer rnorm (in_krylov A M r0 n) (\sum_(j < n) c j *: V j).
Proof.
by move=> E; have [h1 h2] := rnorm_solve E; split=> // z hz; rewrite h2; apply: rnorm_ge.
Qed.

Lemma tri_nonsing : m = n.+1 -> exists c, solve_tri R y n = Ok c.
Proof.
move=> em; apply: solve_tri_total => i hi; apply: (q_diag q) => //.
have [w [_ _ _ h]] := ar_step Rl hi; have hi' : (i.+1 < m)%N by rewrite em ltnS.
by have [_ h0] := h hi'; rewrite gt_eqF.
Qed.

(** If A is injective on the Krylov spaces the projected problem is always solvable. *)
Lemma tri_injective : krylov_inj A M r0 -> (n <= m)%N -> exists c, solve_tri R y n = Ok c.
Proof.
move=> inj hnm; apply: solve_tri_total => i hi; apply/eqP => r0i.
have [c [[j hj cj] hc]] := tri_kernel (q_tri q) hi r0i.
pose x := \sum_(j < n) c j *: V j.
have e0 : mp (A x) (A x) = 0.
  have := rel_comb hip hA hM hMsa hMpd Rl hm 0 c; rewrite -/mp scale0r add0r (ipNl hmp) (ipNr hmp) opprK => e.
  rewrite [LHS]e (eq_bigr (fun i : 'I_n.+1 => `|\sum_(j < n) c j * H i j| ^+ 2)).
    by rewrite (qr_norm q) big1 // => i' _; rewrite hc ?normr0 ?expr0n.
  by move=> i' _; rewrite mul0r if_same add0r normrN.
have ax : x = 0.
  apply: (inj n); first by apply/krylov_V; exists c.
  by apply/eqP; rewrite -(ip_eq0 hmp) e0.
have : ip x (\sum_(j < n) c j *: P j) = 0 by rewrite ax (ipl0 hip).
pose px := \sum_(j < n) c j *: P j.
have -> : x = M px.
  rewrite /px (lin_sum hM); apply: eq_bigr => k _; rewrite (linZ hM) -(ar_V Rl) //.
  exact: leq_trans hnm.
rewrite hMsa -[ip _ _]/(mp px px) => /eqP; rewrite (ip_eq0 hmp) => /eqP p0.
have ho : orthonormal mp P n by apply: ortho_sub (ar_orth Rl).
have := @ortho_coef _ _ _ hmp P n c j ho hj; rewrite -/px p0 (ipr0 hmp) => e.
by rewrite -e eqxx in cj.
Qed.
End Min.

(** The data handed to the iteration belong to a linear system with initial residual
    r0: the residual norm of the approximation made from z is that of r0 - A z. *)
Section KData.
Variable C : numClosedFieldType.
Variable N : nat.
Local Notation vec := 'cV[C]_N.

Definition x0_of (x0 : option vec) : vec := if x0 is Some x then x else 0.

Record kd_ok (d : kdata C N) (ys : sys C vec) (x0 : option vec) (r0 : vec) : Prop := KdOk {
  ko_B : is_ip (ip1 (k_B d)); ko_A : is_linear (k_A d); ko_Mr : is_linear (k_Mr d);
  ko_M : is_linear (k_Mop d); ko_Msa : self_adjoint (ip1 (k_B d)) (k_Mop d);
  ko_Mpd : pos_def (ip1 (k_B d)) (k_Mop d);
  ko_res : k_res0 d x0 = Ok (k_Mop d r0, r0, mnorm (ip1 (k_B d)) (k_Mop d) r0);
  ko_fix : forall z, exists2 x, k_fix d (x0_of x0 + k_Mr d z) = Ok x &
     y_resnorm ys x = Ok (mnorm (ip1 (k_B d)) (k_Mop d) (r0 - k_A d z)) }.

Variables (d : kdata C N) (ys : sys C vec) (x0 : option vec) (r0 : vec) (maxiter : nat).
Variable snorm : nat -> nat -> (nat -> nat -> C) -> C.
Hypothesis hd : kd_ok d ys x0 r0.
Local Notation ip := (ip1 (k_B d)).
Local Notation A := (k_A d).
Local Notation M := (k_Mop d).
Local Notation K n := (in_krylov A M r0 n).
Local Notation rn := (rnorm ip A M r0).

(** The i-th residual norm is minimal over the i-th Krylov space. *)
Definition min_res (n : nat) (r : C) : Prop := exists2 z, minimizer rn (K n) z & r = rn z.

Lemma min_res_unique n r r' : min_res n r -> min_res n r' -> r = r'.
Proof.
move=> [z [h1 h2] ->] [z' [h1' h2'] ->]; apply/eqP; rewrite eq_le.
by rewrite h2 // h2'.
Qed.

Lemma min_res_lb n r z : min_res n r -> K n z -> r <= rn z.
Proof. by move=> [z' [h1 h2] ->]; apply: h2. Qed.

Section Gm.
Variable ortho : ortho_t.
Local Notation c := (k_cfg d maxiter ortho).
Hypothesis hc : arn_cfg c.

Lemma k_arn_ok : exists a, [/\ k_arn d maxiter ortho x0 = Ok (a, mnorm ip M r0), arn_st c r0 a, a_iter a = 0%N,
   a_inv a = (r0 == 0) & a_vnorm a = ipnorm (cmip c) r0].
Proof.
have hi : init_args c r0 (Some (M r0)) (Some (mnorm ip M r0)) by [].
have [a [E h1 h2 h3 h4]] := arn_init_ok hc hi; exists a; split=> //.
by rewrite /k_arn (ko_res hd) /= E.
Qed.

Record gm_inv (t : gmst C N) : Prop := GmInv {
  gi_x0 : gm_x0 t = x0_of x0;
  gi_st : arn_st c r0 (gm_a t);
  gi_G : size (gm_G t) = a_iter (gm_a t);
  gi_q : qr_state (a_iter (gm_a t)) (a_H (gm_a t)) (gm_R t) (nth (givens0 C) (gm_G t))
           (rhs ip M r0) (gm_y t);
  gi_R : forall i j, (a_iter (gm_a t) <= j)%N -> gm_R t i j = 0;
  gi_nz : (0 < a_iter (gm_a t))%N -> r0 != 0;
  gi_z : a_iter (gm_a t) = 0%N -> a_inv (gm_a t) = (r0 == 0);
  gi_inv : forall k, a_iter (gm_a t) = k.+1 ->
    a_inv (gm_a t) = (a_H (gm_a t) k.+1 k / snorm k.+2 k.+1 (a_H (gm_a t)) <= eps14 C) }.

Lemma gi_m t : gm_inv t -> ncols (gm_a t) = (a_iter (gm_a t)).+1 \/
  ncols (gm_a t) = a_iter (gm_a t) /\ ((0 < a_iter (gm_a t))%N \/ r0 = 0).
Proof.
move=> h; rewrite /ncols; case E: (a_inv (gm_a t)) => /=; last by left; rewrite addn1.
right; rewrite addn0; split=> //; case: (posnP (a_iter (gm_a t))) => n0; [right|by left].
by apply/eqP; rewrite -(gi_z h n0).
Qed.

Lemma gm_start_inv t : gmres_start d maxiter ortho x0 (x0_of x0) = Ok t -> gm_inv t.
Proof.
rewrite /gmres_start; have [a [-> h1 h2 h3 h4]] := k_arn_ok => /= -[<-].
split=> //=; rewrite h2 //; exact: qr0.
Qed.

Lemma gm_step_inv t t' r : gm_inv t -> a_inv (gm_a t) = false ->
  gmres_step snorm d maxiter ortho t = Ok (t', r) ->
  [/\ gm_inv t', a_iter (gm_a t') = (a_iter (gm_a t)).+1 & r = `|gm_y t' (a_iter (gm_a t'))|].
Proof.
move=> hi hinv; rewrite /gmres_step => E; have [a Ea] := bind_ok E => -[<- <-] {E} /=.
have [g1 g2 g3 g4 [g5 g6]] := arn_step hc (gi_st hi) Ea.
set n := a_iter (gm_a t) in g3 g4 *.
have nz : r0 != 0.
  case: (posnP n) => n0; last exact: (gi_nz hi).
  by have := gi_z hi n0; rewrite hinv => /esym/negbT.
have R1 := (gi_st hi).1; have R2 := g1.1.
have nc1 : ncols (gm_a t) = n.+1 by rewrite /ncols hinv addn1.
rewrite /arn_ok nc1 -/n in R1; rewrite /arn_ok g4 in R2.
have nc2 : (n.+1 <= ncols a)%N by rewrite /ncols g4 leq_addr.
have eH i j : (j < n)%N -> a_H a i j = a_H (gm_a t) i j.
  move=> hj; have [_ _] := rel_unique (ko_B hd) (ko_M hd) (ko_Msa hd) (ko_Mpd hd) R1 R2 nz
    (leqnn n.+1) nc2 (leqnn _) (leqW (leqnn _)) (leqW hj).
  by move=> h; rewrite h // ltnW.
have hess i : (n.+1 < i)%N -> a_H a i n = 0 by move=> h; rewrite (ar_hess R2) // h.
have colE : (fun i => if (i < n.+2)%N then a_H a i n else gm_R t i n) =1 (fun i => a_H a i n).
  by move=> i; case: ltnP => // h; rewrite hess // (gi_R hi).
have eC : forn n (fun i f => rot (nth (givens0 C) (gm_G t) i) i f)
    (fun i => if (i < n.+2)%N then a_H a i n else gm_R t i n) =1
    rots (nth (givens0 C) (gm_G t)) n (fun i => a_H a i n) by apply: rots_ext.
split=> //; last by rewrite /= g4.
split=> //=.
- exact: gi_x0 hi.
- by rewrite size_rcons (gi_G hi) g4.
- rewrite g4; apply: (qr_step (gi_q hi)) => //.
  + by move=> i h; rewrite nth_rcons (gi_G hi) h.
  + by rewrite nth_rcons (gi_G hi) ltnn eqxx !eC.
  + move=> i j; rewrite nth_rcons (gi_G hi) ltnn eqxx.
    by case: eqP => // _; apply: rot_ext.
  + by move=> i; rewrite nth_rcons (gi_G hi) ltnn eqxx.
- by move=> i j; rewrite g4 => h; rewrite gtn_eqF // (gi_R hi) // ltnW.
- by rewrite g4.
- by move=> k; rewrite g4 => -[<-].
Qed.

Lemma gm_hm t : gm_inv t -> arnoldi_rel ip A M r0 (a_iter (gm_a t)) (ncols (gm_a t)) (a_V (gm_a t))
  (Pb c (gm_a t)) (a_H (gm_a t)).
Proof. by move=> h; have := (gi_st h).1. Qed.

Lemma gm_solve_min t cc : gm_inv t -> solve_tri (gm_R t) (gm_y t) (a_iter (gm_a t)) = Ok cc ->
  let z := \sum_(j < a_iter (gm_a t)) cc j *: a_V (gm_a t) j in
  minimizer rn (K (a_iter (gm_a t))) z /\ rn z = `|gm_y t (a_iter (gm_a t))|.
Proof.
move=> h E; split.
  exact: (solve_min (ko_B hd) (ko_A hd) (ko_M hd) (ko_Msa hd) (ko_Mpd hd) (gm_hm h) (gi_m h) (gi_nz h) (gi_q h) E).
by have [] := rnorm_solve (ko_B hd) (ko_A hd) (ko_M hd) (ko_Msa hd) (ko_Mpd hd) (gm_hm h) (gi_m h) (gi_nz h) (gi_q h) E.
Qed.

Lemma gm_solvable t : gm_inv t -> a_inv (gm_a t) = false ->
  exists cc, solve_tri (gm_R t) (gm_y t) (a_iter (gm_a t)) = Ok cc.
Proof.
by move=> h hi; apply: (tri_nonsing (gm_hm h) (gi_q h)); rewrite /ncols hi addn1.
Qed.

Lemma gm_solvable_inj t : krylov_inj A M r0 -> gm_inv t ->
  exists cc, solve_tri (gm_R t) (gm_y t) (a_iter (gm_a t)) = Ok cc.
Proof.
move=> inj h; apply: (tri_injective (ko_B hd) (ko_A hd) (ko_M hd) (ko_Msa hd) (ko_Mpd hd) (gm_hm h) (gi_m h) (gi_nz h) (gi_q h) inj).
exact: leq_addr.
Qed.

Lemma gm_getx_min t x : gm_inv t -> gmres_getx d t = Ok x ->
  exists2 z, minimizer rn (K (a_iter (gm_a t))) z & k_fix d (x0_of x0 + k_Mr d z) = Ok x.
Proof.
move=> h; rewrite /gmres_getx (gi_x0 h); case: posnP => [n0|n0] E.
  exists 0; last by rewrite (lin0 (ko_Mr hd)) addr0.
  rewrite n0; split=> [|z [e ->]]; first exact: span0.
  by rewrite big_ord0.
have [cc Ec E'] := bind_ok E; exists (\sum_(j < a_iter (gm_a t)) cc j *: a_V (gm_a t) j) => //.
by have [] := gm_solve_min h Ec.
Qed.

Lemma gm_step_min t : gm_inv t -> (0 < a_iter (gm_a t))%N ->
  a_inv (gm_a t) = false \/ is_ok (gmres_getx d t) ->
  min_res (a_iter (gm_a t)) `|gm_y t (a_iter (gm_a t))|.
Proof.
move=> h n0 hh.
have [cc Ec] : exists cc, solve_tri (gm_R t) (gm_y t) (a_iter (gm_a t)) = Ok cc.
  case: hh => [|]; first exact: gm_solvable.
  by rewrite /gmres_getx n0; case: (solve_tri _ _ _) => // cc _; exists cc.
by have [h1 h2] := gm_solve_min h Ec; eexists; [exact: h1|].
Qed.

Lemma gmres_good : good_method (gmres snorm d maxiter ortho).
Proof.
split=> //.
- move=> x1 x t; rewrite /= /gmres_start /k_arn; case: (k_res0 d x1) => [[[MMlr Mlr] nr]|e] //=.
  case E: (arn_init _ _ _ _) => [a|e] //= [<-] /=.
  move: E; rewrite /arn_init => E; have [[v a'] _] := bind_ok E.
  by case: ifP => _ [<-].
- move=> t t' r; rewrite /= /gmres_step; case E: (advance _ _ _) => [a|e] //= [<- _] /=.
  by have := advance_cases snorm c (gm_a t); rewrite E.
Qed.
End Gm.
End KData.

Section Run.
Variable C : numClosedFieldType.
Variable N : nat.
Local Notation vec := 'cV[C]_N.
Variables (d : kdata C N) (ys : sys C vec) (x0 : option vec) (r0 : vec) (o : opts C).
Variable snorm : nat -> nat -> (nat -> nat -> C) -> C.
Variable ortho : ortho_t.
Hypothesis hd : kd_ok d ys x0 r0.
Hypothesis hc : arn_cfg (k_cfg d (o_maxiter o) ortho).
Local Notation ip := (ip1 (k_B d)).
Local Notation A := (k_A d).
Local Notation M := (k_Mop d).
Local Notation K n := (in_krylov A M r0 n).
Local Notation rn := (rnorm ip A M r0).
Local Notation gm := (gmres snorm d (o_maxiter o) ortho).
Local Notation inv := (gm_inv d x0 r0 (o_maxiter o) snorm ortho).

Definition of_run T (out : outcome C vec T) (s : sol C vec T) : Prop :=
  out = Returns s \/ out = NoConvergence s.

Lemma min_res0 : min_res d r0 0 (mnorm ip M r0).
Proof.
exists 0; last by rewrite /rnorm (lin0 (ko_A hd)) subr0.
by split=> [|z [e ->]]; [exact: span0|rewrite big_ord0].
Qed.

Lemma gmres_run s : y_bnorm ys != 0 -> of_run (krun ys o gm x0) s ->
  [/\ inv (s_st s), size (s_res s) = (m_iter (s_st s)).+1,
      forall i, (i <= m_iter (s_st s))%N ->
         exists2 r, min_res d r0 i r & nth 0 (s_res s) i = r / y_bnorm ys
    & exists z x, [/\ s_xk s = Some x, minimizer rn (K (m_iter (s_st s))) z &
                      k_fix d (x0_of x0 + k_Mr d z) = Ok x]].
Proof.
move=> nb; have := @run_good C vec (fun a b => b < a) (fun a b => a <= b) (fun a => a == 0)
  (fun a b => a / b) 0 (0 : vec) ys o gm x0 (gmres_good d (o_maxiter o) snorm ortho) inv (min_res d r0).
have -> : (if x0 is Some x then x else 0) = x0_of x0 by [].
move=> h; have {}h := h (gm_start_inv snorm hd hc).
have hq r : m_r0 gm x0 = Ok r -> min_res d r0 0 r.
  by rewrite /= /r0_norm (ko_res hd) => /= -[<-]; apply: min_res0.
have hs (t t' : m_st gm) r : inv t -> m_inv t = false -> (m_iter t < o_maxiter o)%N ->
   m_step t = Ok (t', r) -> inv t' /\ (m_inv t' = false \/ is_ok (m_getx t') -> min_res d r0 (m_iter t') r).
  move=> i1 i2 _ E; have [j1 j2 ->] := gm_step_inv hd hc i1 i2 E; split=> // j3.
  by apply: (gm_step_min hd j1) => //; rewrite j2.
have hx (t : m_st gm) x r : inv t -> (0 < m_iter t)%N -> m_getx t = Ok x -> y_resnorm ys x = Ok r ->
   min_res d r0 (m_iter t) r /\ inv (m_feed t r).
  move=> i1 _ E Er; split=> //; have [z h1 h2] := gm_getx_min hd i1 E; exists z => //.
  by have [x' h3] := ko_fix hd z; move: h3; rewrite h2 => -[<-]; rewrite Er => -[].
have {}h := h hq hs hx (negbTE nb).
have go : inv (s_st s) -> allQ (fun a b => a / b) 0 ys (min_res d r0) (s_res s) ->
  size (s_res s) = (m_iter (s_st s)).+1 -> forall x, s_xk s = Some x -> m_getx (s_st s) = Ok x ->
  [/\ inv (s_st s), size (s_res s) = (m_iter (s_st s)).+1,
      forall i, (i <= m_iter (s_st s))%N ->
         exists2 r, min_res d r0 i r & nth 0 (s_res s) i = r / y_bnorm ys
    & exists z x, [/\ s_xk s = Some x, minimizer rn (K (m_iter (s_st s))) z &
                      k_fix d (x0_of x0 + k_Mr d z) = Ok x]].
  move=> j1 j2 j3 x ex gx; split=> //; first by move=> i hi; apply: j2; rewrite j3 ltnS.
  by have [z h1 h2] := gm_getx_min hd j1 gx; exists z, x.
by case=> E; move: h; rewrite -/(krun ys o gm x0) E => -[j1 j2 j3 [x ex gx]]; apply: go ex gx.
Qed.

(** Runs with an injective operator. *)
Let hmp : is_ip (mip ip M).
Proof. by apply: ArnoldiRel.hmp; [apply: ko_B hd|apply: ko_M hd|apply: ko_Msa hd|apply: ko_Mpd hd]. Qed.

Section Inj.
Hypothesis inj : krylov_inj A M r0.
Hypothesis hb : bounds_entries snorm.
Hypothesis nb : y_bnorm ys != 0.
Hypothesis he : forall en x, y_errnorm ys = Some en -> exists e, en x = Ok e.

Lemma M_injective x : M x = 0 -> x = 0.
Proof. by move=> h; apply/eqP; rewrite -(ip_eq0 hmp) /mip h (ipr0 (ko_B hd)). Qed.

Lemma AM_injective : A (M r0) = 0 -> r0 = 0.
Proof.
move=> h; apply: M_injective; refine (inj (n := 1%N) (z := M r0) _ h).
by exists (fun _ => 1); rewrite big_ord1 scale1r.
Qed.

Lemma gmres_no_raise : no_raise (krun ys o gm x0).
Proof.
apply: (@run_total _ _ _ _ _ _ _ _ _ _ _ _ (gmres_good d (o_maxiter o) snorm ortho) inv).
- exact: negbTE.
- by rewrite /= /r0_norm (ko_res hd) /=; eexists.
- have [x h _] := ko_fix hd 0; exists x; rewrite -h (lin0 (ko_Mr hd)) addr0 //.
- exact: he.
- have [a [E _ _ _ _]] := k_arn_ok hd hc.
  have Es : gmres_start d (o_maxiter o) ortho x0 (x0_of x0) =
    Ok (GmSt (x0_of x0) a [::] (fun _ _ => 0) (fun i => if i == 0%N then mnorm ip M r0 else 0)).
    by rewrite /gmres_start E.
  by eexists; [exact: Es|apply: (gm_start_inv snorm hd hc Es)].
- move=> t hi hinv hm.
  have nz : r0 != 0.
    case: (posnP (a_iter (gm_a t))) => n0; last exact: (gi_nz hi).
    by have := gi_z hi n0; move: hinv => /= -> /esym/negbT.
  have [|a Ea] := arn_total hc (gi_st hi) hb nz _ (negbT hinv) hm.
    by apply: contra nz => /eqP h; rewrite (AM_injective h).
  have Es : exists tr, gmres_step snorm d (o_maxiter o) ortho t = Ok tr.
    by rewrite /gmres_step Ea /=; eexists.
  case: Es => -[t' r] Es; exists t', r; split=> //.
  by have [] := gm_step_inv hd hc hi hinv Es.
- move=> t hi; have [cc Ec] := gm_solvable_inj hd inj hi.
  have [z Ez] : exists z, m_getx (m := gm) t = k_fix d (x0_of x0 + k_Mr d z).
    rewrite /= /gmres_getx (gi_x0 hi); case: posnP => n0.
      by exists 0; rewrite (lin0 (ko_Mr hd)) addr0.
    by rewrite Ec /=; eexists.
  by rewrite Ez; have [x h1 h2] := ko_fix hd z; exists x => //; eexists; [exact: h2|].
Qed.

(** A vanishing last subdiagonal entry means that the solution has been found. *)
Lemma gm_lucky t : inv t -> (0 < a_iter (gm_a t))%N ->
  a_H (gm_a t) (a_iter (gm_a t)) (a_iter (gm_a t)).-1 = 0 ->
  min_res d r0 (a_iter (gm_a t)) 0.
Proof.
move=> hi n0 h0; have [cc Ec] := gm_solvable_inj hd inj hi.
have [h1 h2] := gm_solve_min hd hi Ec; eexists; first exact: h1.
rewrite h2; suff -> : gm_y t (a_iter (gm_a t)) = 0 by rewrite normr0.
have [nz _] := solve_tri_ok Ec.
apply: (q_lucky (gi_q hi)) (h0) _ _; first by rewrite prednK.
  by apply: nz; rewrite prednK.
by case: (a_iter (gm_a t)) n0.
Qed.

Lemma gm_full t : inv t -> (0 < N)%N -> a_iter (gm_a t) = N ->
  a_H (gm_a t) (a_iter (gm_a t)) (a_iter (gm_a t)).-1 = 0.
Proof.
move=> hi N0 e; have R := gm_hm hi; rewrite e.
apply: (rel_last0 (ko_B hd) (ko_M hd) (ko_Msa hd) (ko_Mpd hd) R) => //.
exact: leq_addr.
Qed.
End Inj.

Lemma gm_iter_le t : inv t -> (a_iter (gm_a t) <= N)%N.
Proof.
move=> hi; apply: leq_trans (leq_addr _ _) (_ : ncols (gm_a t) <= N)%N.
exact: (rel_size (ko_B hd) (ko_M hd) (ko_Msa hd) (ko_Mpd hd) (gm_hm hi)).
Qed.

Lemma res_last (s : sol C vec (m_st gm)) : size (s_res s) = (m_iter (s_st s)).+1 ->
  last 0 (s_res s) = nth 0 (s_res s) (m_iter (s_st s)).
Proof. by rewrite (last_nth 0); case: (s_res s) => //= a q [->]. Qed.

Lemma gmres_finite : krylov_inj A M r0 -> bounds_entries snorm -> 0 < y_bnorm ys ->
  (forall en x, y_errnorm ys = Some en -> exists e, en x = Ok e) ->
  (0 < N)%N -> (N <= o_maxiter o)%N -> 0 <= o_tol o ->
  exists2 s, krun ys o gm x0 = Returns s &
    (a_iter (gm_a (s_st s)) <= N)%N /\
    (last 0 (s_res s) <= o_tol o \/
     exists k, a_iter (gm_a (s_st s)) = k.+1 /\
       0 < a_H (gm_a (s_st s)) k.+1 k <= eps14 C * snorm k.+2 k.+1 (a_H (gm_a (s_st s)))).
Proof.
move=> inj hb bn he N0 hm tol0.
have nb : y_bnorm ys != 0 by rewrite gt_eqF.
have nr := gmres_no_raise inj hb nb he.
have real_res s i : of_run (krun ys o gm x0) s -> (i <= m_iter (s_st s))%N -> nth 0 (s_res s) i \is Num.real.
  move=> /(gmres_run nb)[_ _ h _] /h[r [z _ ->] ->].
  by rewrite ger0_real // divr_ge0 ?(ltW bn) // sqrtC_ge0; apply: (ip_ge0' hmp).
have lucky s : of_run (krun ys o gm x0) s -> (0 < m_iter (s_st s))%N ->
    a_H (gm_a (s_st s)) (m_iter (s_st s)) (m_iter (s_st s)).-1 = 0 -> last 0 (s_res s) = 0.
  move=> hs n0 h0; have [h1 h2 h3 _] := gmres_run nb hs.
  rewrite res_last //; have [r hr ->] := h3 _ (leqnn _).
  by rewrite (min_res_unique hr (gm_lucky inj h1 n0 h0)) mul0r.
case E: (krun ys o gm x0) nr => [s|s|//] _; last first.
  exfalso; have hs : of_run (krun ys o gm x0) s by right.
  have [h1 h2 h3 _] := gmres_run nb hs.
  have [m0 ei sz hg _] := C23_convergence_error (gmres_good d (o_maxiter o) snorm ortho) E.
  have eN : m_iter (s_st s) = N.
    by apply/eqP; rewrite eqn_leq (gm_iter_le h1) ei hm.
  have := hg _ (leqnn _); rewrite -ei -res_last // (lucky _ hs) ?eN //; last first.
    by rewrite -[X in a_H _ X _]eN -[X in a_H _ _ X.-1]eN; apply: gm_full.
  by rewrite le_gtF.
have hs : of_run (krun ys o gm x0) s by left.
have [h1 h2 h3 _] := gmres_run nb hs.
exists s => //; split; first exact: gm_iter_le.
have rl : last 0 (s_res s) \is Num.real by rewrite res_last // real_res.
case: (boolP (o_tol o < last 0 (s_res s))) => hl; last by left; rewrite real_leNgt // ger0_real.
right; have [_ /(_ hl)] := C23_normal_return (gmres_good d (o_maxiter o) snorm ortho) E.
case=> [e0|hi]; first by rewrite e0 leqNgt N0 in hm.
case e: (a_iter (gm_a (s_st s))) => [|k].
  (* zero iterations with an invariant space: r0 = 0 *)
  exfalso; have := gi_z h1 e; move: hi => /= -> /esym/eqP r00.
  have := hl; rewrite res_last //; have [r hr ->] := h3 _ (leqnn _).
  have -> : r = 0.
    move: hr; have -> : m_iter (s_st s) = 0%N by [].
    by move=> /min_res_unique/(_ min_res0)->; rewrite /mnorm r00 (ipl0 (ko_B hd)) sqrtC0.
  by rewrite mul0r le_gtF.
exists k; split=> //.
have := gi_inv h1 e; rewrite -[a_inv _]/(m_inv (s_st s)) hi => /esym.
have R := gm_hm h1; have [w [_ _ hw _]] := ar_step R (j := k) ltac:(by rewrite e).
have Hp : 0 < a_H (gm_a (s_st s)) k.+1 k.
  rewrite lt_def [in X in _ && X]hw ipnorm_ge0 // andbT; apply/eqP => h0.
  have := hl; rewrite (lucky _ hs) ?le_gtF //; first by rewrite /= e.
  by rewrite /= e.
rewrite Hp /= => h; rewrite -ler_pdivr_mulr //.
have : `|a_H (gm_a (s_st s)) k.+1 k| <= snorm k.+2 k.+1 (a_H (gm_a (s_st s))) by apply: hb.
by rewrite gtr0_norm //; apply: lt_le_trans.
Qed.
End Run.
