(** The model of CG follows the recurrences of Proof/CgTheory.v. *)
From mathcomp Require Import all_ssreflect all_algebra.
From mathcomp Require Import ring.
From Verif Require Import Base Spec.LinAlg Proof.Algebra Model.Inner Spec.Inner Proof.Inner Model.Arnoldi.
From Verif Require Import Spec.Arnoldi Proof.IpTheory Proof.ArnoldiRel.
From Verif Require Import Model.Solver Spec.Solver Proof.Solver Proof.SolverInv Properties.Solver.
From Verif Require Import Model.LinearSystem Model.Krylov Spec.Krylov Proof.Projected Proof.Gmres Proof.CgTheory.

Set Implicit Arguments.
Unset Strict Implicit.
Unset Printing Implicit Defensive.
Import Order.TTheory GRing.Theory Num.Theory.
Local Open Scope ring_scope.

Local Arguments norm : simpl never.
Local Arguments divE : simpl never.

Section Cg.
Variable C : numClosedFieldType.
Variable N : nat.
Local Notation vec := 'cV[C]_N.
Variables (d : kdata C N) (ys : sys C vec) (x0 : option vec) (r0 : vec) (o : opts C).
Variable store : bool.
Hypothesis hd : kd_ok d ys x0 r0.
Local Notation ip := (ip1 (k_B d)).
Local Notation A := (k_A d).
Local Notation M := (k_Mop d).
Hypothesis hs : cg_spd ip A r0.
Local Notation cr := (cr ip A M r0).
Local Notation cp := (cp ip A M r0).
Local Notation cy := (cy ip A M r0).
Local Notation rho := (rho ip A M r0).
Local Notation del := (del ip A M r0).
Local Notation al := (al ip A M r0).
Local Notation be := (be ip A M r0).
Local Notation cV := (cV ip A M r0).
Local Notation cP := (cP ip A M r0).
Local Notation cH := (cH ip A M r0).
Local Notation cnr := (cnr ip A M r0).
Local Notation mp := (mip ip M).
Let hip := ko_B hd.
Let hmp := ArnoldiRel.hmp (ko_B hd) (ko_M hd) (ko_Msa hd) (ko_Mpd hd).

Record cg_store (t : cgst C N) : Prop := CgStore {
  cw_nz : (0 < cg_it t)%N -> cr (cg_it t) != 0;
  cw_al : (0 < cg_it t)%N -> cg_alpha t = al (cg_it t).-1;
  cw_V : forall j, (j <= cg_it t)%N -> cr j != 0 -> cg_V t j = cV j;
  cw_P : k_M d -> forall j, (j <= cg_it t)%N -> cr j != 0 -> cg_P t j = cP j;
  cw_H : forall i j, cg_H t i j = cH (cg_it t) i j }.

Record cg_ok (t : cgst C N) : Prop := CgOk {
  ci_nz : forall j, (j < cg_it t)%N -> cr j != 0;
  ci_x0 : cg_x0 t = x0_of x0;
  ci_y : cg_yk t = cy (cg_it t);
  ci_r : cg_Mlr t = cr (cg_it t);
  ci_Mr : cg_MMlr t = M (cr (cg_it t));
  ci_p : cg_p t = cp (cg_it t).-1;
  ci_rho : nth 0 (cg_rhos t) 0 = rho (cg_it t);
  ci_rho1 : (0 < cg_it t)%N -> nth 0 (cg_rhos t) 1 = rho (cg_it t).-1;
  ci_st : store -> cg_store t }.

Lemma norm_Mk x : norm x (Some (M x)) (k_B d) = Ok (mnorm ip M x).
Proof. by rewrite (@norm_real_nonneg _ _ x (Some (M x))) //; apply: (ip_ge0' hmp). Qed.

Lemma mnorm_cr k : mnorm ip M (cr k) = cnr k.
Proof. by []. Qed.

Lemma cg_start_inv t : cg_start d store x0 (x0_of x0) = Ok t -> cg_ok t.
Proof.
rewrite /cg_start (ko_res hd) /= => -[<-]; split=> //=.
- by rewrite /cy big_ord0.
- by rewrite sqrtCK.
move=> st; split=> //=.
- move=> j; rewrite leqn0 => /eqP-> nz; rewrite st /= [0 < _](_ : _ = true).
    by rewrite /cV expr0 div1r.
  by rewrite (ipnorm_gt0 hmp).
- move=> hM j; rewrite leqn0 => /eqP-> nz; rewrite st hM /= [0 < _](_ : _ = true).
    by rewrite /cP expr0 div1r.
  by rewrite (ipnorm_gt0 hmp).
Qed.

Lemma cp_next k : cp k.-1.+1 = M (cr k.-1.+1) + be k.-1 *: cp k.-1.
Proof. exact: cpS. Qed.

(** The step with a nonzero residual. *)
Section Step.
Variable t : cgst C N.
Hypothesis h : cg_ok t.
Let k := cg_it t.

Lemma cg_omega : (if (0 < k)%N then divE (nth 0 (cg_rhos t) 0) (nth 0 (cg_rhos t) 1) else Ok 0)
  = Ok (if (0 < k)%N then be k.-1 else 0).
Proof.
case: posnP => // k0; rewrite (ci_rho h) (ci_rho1 h) // /divE.
have := ci_nz h (j := k.-1); rewrite prednK // => /(_ (leqnn _)).
rewrite -(rho_eq0 A r0 hip (ko_M hd) (ko_Msa hd) (ko_Mpd hd)) => /negbTE->.
by rewrite /be prednK.
Qed.

Lemma cg_dir : (if (0 < k)%N then cg_MMlr t + (if (0 < k)%N then be k.-1 else 0) *: cg_p t else cg_p t) = cp k.
Proof.
rewrite (ci_Mr h) (ci_p h) -/k; case: posnP => [->//|k0].
by have := cp_next k; rewrite prednK.
Qed.

Lemma cg_step_nz : del k != 0 -> cr k != 0.
Proof.
apply: contra => /eqP r0k; rewrite /del; suff -> : cp k = 0 by rewrite (ipl0 hip).
case: (posnP k) => [k0|k0].
  have -> : cp k = M (cr k) by rewrite k0.
  by rewrite r0k (lin0 (ko_M hd)).
have := cp_next k; rewrite prednK // => ->; rewrite r0k (lin0 (ko_M hd)) add0r.
by rewrite /be prednK // /rho r0k (ipl0 hmp) mul0r scale0r.
Qed.

Hypothesis nz : cr k != 0.
Let nz' j : (j < k.+1)%N -> cr j != 0.
Proof. by rewrite ltnS leq_eqVlt => /orP[/eqP->//|/(ci_nz h)]. Qed.

Let dgt : 0 < del k.
Proof. exact: (del_gt0 hip (ko_A hd) (ko_M hd) (ko_Msa hd) (ko_Mpd hd) hs nz' (ltnSn k)). Qed.
Let agt : 0 < al k.
Proof. exact: (al_gt0 hip (ko_A hd) (ko_M hd) (ko_Msa hd) (ko_Mpd hd) hs nz' (ltnSn k)). Qed.

Definition cg_next (V P : nat -> vec) (H : nat -> nat -> C) : cgst C N :=
  CgSt (x0_of x0) k.+1 (cy k.+1) (cr k.+1) (M (cr k.+1)) (cp k) (rho k.+1 :: cg_rhos t) V P H (al k).

Lemma cg_stepE : exists2 H, store -> forall i j, H i j = cH k.+1 i j & cg_step d store t =
  if store && (cr k.+1 == 0) then Err DivZero else
  Ok (cg_next (if store then upd (cg_V t) k.+1 (cV k.+1) else cg_V t)
        (if store && k_M d then upd (cg_P t) k.+1 (cP k.+1) else cg_P t) H, cnr k.+1).
Proof.
have alE : divE (nth 0 (cg_rhos t) 0) (ip (cp k) (A (cp k))) = Ok (al k).
  by rewrite (ci_rho h) /divE -/(del k) gt_eqF.
have aR : 'Re (al k) = al k by apply/Creal_ReP; apply: gtr0_real.
have rS : cg_Mlr t - al k *: A (cp k) = cr k.+1 by rewrite (ci_r h) -/k crS.
have yS : cg_yk t + al k *: cp k = cy k.+1 by rewrite (ci_y h) -/k cyS.
rewrite /cg_step -/k cg_omega /= cg_dir alE /= aR rS yS norm_Mk mnorm_cr (ci_x0 h).
have rE : cnr k.+1 ^+ 2 = rho k.+1 by rewrite sqrtCK.
case Es: store; last by exists (cg_H t) => //; rewrite /= rE.
have st := ci_st h Es.
have [H [HE HH]] : exists H : nat -> nat -> C, (if (0 < k)%N then
         let H := upd2 (cg_H t) k.-1 k (cg_H t k k.-1) in
         let! q := divE (al k * (if (0 < k)%N then be k.-1 else 0)) (cg_alpha t) in
         let! r := divE (1 + q) (al k) in
         Ok (upd2 H k k r)
       else let! r := divE 1 (al k) in Ok (upd2 (cg_H t) k k r)) = Ok H /\
     forall i j, H i j = if (i == k.+1) && (j == k) then 0 else cH k.+1 i j.
  case: (posnP k) => [k0|k0].
    rewrite /divE (gt_eqF agt) /=; eexists; split; first by [].
    move=> i j; rewrite /upd2 (cw_H st) -/k k0 /cH leq0n.
    case: j => [|j]; last by rewrite !andbF.
    by case: i => [|[|i]] //=; rewrite div1r addr0.
  have ek : k = k.-1.+1 by rewrite prednK.
  have ap : 0 < al k.-1.
    apply: (al_gt0 hip (ko_A hd) (ko_M hd) (ko_Msa hd) (ko_Mpd hd) hs nz').
    by rewrite {2}ek ltnS.
  rewrite (cw_al st k0) -/k /divE (gt_eqF agt) (gt_eqF ap) /=; eexists; split; first by [].
  have Hs : cg_H t k k.-1 = sqrtC (be k.-1) / al k.-1.
    by rewrite (cw_H st) -/k /cH {1}ek ltnn {1}ek gtn_eqF // {1}ek eqxx.
  have anz : al k != 0 by rewrite gt_eqF.
  have apnz : al k.-1 != 0 by rewrite gt_eqF.
  move=> i j; rewrite Hs /upd2 (cw_H st) -/k /cH; case: (ltngtP j k) => jk.
  - by rewrite /= !andbF.
  - by rewrite /= !andbF.
  rewrite jk /= !andbT.
  have [->|ik] := eqVneq i k.
    have mE (f : nat -> C) m : (0 < m)%N -> (if m is m'.+1 then f m' else 0) = f m.-1 by case: m.
    rewrite [k == k.+1]ltn_eqF // (mE (fun j => be j / al j)) //.
    by field; rewrite anz apnz.
  have [->|ik1] := eqVneq i k.-1.
    by rewrite -ek eqxx [k.-1 == k.+1]ltn_eqF // {2}ek ltnW.
  case: eqVneq => // _; case: eqVneq => // e.
  by move: ik1; rewrite -e eqxx.
rewrite HE /=.
have -> : (cnr k.+1 == 0) = (cr k.+1 == 0) by rewrite (ipnorm_eq0 hmp).
case: ifP => [_|/negbT nz1]; first by exists (cH k.+1).
exists (upd2 H k.+1 k (sqrtC (be k) / al k)) => [_ i j|].
  rewrite /upd2 HH; case: ifP => [/andP[/eqP ei /eqP ej]|->//].
  by rewrite ei ej /cH ltnn gtn_eqF // eqxx.
have rnz : rho k != 0 by rewrite (rho_eq0 A r0 hip (ko_M hd) (ko_Msa hd) (ko_Mpd hd)).
rewrite (ci_rho h) /= /divE (negbTE rnz) /= (gt_eqF agt) /= rE -/(be k).
by rewrite /cg_next /cV /cP; case: (k_M d).
Qed.

Lemma cg_next_ok H : (store -> cr k.+1 != 0) -> (store -> forall i j, H i j = cH k.+1 i j) ->
  cg_ok (cg_next (if store then upd (cg_V t) k.+1 (cV k.+1) else cg_V t)
        (if store && k_M d then upd (cg_P t) k.+1 (cP k.+1) else cg_P t) H).
Proof.
move=> h1 h2; split=> //=; first by move=> _; rewrite (ci_rho h).
move=> st; have [w1 w2 w3 w4 w5] := ci_st h st; rewrite st; split=> //=.
- by move=> _; apply: h1.
- move=> j hj nj; rewrite /upd; case: eqVneq => [->//|ne]; apply: w3 => //.
  by move: hj; rewrite leq_eqVlt (negbTE ne).
- move=> hM j hj nj; rewrite hM /upd; case: eqVneq => [->//|ne]; apply: w4 => //.
  by move: hj; rewrite leq_eqVlt (negbTE ne).
- exact: h2.
Qed.
End Step.

Lemma cg_step_inv t t' r : cg_ok t -> cg_step d store t = Ok (t', r) ->
  [/\ cg_ok t', cg_it t' = (cg_it t).+1 & r = cnr (cg_it t')].
Proof.
move=> h E; have nz : cr (cg_it t) != 0.
  apply: cg_step_nz; apply/eqP => d0; move: E.
  by rewrite /cg_step (cg_omega h) /= (cg_dir h) /divE -/(del _) d0 eqxx.
have [H HH] := cg_stepE h nz; rewrite E; case: ifP => // /negbT hn [-> ->]; split=> //.
apply: (cg_next_ok h nz) => // st; by move: hn; rewrite st.
Qed.

Lemma cg_step_rhos t t' r : cg_ok t -> cg_step d store t = Ok (t', r) ->
  cr (cg_it t) != 0 /\ cg_rhos t' = rho (cg_it t).+1 :: cg_rhos t.
Proof.
move=> h E; have nz : cr (cg_it t) != 0.
  apply: cg_step_nz; apply/eqP => d0; move: E.
  by rewrite /cg_step (cg_omega h) /= (cg_dir h) /divE -/(del _) d0 eqxx.
by have [H HH] := cg_stepE h nz; rewrite E; case: ifP => // /negbT hn [-> _].
Qed.

Lemma cg_step_total t : cg_ok t -> (store -> cr (cg_it t).+1 != 0) -> cr (cg_it t) != 0 ->
  exists t' r, cg_step d store t = Ok (t', r).
Proof.
move=> h hst nz; have [H _ ->] := cg_stepE h nz; case: ifP => [/andP[/hst/negbTE->]//|_].
by do 2 eexists.
Qed.

Lemma cg_feed_inv t r : cg_ok t -> r = cnr (cg_it t) -> cg_ok (cg_feed t r).
Proof.
case=> [h1 h2 h3 h4 h5 h6 h7 h8 h9] ->; split=> //=.
- by rewrite sqrtCK.
- by move=> k0; rewrite -h8 //; case: (cg_rhos t).
- by move=> /h9[w1 w2 w3 w4 w5].
Qed.

Lemma cg_good : good_method (cg d store).
Proof.
split=> //=.
- move=> x1 x t; rewrite /= /cg_start; case: (k_res0 d x1) => [[[MMlr Mlr] nr]|e] //= [<-] //.
- move=> t t' r; rewrite /cg_step.
  case: (if (0 < cg_it t)%N then _ else _) => [om|//] /=.
  case: (divE _ _) => [alpha|//] /=; case: (if store then _ else _) => [H|//] /=.
  case: (norm _ _ _) => [nr|//] /=; case: (if store then _ else _) => [[[V P] H']|//] /=.
  by move=> [<- _].
Qed.

Local Notation K k := (in_krylov A M r0 k).

Lemma cg_explicit t x r : cg_ok t -> m_getx (m := cg d store) t = Ok x -> y_resnorm ys x = Ok r ->
  r = cnr (cg_it t).
Proof.
move=> i1; rewrite /= /cg_getx (ci_x0 i1) (ci_y i1) => E Er.
have [x' h3] := ko_fix hd (cy (cg_it t)); move: h3; rewrite E => -[<-]; rewrite Er => -[->].
by rewrite -(cr_res ip M r0 (ko_A hd)).
Qed.

Lemma cg_run s : y_bnorm ys != 0 -> of_run (krun ys o (cg d store) x0) s ->
  [/\ cg_ok (s_st s), size (s_res s) = (cg_it (s_st s)).+1,
      forall i, (i <= cg_it (s_st s))%N -> nth 0 (s_res s) i = cnr i / y_bnorm ys
    & exists2 x, s_xk s = Some x & k_fix d (x0_of x0 + k_Mr d (cy (cg_it (s_st s)))) = Ok x].
Proof.
move=> nb; have := @run_good C vec (fun a b => b < a) (fun a b => a <= b) (fun a => a == 0)
  (fun a b => a / b) 0 (0 : vec) ys o (cg d store) x0 cg_good cg_ok (fun i r => r = cnr i).
have -> : (if x0 is Some x then x else 0) = x0_of x0 by [].
move=> h; have {}h := h cg_start_inv.
have hq r : m_r0 (cg d store) x0 = Ok r -> r = cnr 0.
  by rewrite /= /r0_norm (ko_res hd) => /= -[<-].
have hs' (t t' : m_st (cg d store)) r : cg_ok t -> m_inv t = false -> (m_iter t < o_maxiter o)%N ->
   m_step t = Ok (t', r) -> cg_ok t' /\ (m_inv t' = false \/ is_ok (m_getx t') -> r = cnr (m_iter t')).
  by move=> i1 i2 _ E; have [j1 j2 j3] := cg_step_inv i1 E.
have gx (t : m_st (cg d store)) x : cg_ok t -> m_getx t = Ok x -> k_fix d (x0_of x0 + k_Mr d (cy (cg_it t))) = Ok x.
  by move=> i1; rewrite /= /cg_getx (ci_x0 i1) (ci_y i1).
have hx (t : m_st (cg d store)) x r : cg_ok t -> (0 < m_iter t)%N -> m_getx t = Ok x -> y_resnorm ys x = Ok r ->
   r = cnr (m_iter t) /\ cg_ok (m_feed t r).
  move=> i1 _ /(gx _ _ i1) E Er.
  have e : r = cnr (m_iter t).
    have [x' h3] := ko_fix hd (cy (cg_it t)); move: h3; rewrite E => -[<-]; rewrite Er => -[->].
    by rewrite -(cr_res ip M r0 (ko_A hd)).
  by split=> //; apply: cg_feed_inv.
have {}h := h hq hs' hx (negbTE nb).
have go : cg_ok (s_st s) -> allQ (fun a b => a / b) 0 ys (fun i r => r = cnr i) (s_res s) ->
  size (s_res s) = (cg_it (s_st s)).+1 -> forall x, s_xk s = Some x -> m_getx (m := cg d store) (s_st s) = Ok x ->
  [/\ cg_ok (s_st s), size (s_res s) = (cg_it (s_st s)).+1,
      forall i, (i <= cg_it (s_st s))%N -> nth 0 (s_res s) i = cnr i / y_bnorm ys
    & exists2 x, s_xk s = Some x & k_fix d (x0_of x0 + k_Mr d (cy (cg_it (s_st s)))) = Ok x].
  move=> j1 j2 j3 x ex /(gx _ _ j1) Ex; split=> //; last by exists x.
  by move=> i hi; have [|r -> ->] := j2 i; [rewrite j3 ltnS|].
by case=> E; move: h; rewrite -/(krun ys o (cg d store) x0) E => -[j1 j2 j3 [x ex Ex]]; apply: go ex Ex.
Qed.

(** The k-th approximation and residual of the recurrences. *)
Lemma ci_opt t z y : cg_ok t -> K (cg_it t) z -> A y = r0 ->
  ip (y - cy (cg_it t)) (A (y - cy (cg_it t))) <= ip (y - z) (A (y - z)).
Proof.
move=> h hz hy; exact: (cg_opt hip (ko_A hd) (ko_M hd) (ko_Msa hd) (ko_Mpd hd) hs (ci_nz h) (leqnn _) hz hy).
Qed.

Lemma ci_size t : cg_ok t -> (cg_it t <= N)%N.
Proof. move=> h; exact: (cg_size hip (ko_A hd) (ko_M hd) (ko_Msa hd) (ko_Mpd hd) hs (ci_nz h)). Qed.

Lemma cg_total : 0 < y_bnorm ys ->
  (forall en x, y_errnorm ys = Some en -> exists e, en x = Ok e) ->
  (store -> forall j, (j <= o_maxiter o)%N -> cr j != 0) -> 0 <= o_tol o ->
  returns (krun ys o (cg d store) x0).
Proof.
move=> bn he hst tol0; have nb : y_bnorm ys != 0 by rewrite gt_eqF.
have hq r : m_r0 (cg d store) x0 = Ok r -> r = cnr 0.
  by rewrite /= /r0_norm (ko_res hd) => /= -[<-].
have hs' (t t' : m_st (cg d store)) r : cg_ok t -> m_inv t = false -> (m_iter t < o_maxiter o)%N ->
   m_step t = Ok (t', r) -> cg_ok t' /\ (m_inv t' = false \/ is_ok (m_getx t') -> r = cnr (m_iter t')).
  by move=> i1 i2 _ E; have [j1 j2 j3] := cg_step_inv i1 E.
have gx (t : m_st (cg d store)) : cg_ok t -> m_getx t = k_fix d (x0_of x0 + k_Mr d (cy (cg_it t))).
  by move=> i1; rewrite /= /cg_getx (ci_x0 i1) (ci_y i1).
have rx (t : m_st (cg d store)) : cg_ok t -> exists2 x, m_getx t = Ok x & y_resnorm ys x = Ok (cnr (m_iter t)).
  move=> i1; have [x h1 h2] := ko_fix hd (cy (cg_it t)); exists x; first by rewrite gx.
  by rewrite h2 -(cr_res ip M r0 (ko_A hd)).
have hx (t : m_st (cg d store)) x r : cg_ok t -> (0 < m_iter t)%N -> m_getx t = Ok x -> y_resnorm ys x = Ok r ->
   r = cnr (m_iter t) /\ cg_ok (m_feed t r).
  move=> i1 _ E Er; have [x' ex er] := rx t i1; move: er.
  by move: ex; rewrite E => -[<-]; rewrite Er => -[->]; split=> //; apply: cg_feed_inv.
apply: (@run_totalq _ _ _ _ _ _ _ _ _ _ _ _ cg_good cg_ok (fun i r => r = cnr i)) => //.
- exact: cg_start_inv.
- exact: negbTE.
- by rewrite /= /r0_norm (ko_res hd) /=; eexists.
- by have [x h _] := ko_fix hd 0; exists x; rewrite -h (lin0 (ko_Mr hd)) addr0.
- by rewrite /= /cg_start (ko_res hd) /=; eexists.
- move=> t q i1 _ hm -> hgt; apply: cg_step_total => //; first by move=> st; apply: hst.
  apply/eqP => r00; move: hgt.
  by rewrite /cnr /rho r00 (ipl0 hmp) sqrtC0 mul0r le_gtF.
- by move=> t i1; have [x h1 h2] := rx t i1; exists x => //; eexists; exact: h2.
Qed.

Lemma cg_last s : y_bnorm ys != 0 -> of_run (krun ys o (cg d store) x0) s ->
  last 0 (s_res s) = cnr (cg_it (s_st s)) / y_bnorm ys.
Proof.
move=> nb /(cg_run nb)[h1 h2 h3 _]; rewrite -h3 // (last_nth 0).
by case: (s_res s) h2 => //= a q [->].
Qed.

(** With maxiter >= N, a run that ends has reached the tolerance after at most N steps. *)
Lemma cg_end s : 0 < y_bnorm ys -> (0 < N)%N -> (N <= o_maxiter o)%N -> 0 <= o_tol o ->
  of_run (krun ys o (cg d store) x0) s ->
  [/\ krun ys o (cg d store) x0 = Returns s, (cg_it (s_st s) <= N)%N & last 0 (s_res s) <= o_tol o].
Proof.
move=> bn N0 hm tol0 h; have nb : y_bnorm ys != 0 by rewrite gt_eqF.
have last_ := cg_last nb h; have [h1 h2 h3 _] := cg_run nb h.
have E : krun ys o (cg d store) x0 = Returns s.
  case: (h) => // E; exfalso.
  have [m0 ei sz hg _] := C23_convergence_error cg_good E.
  have eN : cg_it (s_st s) = N by apply/eqP; rewrite eqn_leq (ci_size h1) -[cg_it _]/(m_iter (s_st s)) ei hm.
  have r0N : cr N = 0.
    apply/eqP; case: eqVneq => // nz.
    have : (N.+1 <= N)%N; last by rewrite ltnn.
    apply: (cg_size hip (ko_A hd) (ko_M hd) (ko_Msa hd) (ko_Mpd hd) hs (n := N.+1)) => j.
    rewrite ltnS leq_eqVlt => /orP[/eqP->//|hj]; apply: (ci_nz h1); rewrite eN //.
  have := hg _ (leqnn _); rewrite -ei -[m_iter _]/(cg_it (s_st s)) h3 // eN /cnr /rho r0N (ipl0 hmp).
  by rewrite sqrtC0 mul0r le_gtF.
split=> //; first exact: ci_size.
have rl : last 0 (s_res s) \is Num.real.
  by rewrite last_ // ger0_real // divr_ge0 ?(ltW bn) // sqrtC_ge0; apply: (ip_ge0' hmp).
case: (boolP (o_tol o < last 0 (s_res s))) => hl; last by rewrite real_leNgt // ger0_real.
exfalso; have [_ /(_ hl)] := C23_normal_return cg_good E.
by case=> // e0; rewrite e0 leqNgt N0 in hm.
Qed.

Lemma cg_finite : ~~ store -> 0 < y_bnorm ys ->
  (forall en x, y_errnorm ys = Some en -> exists e, en x = Ok e) ->
  (0 < N)%N -> (N <= o_maxiter o)%N -> 0 <= o_tol o ->
  exists2 s, krun ys o (cg d store) x0 = Returns s &
    (cg_it (s_st s) <= N)%N /\ last 0 (s_res s) <= o_tol o.
Proof.
move=> st bn he N0 hm tol0; have := cg_total bn he _ tol0.
rewrite (negbTE st) => /(_ ltac:(by []))=> nr.
have st' : store = false by apply: negbTE.
case E: (krun ys o (cg d false) x0) nr => [s|s|//] _.
  have [|e1 e2 e3] := @cg_end s bn N0 hm tol0; first by rewrite st'; left.
  by exists s.
have [|e1 e2 e3] := @cg_end s bn N0 hm tol0; first by rewrite st'; right.
by move: e1; rewrite st' E.
Qed.

(** With store_arnoldi=True, V[:, n] is divided by the norm of the residual, so the
    tolerance 0 cannot be reached. *)
Lemma cg_store_exact s : store -> 0 < y_bnorm ys -> (0 < N)%N -> (N <= o_maxiter o)%N -> o_tol o = 0 ->
  r0 != 0 -> ~ of_run (krun ys o (cg d store) x0) s.
Proof.
move=> st bn N0 hm tol0 nr0 h; have nb : y_bnorm ys != 0 by rewrite gt_eqF.
have [|E e1 e2] := cg_end bn N0 hm _ h; first by rewrite tol0.
have [h1 _ _ _] := cg_run nb h; have [w1 _ _ _ _] := ci_st h1 st.
have nz : cr (cg_it (s_st s)) != 0 by case: (posnP (cg_it (s_st s))) => [->//|]; apply: w1.
move: e2; rewrite (cg_last nb h) tol0 => le0.
have : 0 < cnr (cg_it (s_st s)) / y_bnorm ys.
  rewrite divr_gt0 // sqrtC_gt0 lt_def (ip_ge0' hmp) andbT.
  by rewrite -/mp (ip_eq0 hmp).
by rewrite lt_def => /andP[/negbTE ne ge]; move: ne; rewrite eq_le le0 ge.
Qed.
End Cg.
