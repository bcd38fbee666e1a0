(** RestartedGmres. *)
From mathcomp Require Import all_ssreflect all_algebra.
From mathcomp Require Import ring.
From Verif Require Import Base Spec.LinAlg Model.Inner Spec.Inner Proof.Algebra Proof.Inner Proof.IpTheory.
From Verif Require Import Model.Arnoldi Spec.Arnoldi Proof.Arnoldi Proof.ArnoldiAll.
From Verif Require Import Model.Solver Spec.Solver Model.LinearSystem Model.Krylov Spec.Krylov Spec.Agree Model.Restarted.
From Verif Require Import Proof.Solver Proof.ArnoldiRel Proof.SolverInv Proof.Gmres Proof.LinearSystem Proof.Rates Proof.Agree.
From Verif Require Properties.Solver.

Set Implicit Arguments.
Unset Strict Implicit.
Unset Printing Implicit Defensive.
Import Order.TTheory GRing.Theory Num.Theory.
Local Open Scope ring_scope.
Local Arguments norm : simpl never.

(** Joining lists that overlap in one element. *)
Section Lists.
Variables (T : Type) (R : rel T) (z : T).

Lemma chopK (a : seq T) : a <> [::] -> a = rcons (chop a) (last z a).
Proof.
case/lastP: a => // a x _; rewrite last_rcons /chop size_rcons /=.
by congr rcons; rewrite -cats1 take_size_cat.
Qed.

Lemma sorted_join (a b : seq T) : a <> [::] -> b <> [::] -> last z a = head z b -> sorted R a -> sorted R b ->
  sorted R (chop a ++ b).
Proof.
move=> ha hb e; rewrite {1}(chopK ha) e; case: b hb {e} => //= y b _.
by case: (chop a) => [|x c] //=; rewrite rcons_path cat_path /= => /andP[-> ->].
Qed.

Lemma head_join (a b : seq T) : a <> [::] -> b <> [::] -> last z a = head z b -> head z (chop a ++ b) = head z a.
Proof. by move=> ha hb e; rewrite {2}(chopK ha) e; case: (chop a). Qed.

Lemma size_join (a b : seq T) : a <> [::] -> (size (chop a ++ b)).+1 = (size a + size b)%N.
Proof. by case: a => // x a _; rewrite size_cat /chop size_take /= ltnS leqnn. Qed.
End Lists.

Section Runs.
Variables (S X : Type) (zero : S) (inner : option X -> res (inner_sol S X)) (R : rel S).
Local Notation ires := (@i_res S X).
Hypothesis ne : forall x s, inner x = Ok s -> i_res s <> [::].
Hypothesis hsort : forall x s, inner x = Ok s -> sorted R (i_res s).
Hypothesis hlink : forall x s t, inner x = Ok s -> inner (Some (i_xk s)) = Ok t -> last zero (i_res s) = head zero (i_res t).

Lemma runs_inv y l t : runs inner y (rcons l t) -> y = Some (i_xk t) /\ exists2 x, runs inner x l & inner x = Ok t.
Proof.
move=> h; move e : (rcons l t) h => m h; case: h e; first by case: l.
by move=> x l' s hr hi /rcons_inj[-> ->]; split=> //; exists x.
Qed.

Lemma joined_ne l t : i_res t <> [::] -> joined ires l t <> [::].
Proof. by rewrite /joined; case: (i_res t) => // a q _; case: flatten. Qed.

Lemma last_joined' l t : i_res t <> [::] -> last zero (joined ires l t) = last zero (i_res t).
Proof. by rewrite /joined last_cat; case: (i_res t). Qed.

(** [first]: the first run *)
Lemma joined_facts l t y : runs inner y (rcons l t) ->
  [/\ sorted R (joined ires l t),
      exists2 u, inner None = Ok u & head zero (joined ires l t) = head zero (i_res u)
    & (forall u, List.In u (rcons l t) -> (1 < size (i_res u))%N) -> ((size l).+1 < size (joined ires l t))%N].
Proof.
elim/last_ind: l t y => [|l u IH] t y /runs_inv[_ [x hr hi]].
  have ex : x = None by move e : [::] hr => m h; case: h e => // x' [].
  rewrite /joined /=; split; first exact: hsort hi.
    by exists t => //; rewrite -ex.
  by move=> h; apply: h; left.
have [h1 [v hv h2] h3] := IH _ _ hr; have [ex [x' hr' hi']] := runs_inv hr; rewrite ex in hi.
have n1 := ne hi'; have n2 := ne hi; have n3 := @joined_ne l u n1.
have lk : last zero (joined ires l u) = head zero (i_res t) by rewrite last_joined' //; apply: (hlink hi' hi).
rewrite -joined_rcons //; split.
- exact: (sorted_join n3 n2 lk h1 (hsort hi)).
- by exists v => //; rewrite (head_join n3 n2 lk).
move=> h; rewrite -ltnS size_join // size_rcons; rewrite -(addn2 (size l).+2); apply: leq_add.
  by apply: h3 => w hw; apply: h; rewrite -cats1; apply: List.in_or_app; left.
by apply: h; rewrite -cats1; apply: List.in_or_app; right; left.
Qed.
End Runs.

Section Restarted.
Variable C : numClosedFieldType.
Variable N : nat.
Local Notation vec := 'cV[C]_N.
Variable snorm : nat -> nat -> (nat -> nat -> C) -> C.
Variable l : lsys C N.
Hypothesis hl : lsys_ok l.
Variables (o : opts C) (ortho : ortho_t).
Hypothesis ho : ortho_ok l ortho.
Hypothesis nb : lMl l (lb l) <> 0.
Variable x0 : option vec.
Local Notation A := (lMlAMr l).
Local Notation M := (lMop l).
Local Notation ip := (ip1 (lB l)).
Local Notation mp := (mip ip M).
Let hip : is_ip ip := valid_is_ip (lo_B hl).
Let lin := lMlAMr_lin hl.
Let linM := lo_M hl.
Let hmp := lmip hl.
Local Notation cycle := (gmres_cycle snorm l o ortho x0).
Local Notation start x := (x0_of (if x is Some v then Some v else x0)).

Lemma cycle_run x u : cycle x = Ok u -> exists s, [/\ of_run (gmres_solve snorm l o ortho (if x is Some v then Some v else x0)) s,
  s_xk s = Some (i_xk u) & i_res u = s_res s].
Proof.
rewrite /gmres_cycle; case E: gmres_solve => [s|s|//]; case Ex: s_xk => [xk|//] [<-].
  by exists s; split=> //; left.
by exists s; split=> //; right.
Qed.

Lemma rn_pos : 0 < rhs_norm l.
Proof.
rewrite lt_def rhs_norm_eq0 //; apply/andP; split; first exact/eqP.
exact: (ipnorm_ge0 hmp).
Qed.

Lemma cycle_facts x u : cycle x = Ok u ->
  [/\ i_res u <> [::], head 0 (i_res u) = resid_norm l (start x) / rhs_norm l
    & last 0 (i_res u) = resid_norm l (i_xk u) / rhs_norm l].
Proof.
move=> /cycle_run[s [hs ex ->]].
have [s0 _ h1 [z ez hz]] := mr_facts hl nb (MrGmres ho hs).
split; first by case: (s_res s) s0.
  rewrite -nth0; have [z' [kz' _] ->] := h1 0%N s0; case: kz' => c ->; rewrite big_ord0.
  by rewrite (lin0 (lo_Mr hl)) addr0.
have hi : ((size (s_res s)).-1 < size (s_res s))%N by rewrite prednK.
rewrite -nth_last; have [z' hz' ->] := h1 _ hi; congr (_ / _).
move: ez; rewrite ex => -[->]; apply/eqP; rewrite eq_le.
by have [k1 m1] := hz; have [k2 m2] := hz'; rewrite (m1 _ k2) (m2 _ k1).
Qed.

Lemma cycle_mono x u : cycle x = Ok u -> sorted (fun a b => b <= a) (i_res u).
Proof.
move=> /cycle_run[s [hs _ ->]]; have [s0 _ h1 _] := mr_facts hl nb (MrGmres ho hs).
apply/(sortedP 0) => i hi; have [z [k1 m1] ->] := h1 _ hi; have [z' [k2 _] ->] := h1 _ (ltnW hi).
by rewrite ler_pmul2r ?invr_gt0 ?rn_pos //; apply: m1; exact: span_widen k2.
Qed.

(** A run that ends above the tolerance makes at least one iteration. *)
Lemma cycle_size x u : (0 < o_maxiter o)%N -> 0 <= o_tol o -> cycle x = Ok u -> o_tol o < last 0 (i_res u) ->
  (1 < size (i_res u))%N.
Proof.
move=> m0 tol0 /cycle_run[s [hs _ ->]] hgt; move: hs; set y := if _ is Some _ then _ else _; rewrite /gmres_solve (bnorm_ok hl) /=.
have nb' : y_bnorm (lsys_sys l (rhs_norm l)) != 0 by rewrite /= rhs_norm_eq0 //; apply/eqP.
move=> hs; have hd := lsys_kd hl y; have hcf := lsys_cfg hl (o_maxiter o) (rhs_norm l) ho.
have gm := gmres_good (kdata_lsys l (rhs_norm l)) (o_maxiter o) snorm ortho.
have [h1 h2 h3 _] := gmres_run hd hcf nb' hs; rewrite h2 ltnS lt0n; apply/eqP => e.
case: hs => E; last first.
  have [_ ei _ _ _] := Properties.Solver.C23_convergence_error gm E.
  by rewrite -ei e in m0.
have [_ /(_ hgt)[em|hi]] := Properties.Solver.C23_normal_return gm E; first by rewrite em in m0.
have := gi_z h1 e; move: hi => /= -> /esym/eqP r00.
have := hgt; rewrite (res_last h2); have [r hr ->] := h3 _ (leqnn _).
have -> : r = 0.
  move: hr; rewrite e => hr; rewrite (min_res_unique hr (min_res0 hd)).
  by rewrite /mnorm r00 (ipl0 (ko_B hd)) sqrtC0.
by rewrite mul0r le_gtF.
Qed.

Lemma cycle_total x : injective_op A -> bounds_entries snorm -> exists u, cycle x = Ok u.
Proof.
move=> inj hb; rewrite /gmres_cycle; set y := if _ is Some _ then _ else _.
have nb' : y_bnorm (lsys_sys l (rhs_norm l)) != 0 by rewrite /= rhs_norm_eq0 //; apply/eqP.
have hd := lsys_kd hl y; have hcf := lsys_cfg hl (o_maxiter o) (rhs_norm l) ho.
have xk s : of_run (gmres_solve snorm l o ortho y) s -> exists v, s_xk s = Some v.
  by move=> /(MrGmres ho)/(mr_facts hl nb)[_ _ _ [z -> _]]; eexists.
case E: (gmres_solve snorm l o ortho y) => [s|s|e].
- by have [v ->] := xk s (or_introl E); eexists.
- by have [v ->] := xk s (or_intror E); eexists.
move: E; rewrite /gmres_solve (bnorm_ok hl) /=.
have := gmres_no_raise hd hcf (fun _ z _ => inj z) hb nb'; set r := krun _ _ _ _.
move=> nr E; exfalso; move: nr; rewrite E /=; apply.
move=> en v; rewrite /lsys_sys /y_errnorm; case: (lexact l) => // e' [<-].
by rewrite norm_ip; [eexists|exact: lo_B hl].
Qed.

(** One GMRES step reduces the residual at least as much as a step of steepest descent. *)
Section Fov.
Variables (c s : C).
Hypothesis c0 : 0 < c.
Hypothesis cs : c <= s.
Hypothesis hc : forall v, c * mp v v <= 'Re (mp v (A (M v))).
Hypothesis hs : forall v, mp (A (M v)) (A (M v)) <= s ^+ 2 * mp v v.
Local Notation q := (sqrtC (1 - (c / s) ^+ 2)).

Lemma s0 : 0 < s. Proof. exact: lt_le_trans cs. Qed.
Lemma q2_ge0 : 0 <= 1 - (c / s) ^+ 2.
Proof.
rewrite subr_ge0 -(expr1n _ 2) ler_expn2r ?nnegrE ?ler01 ?divr_ge0 ?(ltW c0) ?(ltW s0) //.
by rewrite ler_pdivr_mulr ?s0 // mul1r.
Qed.
Lemma q_ge0 : 0 <= q. Proof. by rewrite sqrtC_ge0 q2_ge0. Qed.
Lemma q_le1 : q <= 1.
Proof.
rewrite -[X in _ <= X]sqrtC1 ler_sqrtC ?nnegrE ?q2_ge0 ?ler01 // ler_subl_addr ler_addl.
by rewrite exprn_ge0 // divr_ge0 ?(ltW c0) ?(ltW s0).
Qed.

Lemma fov_inj : injective_op A.
Proof.
move=> v e; have [w ew] := M_onto hip linM (lo_Mpd hl) v.
have : c * mp w w <= 0 by apply: le_trans (hc w) _; rewrite ew e (ipr0 hmp) raddf0.
rewrite pmulr_rle0 // => h; have : mp w w == 0 by rewrite eq_le h (ip_ge0' hmp).
by rewrite (ip_eq0 hmp) => /eqP w0; rewrite -ew w0 (lin0 linM).
Qed.

Lemma descent r : mnorm ip M (r - (c / s ^+ 2) *: A (M r)) <= q * mnorm ip M r.
Proof.
have s2 : s ^+ 2 != 0 by rewrite expf_neq0 // gt_eqF ?s0.
have a0 : 0 <= c / s ^+ 2 by rewrite divr_ge0 ?(ltW c0) // exprn_ge0 // ltW ?s0.
rewrite -[mnorm _ _ _]/(sqrtC (mp _ _)) -[X in _ <= _ * X]/(sqrtC (mp r r)) -sqrtCM ?nnegrE ?q2_ge0 ?(ip_ge0' hmp) //.
rewrite ler_sqrtC ?nnegrE ?mulr_ge0 ?q2_ge0 ?(ip_ge0' hmp) //.
set a := c / s ^+ 2; set t := A (M r).
have ac : a^* = a by apply: geC0_conj.
have e : mp (r - a *: t) (r - a *: t) = mp r r - a * (mp r t + mp t r) + a ^+ 2 * mp t t.
  by rewrite (ipBl hmp) !(ipBr hmp) !(ipZl hmp) !(ipZr hmp) ac; ring.
have eR : mp r t + mp t r = 2%:R * 'Re (mp r t).
  by rewrite (ipC hmp r t) ReE mulrC divfK // pnatr_eq0.
rewrite e eR.
have h1 : a ^+ 2 * mp t t <= a ^+ 2 * (s ^+ 2 * mp r r) by rewrite ler_wpmul2l ?exprn_ge0 //; exact: hs.
have h2 : a * (2%:R * (c * mp r r)) <= a * (2%:R * 'Re (mp r t)).
  by rewrite ler_wpmul2l // ler_wpmul2l ?ler0n //; exact: hc.
apply: le_trans (ler_add (ler_sub (lexx (mp r r)) h2) h1) _.
suff -> : mp r r - a * (2%:R * (c * mp r r)) + a ^+ 2 * (s ^+ 2 * mp r r) = (1 - (c / s) ^+ 2) * mp r r by [].
by rewrite /a; field; rewrite gt_eqF ?s0.
Qed.

Lemma mr_contract tol res xk i : mr_result l x0 tol res xk -> (i.+1 < size res)%N ->
  nth 0 res i.+1 <= q * nth 0 res i.
Proof.
move=> /(mr_facts hl nb)[_ _ h1 _] hi.
have [z [k1 m1] ->] := h1 _ hi; have [z' [k2 _] ->] := h1 _ (ltnW hi).
rewrite mulrA ler_pmul2r ?invr_gt0 ?rn_pos //.
set x := x0_of x0; pose r := resid l (x + lMr l z').
have er : r = resid l x - A z' by rewrite /r resid_update.
have kr : in_krylov A M (resid l x) i.+1 (M r).
  rewrite er (linB linM); apply: spanB; first exact: (@span_mem _ _ _ _ 0).
  apply: (span_trans (span_map (f := fun v => M (A v)) (lin_comp linM lin) k2)) => j hj.
  by apply: (@span_mem _ _ _ _ j.+1).
apply: le_trans (m1 (z' + (c / s ^+ 2) *: M r) _) _.
  by apply: spanD; [exact: span_widen k2|exact: spanZ].
rewrite /resid_norm resid_update // (linD lin) (linZ lin) opprD addrA -er.
exact: descent.
Qed.
End Fov.
End Restarted.
