(** C79: RestartedGmres. *)
From mathcomp Require Import all_ssreflect all_algebra.
From mathcomp Require Import ring.
From Verif Require Import Base Spec.LinAlg Model.Inner Spec.Inner Proof.Algebra Proof.Inner Proof.IpTheory.
From Verif Require Import Model.Arnoldi Spec.Arnoldi Proof.Arnoldi Proof.ArnoldiAll Proof.ArnoldiExample.
From Verif Require Import Model.Solver Spec.Solver Model.LinearSystem Model.Krylov Spec.Krylov Spec.Agree Model.Restarted.
From Verif Require Import Proof.Solver Proof.ArnoldiRel Proof.Gmres Proof.LinearSystem Proof.Agree Proof.Restarted.
From Verif Require Properties.Gmres Properties.Solver Properties.Cg Properties.Deflation.

Set Implicit Arguments.
Unset Strict Implicit.
Unset Printing Implicit Defensive.
Import Order.TTheory GRing.Theory Num.Theory.
Local Open Scope ring_scope.
Local Arguments norm : simpl never.

Section Properties.
Variable C : numClosedFieldType.
Variable N : nat.
Local Notation vec := 'cV[C]_N.
Variable snorm : nat -> nat -> (nat -> nat -> C) -> C.
Variables (inf : C) (l : lsys C N) (o : opts C) (ortho : ortho_t) (max_restarts : nat) (x0 : option vec).
Hypothesis hl : lsys_ok l.
Hypothesis ho : ortho_ok l ortho.
Local Notation x := (x0_of x0).
Local Notation A := (lMlAMr l).
Local Notation M := (lMop l).
Local Notation restarted_ := (restarted_gmres snorm inf l o ortho max_restarts x0).
Local Notation cycle := (gmres_cycle snorm l o ortho x0).
(** The inner product <u, M v>. *)
Local Notation ipM u v := (ip1 (lB l) u (M v)).

(** A zero right hand side gives the solution 0 at once. *)
Theorem C79_zero_rhs : lMl l (lb l) = 0 -> 0 <= o_tol o ->
  exists2 s, restarted_ = RReturns s & i_xk s = 0 /\ i_res s = [:: 0].
Proof.
move=> hb tol0; have [s E [e1 _ e2]] := Properties.Gmres.C26_gmres_zero_rhs snorm x0 hl ho tol0 hb.
have ec : cycle None = Ok (InnerSol 0 [:: 0] (s_err s)) by rewrite /gmres_cycle E e1 e2.
exists (InnerSol 0 [:: 0] (s_err s)) => //.
by rewrite /restarted_gmres /restarted; case: max_restarts => [|n] /=; rewrite ec /= le_gtF.
Qed.

Section NonZero.
Hypothesis nb : lMl l (lb l) <> 0.
Let rn := rn_pos hl nb.

Let ne y u : cycle y = Ok u -> i_res u <> [::].
Proof. by move=> /(cycle_facts hl ho nb)[]. Qed.
Let link y u v : cycle y = Ok u -> cycle (Some (i_xk u)) = Ok v -> last 0 (i_res u) = head 0 (i_res v).
Proof. by move=> /(cycle_facts hl ho nb)[_ _ ->] /(cycle_facts hl ho nb)[_ -> _]. Qed.

Let mono y u : cycle y = Ok u -> sorted (fun a b => b <= a) (i_res u).
Proof. exact: (cycle_mono hl ho nb). Qed.

(** Both on normal return and on ConvergenceError. *)
Definition ends (s : inner_sol C vec) : Prop := restarted_ = RReturns s \/ restarted_ = RNoConvergence s.

Let hist s : ends s -> exists ls t, [/\ runs cycle (Some (i_xk s)) (rcons ls t), i_xk s = i_xk t,
  i_res s = joined (@i_res C vec) ls t & i_res t <> [::]].
Proof.
move=> h; have [ls [t [h1 _ h2 _]]] : exists ls t, Properties.Solver.restart_history (fun a b : C => b < a) 0 cycle (o_tol o) max_restarts s ls t.
  by case: h => [/(Properties.Solver.C27_restarted_returns ne)[]|/(Properties.Solver.C27_restarted_error ne)[[ls [t []]]]] //; exists ls, t.
have [[e] [y _ hy]] := runs_inv h1; exists ls, t; split=> //.
exact: ne hy.
Qed.

(** resnorms starts with the relative residual norm of x0 and ends with that of xk. *)
Theorem C79_endpoints s : ends s ->
  head 0 (i_res s) = resid_norm l x / rhs_norm l /\ last 0 (i_res s) = resid_norm l (i_xk s) / rhs_norm l.
Proof.
move=> /hist[ls [t [hr ex -> nt]]].
have [_ [u hu ->] _] := joined_facts ne mono link hr.
split; first by have [_ -> _] := cycle_facts hl ho nb hu.
have [_ [y _ hy]] := runs_inv hr; rewrite last_joined' // ex.
by have [_ _ ->] := cycle_facts hl ho nb hy.
Qed.

(** They do not increase, also across restarts. *)
Theorem C79_monotone s i j : ends s -> (i <= j)%N -> (j < size (i_res s))%N ->
  nth 0 (i_res s) j <= nth 0 (i_res s) i.
Proof.
move=> /hist[ls [t [hr _ -> _]]] /subnKC <-.
have [/(sortedP 0) h _ _] := joined_facts ne mono link hr.
elim: (j - i)%N => [|k IH]; first by rewrite addn0.
by rewrite addnS => hj; apply: le_trans (h _ hj) (IH (ltnW hj)).
Qed.

(** A normal return means that the tolerance is reached (which does not hold for Gmres
    itself, C23). *)
Theorem C79_returns s : 0 <= o_tol o -> restarted_ = RReturns s -> resid_norm l (i_xk s) <= o_tol o * rhs_norm l.
Proof.
move=> tol0 E; have [_ e] := C79_endpoints (or_introl E).
have [_] := Properties.Solver.C27_restarted_returns ne E; rewrite e => /negbT.
rewrite -real_leNgt ?ger0_real ?divr_ge0 ?(ltW rn) ?sqrtC_ge0 ?(ip_ge0' (lmip hl)) //.
by rewrite ler_pdivr_mulr.
Qed.

(** Without restarts the result is that of Gmres. *)
Theorem C79_no_restarts s xk : max_restarts = 0%N -> of_run (gmres_solve snorm l o ortho x0) s -> s_xk s = Some xk ->
  restarted_ = if o_tol o < last 0 (s_res s) then RNoConvergence (InnerSol xk (s_res s) (s_err s))
               else RReturns (InnerSol xk (s_res s) (s_err s)).
Proof.
move=> eR hs ex; have ec : cycle None = Ok (InnerSol xk (s_res s) (s_err s)).
  by rewrite /gmres_cycle; case: hs => ->; rewrite ex.
by rewrite eR /restarted_gmres /restarted /= ec /= andbF.
Qed.

(** If the field of values of T = Ml A Mr M has a distance >= c from the left half plane and
    the norm of T is at most d (both in the inner product <u, M v>), every entry of resnorms
    is at most sqrt(1 - (c/d)^2) times the previous one, for Gmres, Minres and
    RestartedGmres; RestartedGmres converges with any maxiter >= 1, and normally returns a
    solution within the tolerance if max_restarts is large enough. *)
Section Fov.
Variables (c d : C).
Hypothesis c0 : 0 < c.
Hypothesis cd : c <= d.
Hypothesis hc : forall v, c * ipM v v <= 'Re (ipM v (A (M v))).
Hypothesis hd : forall v, ipM (A (M v)) (A (M v)) <= d ^+ 2 * ipM v v.
Local Notation q := (sqrtC (1 - (c / d) ^+ 2)).

Theorem C79_minimal_residual tol res xk i : mr_result l x0 tol res xk -> (i.+1 < size res)%N ->
  nth 0 res i.+1 <= q * nth 0 res i.
Proof. exact: (mr_contract hl nb c0 cd hc hd). Qed.

Let sorted_q y u : cycle y = Ok u -> sorted (fun a b => b <= q * a) (i_res u).
Proof.
move=> /cycle_run[s [hs _ ->]]; apply/(sortedP 0) => i.
exact: (mr_contract hl nb c0 cd hc hd (MrGmres ho hs)).
Qed.

Theorem C79_contraction s i : ends s -> (i.+1 < size (i_res s))%N ->
  nth 0 (i_res s) i.+1 <= q * nth 0 (i_res s) i.
Proof.
move=> /hist[ls [t [hr _ -> _]]] hi.
by have [/(sortedP 0) h _ _] := joined_facts ne sorted_q link hr; apply: h.
Qed.

Theorem C79_converges : bounds_entries snorm -> (0 < o_maxiter o)%N -> 0 <= o_tol o ->
  q ^+ max_restarts.+1 * (resid_norm l x / rhs_norm l) <= o_tol o ->
  exists2 s, restarted_ = RReturns s & resid_norm l (i_xk s) <= o_tol o * rhs_norm l.
Proof.
move=> hb m0 tol0 hq; have inj := fov_inj hl c0 hc.
case E: restarted_ => [s|s|e].
- by exists s => //; apply: C79_returns.
- exfalso; have h := C79_contraction (or_intror E); have [e0 _] := C79_endpoints (or_intror E).
  have [[ls [t [[h1 _ h2 h3] hs]]] hgt] := Properties.Solver.C27_restarted_error ne E.
  have [_ [y _ hy]] := runs_inv h1.
  have big u : List.In u (rcons ls t) -> (1 < size (i_res u))%N.
    move=> hu; have [z hz] := runs_in h1 hu; apply: (cycle_size hl ho nb m0 tol0 hz).
    move: hu; rewrite -cats1 => hu; case: (List.in_app_or _ _ _ hu) => [/h3//|[<-|[]]].
    by move: hgt; rewrite h2 -/(joined _ _ _) last_joined' //; exact: ne hy.
  have [_ _ /(_ big) sz] := joined_facts ne sorted_q link h1.
  rewrite -[joined _ _ _]h2 hs in sz.
  have pw k : (k < size (i_res s))%N -> nth 0 (i_res s) k <= q ^+ k * head 0 (i_res s).
    elim: k => [|k IH] hk; first by rewrite expr0 mul1r nth0.
    apply: le_trans (h _ hk) _; rewrite (exprS (sqrtC _) k) -mulrA ler_wpmul2l ?(q_ge0 c0 cd) //.
    exact: IH (ltnW hk).
  have hk : (max_restarts.+1 <= (size (i_res s)).-1)%N by rewrite -ltnS prednK // (leq_trans _ sz).
  have hl' : ((size (i_res s)).-1 < size (i_res s))%N by rewrite prednK // (leq_trans _ sz).
  have := pw _ hl'; rewrite nth_last e0 => hlast.
  have n0 : 0 <= resid_norm l x / rhs_norm l.
    by rewrite divr_ge0 ?(ltW rn) //; exact: (ipnorm_ge0 (lmip hl)).
  have := le_trans hlast (ler_wpmul2r n0 (ler_wiexpn2l (q_ge0 c0 cd) (q_le1 c0 cd) hk)).
  by move=> /le_trans/(_ hq)/(lt_le_trans hgt); rewrite ltxx.
exfalso; have tot y : exists u, cycle y = Ok u by exact: (cycle_total hl o ho nb x0 y inj hb).
have [ef|[y ey]] := Properties.Solver.C27_raises E.
  rewrite ef in E; have [y ey] := Properties.Solver.C27_terminates ne E.
  by have [u] := tot y; rewrite ey.
by have [u] := tot y; rewrite ey.
Qed.
End Fov.
End NonZero.
End Properties.

(** The system of C29: T = 10 [[2,1],[1,2]] with c = 10, d = 30; GMRES(1) with one restart
    reduces the residual by 8/9. *)
Section Examples.
Variable C : numClosedFieldType.
Local Notation l := (Properties.Deflation.dex_lsys C).
Local Notation ip := (ip1 (lB l)).

Let hip : is_ip ip := valid_is_ip (lo_B (Properties.Deflation.dex_ok C)).
Let TE v : lMlAMr l (lMop l v) = 20%:R *: v + 10%:R *: swap_op v.
Proof.
rewrite /lMlAMr /= /Properties.Cg.spd_op (linZ (@swap_lin C)) scalerDr !scalerA -!natrM.
by [].
Qed.
Let sa := @swap_sa C.
Let ss v : swap_op (swap_op v) = v :> 'cV[C]_2. Proof. exact: Properties.Cg.swap_swap. Qed.
Let e2 v : ip (swap_op v) (swap_op v) = ip v v. Proof. by rewrite sa ss. Qed.
Let e1 v : ip (swap_op v) v = ip v (swap_op v). Proof. exact: sa. Qed.

Let plus v : 0 <= 2%:R * (ip v v + ip v (swap_op v)).
Proof.
have := ip_ge0' hip (v + swap_op v); rewrite (ipDl hip) !(ipDr hip) e1 e2.
by congr (_ <= _); ring.
Qed.
Let minus v : 0 <= 2%:R * (ip v v - ip v (swap_op v)).
Proof.
have := ip_ge0' hip (v - swap_op v); rewrite (ipBl hip) !(ipBr hip) e1 e2.
by congr (_ <= _); ring.
Qed.

Example C79_fov (v : 'cV[C]_2) :
  10%:R * ip v (lMop l v) <= 'Re (ip v (lMop l (lMlAMr l (lMop l v)))) /\
  ip (lMlAMr l (lMop l v)) (lMop l (lMlAMr l (lMop l v))) <= 30%:R ^+ 2 * ip v (lMop l v).
Proof.
have sM u : lMop l u = 5%:R *: u by [].
rewrite !TE !sM !(ipZr hip) !(ipDr hip) !(ipZr hip) !(ipDl hip) !(ipZl hip) !conjC_nat e1 e2; split.
  rewrite (_ : 'Re _ = 5%:R * (20%:R * ip v v + 10%:R * ip v (swap_op v))); last first.
    have r1 : ip v v \is Num.real by exact: ger0_real (ip_ge0' hip v).
    have r2 : ip v (swap_op v) \is Num.real by apply/CrealP; rewrite -(ipC hip) sa.
    by apply/Creal_ReP; apply: realM; [|apply: realD; apply: realM]; rewrite ?realn.
  rewrite -subr_ge0; suff -> : 5%:R * (20%:R * ip v v + 10%:R * ip v (swap_op v)) - 10%:R * (5%:R * ip v v)
      = 25%:R * (2%:R * (ip v v + ip v (swap_op v))) by rewrite mulr_ge0 ?ler0n.
  by ring.
rewrite -subr_ge0; match goal with |- is_true (0 <= ?e) => suff -> : e = 1000%:R * (2%:R * (ip v v - ip v (swap_op v))) end.
  by rewrite mulr_ge0 ?ler0n.
by ring.
Qed.

Example C79_run inf : exists2 s,
  restarted_gmres (@frob C) inf l (Opts (8%:R / 9%:R) 1 false) Mgs 1 None = RReturns s
  & resid_norm l (i_xk s) <= 8%:R / 9%:R * rhs_norm l.
Proof.
have ok := Properties.Deflation.dex_ok C; have nz := @Properties.Deflation.dex_nz C.
have n30 : 30%:R != 0 :> C by rewrite pnatr_eq0.
apply: (@C79_converges C 2 _ inf l (Opts (8%:R / 9%:R) 1 false) Mgs 1 None ok _ nz 10%:R 30%:R) => //.
- by rewrite ltr0n.
- by rewrite ler_nat.
- by move=> v; have [] := C79_fov v.
- by move=> v; have [] := C79_fov v.
- exact: frob_bounds.
- by rewrite divr_ge0 ?ler0n.
have -> : resid_norm l (x0_of None) / rhs_norm l = 1.
  rewrite /resid_norm /rhs_norm /resid (lin0 (lo_A ok)) subr0 divff //.
  by rewrite rhs_norm_eq0 //; apply/eqP.
rewrite mulr1 sqrtCK le_eqVlt; apply/orP; left; apply/eqP.
rewrite -[o_tol _]/(8%:R / 9%:R); field; exact: isT.
Qed.
End Examples.

Print Assumptions C79_zero_rhs.
Print Assumptions C79_endpoints.
Print Assumptions C79_monotone.
Print Assumptions C79_returns.
Print Assumptions C79_no_restarts.
Print Assumptions C79_minimal_residual.
Print Assumptions C79_contraction.
Print Assumptions C79_converges.
Print Assumptions C79_run.
