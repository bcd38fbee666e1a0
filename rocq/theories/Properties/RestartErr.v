(** C27, C79: the error norms of the restarted solvers. *)
From mathcomp Require Import all_ssreflect all_algebra.
From Verif Require Import Base Spec.LinAlg Model.Inner Spec.Inner Proof.Algebra Proof.Inner Proof.IpTheory.
From Verif Require Import Model.Arnoldi Spec.Arnoldi Proof.Arnoldi Proof.ArnoldiAll Proof.ArnoldiExample.
From Verif Require Import Model.Solver Spec.Solver Model.LinearSystem Model.Krylov Spec.Krylov Spec.Agree Model.Restarted.
From Verif Require Import Proof.Solver Proof.ArnoldiRel Proof.Gmres Proof.LinearSystem Proof.Agree Proof.Restarted Proof.RestartErr.
From Verif Require Properties.Solver Properties.Restarted Properties.Errnorms.

Set Implicit Arguments.
Unset Strict Implicit.
Unset Printing Implicit Defensive.
Import Order.TTheory GRing.Theory Num.Theory.
Local Open Scope ring_scope.
Local Arguments norm : simpl never.

Section Skeleton.
Variables (S X : Type) (gt : S -> S -> bool) (zero inf : S).
Variables (inner : option X -> res (inner_sol S X)) (tol : S) (max_restarts : nat).
Local Notation restarted := (restarted gt zero inner tol max_restarts inf).

(** If the inner solver records error norms, one for every residual norm, they are joined
    like the residual norms of the same runs. *)
Theorem C27_errnorms s : (forall x s, inner x = Ok s -> i_res s <> [::]) ->
  (forall x s, inner x = Ok s -> size (i_err s) = size (i_res s)) ->
  restarted = RReturns s \/ restarted = RNoConvergence s ->
  size (i_err s) = size (i_res s) /\
  exists l t, [/\ runs inner (Some (i_xk s)) (rcons l t),
    i_res s = flatten (map (fun u => chop (i_res u)) l) ++ i_res t
    & i_err s = flatten (map (fun u => chop (i_err u)) l) ++ i_err t].
Proof.
move=> ne nr h; have : epost inner restarted by apply: restarted_err.
have go : (exists l t, [/\ runs inner (Some (i_xk s)) (rcons l t), i_res s = joined (@i_res _ _) l t
     & i_err s = joined (@i_err _ _) l t]) -> size (i_err s) = size (i_res s) /\
  exists l t, [/\ runs inner (Some (i_xk s)) (rcons l t),
    i_res s = flatten (map (fun u => chop (i_res u)) l) ++ i_res t
    & i_err s = flatten (map (fun u => chop (i_err u)) l) ++ i_err t].
  move=> [l [t [h1 h2 h3]]]; split; last by exists l, t.
  by rewrite h2 h3; apply: joined_err_size h1.
by case: h => ->.
Qed.

(** No error norms without exact_solution. *)
Theorem C27_no_errnorms s : (forall x s, inner x = Ok s -> i_err s = [::]) ->
  restarted = RReturns s \/ restarted = RNoConvergence s -> i_err s = [::].
Proof.
move=> h0; rewrite /Solver.restarted /=; case E: (inner None) => [u|e]; last by case.
rewrite (h0 _ _ E); have := rloop_noerr gt zero tol max_restarts max_restarts 1 (Some (i_xk u)) (i_res u) h0.
by move=> h1 [] e; move: h1; rewrite e.
Qed.
End Skeleton.

Section Gmres.
Variable C : numClosedFieldType.
Variable N : nat.
Local Notation vec := 'cV[C]_N.
Variable snorm : nat -> nat -> (nat -> nat -> C) -> C.
Variables (inf : C) (l : lsys C N) (o : opts C) (ortho : ortho_t) (max_restarts : nat) (x0 : option vec).
Hypothesis hl : lsys_ok l.
Hypothesis ho : ortho_ok l ortho.
Hypothesis nb : lMl l (lb l) <> 0.
Variable xs : vec.
Hypothesis hex : lexact l = Some xs.
Local Notation restarted_ := (restarted_gmres snorm inf l o ortho max_restarts x0).
Local Notation cycle := (gmres_cycle snorm l o ortho x0).
Local Notation ip := (ip1 (lB l)).
Local Notation start x := (if x is Some v then Some v else x0).

Let crun y u : cycle y = Ok u -> exists s, [/\ of_run (gmres_solve snorm l o ortho (start y)) s,
  s_xk s = Some (i_xk u), i_res u = s_res s & i_err u = s_err s].
Proof.
rewrite /gmres_cycle; case E: gmres_solve => [s|s|//]; case Ex: s_xk => [xk|//] [<-].
  by exists s; split=> //; left.
by exists s; split=> //; right.
Qed.

Let ne y u : cycle y = Ok u -> i_res u <> [::].
Proof. by move=> /(cycle_facts hl ho nb)[]. Qed.
Let nr y u : cycle y = Ok u -> size (i_err u) = size (i_res u).
Proof. by move=> /crun[s [hs _ -> ->]]; have [] := Properties.Errnorms.C80_gmres_errnorms hl nb hex ho hs. Qed.

Let ends_err y u : cycle y = Ok u ->
  head 0 (i_err u) = ipnorm ip (xs - x0_of (start y)) /\ last 0 (i_err u) = ipnorm ip (xs - i_xk u).
Proof.
move=> hc; have nu := ne hc; have [s [hs ex er ee]] := crun hc; rewrite ee.
have [sz he] := Properties.Errnorms.C80_gmres_errnorms hl nb hex ho hs.
have s0 : (0 < size (s_err s))%N by rewrite sz -er; case: (i_res u) nu.
split.
  rewrite -nth0; have [z [hz _] ->] := he 0%N s0; case: hz => c ->; rewrite big_ord0.
  by rewrite (lin0 (lo_Mr hl)) addr0.
have [r0 _ _ [z ez [kz _]]] := mr_facts hl nb (MrGmres ho hs); rewrite ex in ez; case: ez => ez.
have gm := gmres_good (kdata_lsys l (rhs_norm l)) (o_maxiter o) snorm ortho.
case: (posnP (size (s_res s)).-1) => [z0|n0].
  have s1 : size (s_err s) = 1%N by rewrite sz -(prednK r0) z0.
  move: kz; rewrite z0 => -[c z00]; rewrite big_ord0 in z00; rewrite ez z00 (lin0 (lo_Mr hl)) addr0 -nth_last s1 /=.
  have [z1 [[c1 ->] _] ->] := he 0%N s0; by rewrite big_ord0 (lin0 (lo_Mr hl)) addr0.
move: hs; rewrite /gmres_solve (bnorm_ok hl) /= => hs.
have he' : y_errnorm (lsys_sys l (rhs_norm l)) = Some (fun v => norm (xs - v) None (lB l)) by rewrite /= hex.
have nb' : y_bnorm (lsys_sys l (rhs_norm l)) != 0 by rewrite /= rhs_norm_eq0 //; apply/eqP.
have [_ h2 _ _] := gmres_run (lsys_kd hl _) (lsys_cfg hl (o_maxiter o) (rhs_norm l) ho) nb' hs.
have [|x ex' en] := Properties.Solver.C25_error_norm gm he' hs; first by move: n0; rewrite h2.
by move: ex'; rewrite ex => -[exx]; move: en; rewrite -exx (norm_ip _ (lo_B hl)) => -[].
Qed.

Let link y u v : cycle y = Ok u -> cycle (Some (i_xk u)) = Ok v -> last 0 (i_err u) = head 0 (i_err v).
Proof. by move=> /ends_err[_ ->] /ends_err[-> _]. Qed.

Section Joined.
Variable R : rel C.
Hypothesis hR : forall y u, cycle y = Ok u -> sorted R (i_err u).

Lemma facts s : restarted_ = RReturns s \/ restarted_ = RNoConvergence s ->
  [/\ size (i_err s) = size (i_res s), sorted R (i_err s),
      head 0 (i_err s) = ipnorm ip (xs - x0_of x0) & last 0 (i_err s) = ipnorm ip (xs - i_xk s)].
Proof.
move=> h; have [hz [ls [t [h1 _ h2]]]] := C27_errnorms ne nr h.
have [[ex] [y hy ht]] := runs_inv h1.
have nt : i_err t <> [::] by move=> e; have := nr ht; rewrite e => /esym/size0nil/(ne ht).
have ns z w : inner_sw cycle z = Ok w -> i_res w <> [::].
  by move=> /inner_swE[u hu ->] /= e; have := nr hu; rewrite e => /esym/size0nil/(ne hu).
have ss z w : inner_sw cycle z = Ok w -> sorted R (i_res w) by move=> /inner_swE[u /hR hu ->].
have sl z w v : inner_sw cycle z = Ok w -> inner_sw cycle (Some (i_xk w)) = Ok v -> last 0 (i_res w) = head 0 (i_res v).
  by move=> /inner_swE[u hu ->] /inner_swE[u' hu' ->]; exact: link hu hu'.
have hr := runs_sw h1; rewrite map_rcons in hr.
have [k1 [w hw k2] _] := joined_facts ns ss sl hr.
rewrite joined_sw -[joined _ _ _]h2 in k1 k2; split=> //.
  by rewrite k2; have [u hu ->] := inner_swE hw; have [-> _] := ends_err hu.
rewrite h2 -[_ ++ _]/(joined (@i_err C vec) ls t) ex.
have [_ <-] := ends_err ht.
by rewrite /joined last_cat; case: (i_err t) nt.
Qed.
End Joined.

(** errnorms of RestartedGmres: as many entries as resnorms, from the error of x0 to the
    error of xk. *)
Theorem C79_errnorms s : restarted_ = RReturns s \/ restarted_ = RNoConvergence s ->
  [/\ size (i_err s) = size (i_res s), head 0 (i_err s) = ipnorm ip (xs - x0_of x0)
    & last 0 (i_err s) = ipnorm ip (xs - i_xk s)].
Proof.
have hR y u : cycle y = Ok u -> sorted (fun _ _ : C => true) (i_err u).
  by move=> _; apply/(sortedP 0).
by move=> /(facts hR)[].
Qed.

(** It does not increase for positive definite systems without preconditioners M and Mr. *)
Theorem C79_errnorms_monotone s i j : self_adjoint ip (lMlAMr l) -> pos_def ip (lMlAMr l) ->
  (forall v, lMr l v = v) -> (forall v, lMop l v = v) -> lMl l (lA l xs) = lMl l (lb l) ->
  restarted_ = RReturns s \/ restarted_ = RNoConvergence s -> (i <= j)%N -> (j < size (i_err s))%N ->
  nth 0 (i_err s) j <= nth 0 (i_err s) i.
Proof.
move=> hsa hpd hMr hM hsol hs.
have hR y u : cycle y = Ok u -> sorted (fun a b : C => b <= a) (i_err u).
  move=> /crun[w [hw _ _ ->]]; apply/(sortedP 0) => k hk.
  exact: (Properties.Errnorms.C80_gmres_monotone hl nb hsa hpd hMr hsol hM hex ho hw (leqnSn k) hk).
have [_ /(sortedP 0) h _ _] := facts hR hs; move=> /subnKC <-.
elim: (j - i)%N => [|k IH]; first by rewrite addn0.
by rewrite addnS => hj; apply: le_trans (h _ hj) (IH (ltnW hj)).
Qed.
End Gmres.

(** A restarted run of the system of C80_run that satisfies all hypotheses. *)
Section Example.
Variable C : numClosedFieldType.
Local Notation l := (Properties.Errnorms.pq_sys (C := C) 2%:Z 1 None).
Example C79_errnorms_run inf : exists s,
  (restarted_gmres (@frob C) inf l (Opts 0 1 false) Mgs 1 None = RReturns s \/
   restarted_gmres (@frob C) inf l (Opts 0 1 false) Mgs 1 None = RNoConvergence s) /\
  head 0 (i_err s) = 1.
Proof.
have ok : lsys_ok l by apply: Properties.Errnorms.pq_ok => //; left.
have pd : pos_def (ip1 (lB l)) (lMlAMr l) by apply: Properties.Errnorms.pq_pd.
have nz : lMl l (lb l) <> 0 by apply: Properties.Errnorms.pq_nz.
have hip : is_ip (ip1 (lB l)) := valid_is_ip (lo_B ok).
have inj : injective_op (lMlAMr l).
  by move=> v e; apply/eqP; apply: contraT => /pd; rewrite e (ipr0 hip) ltxx.
have tot y : exists u, gmres_cycle (@frob C) l (Opts 0 1 false) Mgs None y = Ok u.
  exact: (cycle_total ok _ (I : ortho_ok l Mgs) nz None y inj (@frob_bounds C)).
have ne y u : gmres_cycle (@frob C) l (Opts 0 1 false) Mgs None y = Ok u -> i_res u <> [::].
  by move=> /(cycle_facts ok (I : ortho_ok l Mgs) nz)[].
have [s hs] : exists s, restarted_gmres (@frob C) inf l (Opts 0 1 false) Mgs 1 None = RReturns s \/
   restarted_gmres (@frob C) inf l (Opts 0 1 false) Mgs 1 None = RNoConvergence s.
  case E: restarted_gmres => [s|s|e]; [by exists s; left|by exists s; right|exfalso].
  have [ef|[y ey]] := Properties.Solver.C27_raises E.
    rewrite ef in E; have [y ey] := Properties.Solver.C27_terminates ne E.
    by have [u] := tot y; rewrite ey.
  by have [u] := tot y; rewrite ey.
exists s; split=> //; have [_ -> _] := C79_errnorms ok (I : ortho_ok l Mgs) nz (erefl (Some (e0 C))) hs.
rewrite /= subr0 /ipnorm /ip1 /= tconjE mxE big_ord_recl big_ord1 !ctrE !mxE /= conjC0 conjC1.
by rewrite mulr0 mulr1 addr0 sqrtC1.
Qed.
End Example.

Print Assumptions C27_errnorms.
Print Assumptions C27_no_errnorms.
Print Assumptions C79_errnorms.
Print Assumptions C79_errnorms_monotone.
Print Assumptions C79_errnorms_run.
