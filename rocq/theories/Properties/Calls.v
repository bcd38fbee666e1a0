(** C49: the numbers of calls of A, M, Ml, Mr and ip_B, and what operations says. *)
From mathcomp Require Import all_ssreflect all_algebra zify.
From Verif Require Import Base Spec.LinAlg Model.Inner Spec.Inner Proof.Inner Proof.IpTheory.
From Verif Require Import Model.Arnoldi Spec.Arnoldi Proof.ArnoldiAll Proof.ArnoldiExample.
From Verif Require Import Model.Solver Spec.Solver Model.LinearSystem Model.Krylov Spec.Krylov.
From Verif Require Import Proof.Projected Proof.SolverInv Proof.Gmres Proof.Minres Proof.CgTheory Proof.Cg Proof.LinearSystem.
From Verif Require Import Model.Calls Spec.Calls Proof.Calls.
From Verif Require Properties.Solver Properties.Gmres Properties.Minres Properties.Cg.

Set Implicit Arguments.
Unset Strict Implicit.
Unset Printing Implicit Defensive.
Import Order.TTheory GRing.Theory Num.Theory.
Local Open Scope ring_scope.

Local Arguments norm : simpl never.

(** Reading guide.  [gmres_prog snorm l o ortho x0]: LinearSystem(...) followed by
    Gmres(...) as a program that can use the operators of l only by calling them;
    [exec l p]: the calls made by p, in their order, and its result; [calls l k p]: the
    number of calls of kind k; [gmres_operations n k]: the entry k of operations(n).
    [setup_calls], [loop_calls], ...: Spec/Calls.v. *)
Section Properties.
Variable C : numClosedFieldType.
Variable N : nat.
Local Notation vec := 'cV[C]_N.
Variable snorm : nat -> nat -> (nat -> nat -> C) -> C.
Implicit Types (l : lsys C N) (o : opts C).

Definition outcome_of T (r : res (outcome C vec T)) : outcome C vec T :=
  match r with Ok out => out | Err e => Raises _ _ _ e end.

(** The programs compute what the models of the solvers compute. *)
Theorem C49_gmres_program l o ortho x0 :
  outcome_of (exec l (gmres_prog snorm l o ortho x0)).2 = gmres_solve snorm l o ortho x0.
Proof. exact: gmres_val. Qed.
Theorem C49_minres_program l o ortho x0 :
  outcome_of (exec l (minres_prog snorm l o ortho x0)).2 = minres_solve snorm l o ortho x0.
Proof. exact: minres_val. Qed.
Theorem C49_cg_program l o store x0 :
  outcome_of (exec l (cg_prog l o store x0)).2 = cg_solve l o store x0.
Proof. exact: cg_val. Qed.

Section Run.
Variables (l : lsys C N) (o : opts C).
Hypothesis hl : lsys_ok l.
Hypothesis hex : lexact l = None.
Hypothesis nb : lMl l (lb l) <> 0.

Let nb' : rhs_norm l != 0.
Proof. by rewrite rhs_norm_eq0 //; apply/eqP. Qed.

(** The run stopped because the tolerance was met or maxiter was reached. *)
Definition stopped (res : seq C) : bool := (last 0 res <= o_tol o) || (size res == (o_maxiter o).+1).

Let szb T (s : sol C vec T) (it : T -> nat) : size (s_res s) = (it (s_st s)).+1 ->
  fin o it s = stopped (s_res s).
Proof. by rewrite /fin /stopped => ->. Qed.

(** The exact numbers of calls, for every run that returns or raises ConvergenceError. *)
Theorem C49_gmres_calls ortho x0 s n k : ortho_ok l ortho ->
  of_run (gmres_solve snorm l o ortho x0) s -> size (s_res s) = n.+1 ->
  calls l k (gmres_prog snorm l o ortho x0) =
    (setup_calls k x0 + loop_calls k (arnoldi_calls k (lM l) ortho) 0 (o_explicit o) (stopped (s_res s)) n)%N.
Proof.
move=> ho hr hn; have [sz _] := Properties.Gmres.C19_gmres_last_norm hl ho nb hr.
have en : a_iter (gm_a (s_st s)) = n by move: hn; rewrite sz => -[].
by rewrite (gmres_counts hl hex nb' ho k hr) (szb sz) en.
Qed.

Theorem C49_minres_calls ortho x0 s n k : ortho_ok l ortho -> self_adjoint (ip1 (lB l)) (lMlAMr l) ->
  of_run (minres_solve snorm l o ortho x0) s -> size (s_res s) = n.+1 ->
  calls l k (minres_prog snorm l o ortho x0) =
    (setup_calls k x0 + loop_calls k (arnoldi_calls k (lM l) ortho) (same k KMr) (o_explicit o) (stopped (s_res s)) n)%N.
Proof.
move=> ho sa hr hn; have [sz _] := Properties.Minres.C20_minres_last_norm hl ho sa nb hr.
have en : a_iter (mr_a (s_st s)) = n by move: hn; rewrite sz => -[].
by rewrite (minres_counts hl hex nb' ho sa k hr) (szb (it := fun t => a_iter (mr_a t)) sz) en.
Qed.

Theorem C49_cg_calls store x0 s n k :
  self_adjoint (ip1 (lB l)) (lMlAMr l) -> pos_def (ip1 (lB l)) (lMlAMr l) ->
  of_run (cg_solve l o store x0) s -> size (s_res s) = n.+1 ->
  calls l k (cg_prog l o store x0) =
    (setup_calls k x0 + loop_calls k (fun _ => cg_calls k) (same k KMr) (o_explicit o) (stopped (s_res s)) n)%N.
Proof.
move=> sa pd hr hn; have [sz _] := Properties.Cg.C21_cg_last_norm hl sa pd nb hr.
have en : cg_it (s_st s) = n by move: hn; rewrite sz => -[].
have hip : is_ip (ip1 (lB l)) := valid_is_ip (lo_B hl).
have hs : cg_spd (ip1 (lB l)) (lMlAMr l) (resid l (x0_of x0)) by apply: (pos_def_spd _ hip (lMlAMr_lin hl)).
by rewrite (cg_counts hl hex nb' hs k hr) (szb (it := @cg_it C N) sz) en.
Qed.

Section Operations.
Hypothesis hexp : o_explicit o = false.

Let sumS n : (\sum_(0 <= i < n) i.+1 = (n * (n + 1)) %/ 2)%N.
Proof.
suff -> : (n * (n + 1) = (\sum_(0 <= i < n) i.+1) * 2)%N by rewrite mulnK.
elim: n => [|n IH]; first by rewrite big_nil.
rewrite big_nat_recr //= mulnDl -IH; lia.
Qed.

Let sumc n c : (\sum_(0 <= i < n) c = n * c)%N.
Proof. by rewrite sum_nat_const_nat subn0. Qed.

Let sumg n a d e f : (\sum_(0 <= i < n) (a + (i.+1 * d + e + f)) = (n * (n + 1)) %/ 2 * d + n * (a + e + f))%N.
Proof.
rewrite -sumS big_distrl -(sumc n (a + e + f)) -big_split; apply: eq_bigr => i _ /=; lia.
Qed.

(** operations(n) is the number of calls in a run of n >= 1 iterations without initial
    guess that is not stopped by an invariant Krylov subspace: GMRES with mgs, MINRES with
    lanczos (both if M is given) and CG. *)
Theorem C49_gmres_operations s n k : lM l <> None ->
  of_run (gmres_solve snorm l o Mgs None) s -> size (s_res s) = n.+2 -> stopped (s_res s) ->
  calls l k (gmres_prog snorm l o Mgs None) = gmres_operations n.+1 k.
Proof.
move=> hM hr hn hst; rewrite (C49_gmres_calls k (ortho := Mgs) I hr hn) hexp hst.
have {hM}-> : isSome (lM l) by case: (lM l) hM.
rewrite /setup_calls /loop_calls /arnoldi_calls /residual_calls.
rewrite sumg; case: k => /=; lia.
Qed.

Theorem C49_minres_operations s n k : lM l <> None -> self_adjoint (ip1 (lB l)) (lMlAMr l) ->
  of_run (minres_solve snorm l o Lanczos None) s -> size (s_res s) = n.+2 -> stopped (s_res s) ->
  calls l k (minres_prog snorm l o Lanczos None) = minres_operations n.+1 k.
Proof.
move=> hM sa hr hn hst; rewrite (C49_minres_calls k (ortho := Lanczos) sa sa hr hn) hexp hst.
have {hM}-> : isSome (lM l) by case: (lM l) hM.
rewrite /setup_calls /loop_calls /arnoldi_calls /residual_calls.
case: k => /=; rewrite ?sumc //=; lia.
Qed.

(** CG is never stopped otherwise. *)
Theorem C49_cg_operations store s n k : o_tol o \is Num.real ->
  self_adjoint (ip1 (lB l)) (lMlAMr l) -> pos_def (ip1 (lB l)) (lMlAMr l) ->
  of_run (cg_solve l o store None) s -> size (s_res s) = n.+2 ->
  calls l k (cg_prog l o store None) = cg_operations n.+1 k.
Proof.
move=> tr sa pd hr hn; rewrite (C49_cg_calls k sa pd hr hn) hexp.
have -> : stopped (s_res s).
  have [sz [xk ex el]] := Properties.Cg.C21_cg_last_norm hl sa pd nb hr.
  rewrite /stopped real_leNgt //; last first.
    by rewrite el ger0_real // divr_ge0 // sqrtC_ge0; apply: (ip_ge0' (lmip hl)).
  case: (boolP (o_tol o < last 0 (s_res s))) => //= hlt; rewrite sz eqSS.
  have gm := cg_good (kdata_lsys l (rhs_norm l)) store.
  case: hr; rewrite /cg_solve (bnorm_ok hl) /= => E.
    have [_ /(_ hlt)[m0|//]] := Properties.Solver.C23_normal_return gm E.
    have [x [_ [hh _]]] := Properties.Solver.C24_accounting gm E.
    by move: (h_max hh); rewrite m0 leqn0.
  by have [_ /= -> _ _ _] := Properties.Solver.C23_convergence_error gm E.
rewrite /setup_calls /loop_calls /cg_calls /residual_calls.
case: k => /=; rewrite ?sumc //=; lia.
Qed.

(** What operations does not count correctly.  Without iterations there is no explicit
    residual: A is not applied. *)
Theorem C49_no_iteration_refuted s ortho : ortho_ok l ortho ->
  of_run (gmres_solve snorm l o ortho None) s -> size (s_res s) = 1%N ->
  (calls l KA (gmres_prog snorm l o ortho None) = 0 /\ gmres_operations 0 KA = 1)%N.
Proof. by move=> ho hr hn; rewrite (C49_gmres_calls _ ho hr hn). Qed.

(** If the iteration ends because the Krylov subspace is invariant, the explicit residual
    is not computed. *)
Theorem C49_invariant_refuted s n : 
  of_run (gmres_solve snorm l o Mgs None) s -> size (s_res s) = n.+2 -> ~~ stopped (s_res s) ->
  (calls l KA (gmres_prog snorm l o Mgs None)).+1 = gmres_operations n.+1 KA.
Proof.
move=> hr hn /negbTE hst; rewrite (C49_gmres_calls _ (ortho := Mgs) I hr hn) hexp hst.
rewrite /setup_calls /loop_calls /arnoldi_calls /residual_calls sumg /=; lia.
Qed.

(** Gmres.operations(n) counts 2 + n + n (n + 1) / 2 inner products; this holds for mgs only. *)
Theorem C49_ortho_refuted s n ortho : ortho_ok l ortho ->
  of_run (gmres_solve snorm l o ortho None) s -> size (s_res s) = n.+2 -> stopped (s_res s) ->
  let c := calls l KIp (gmres_prog snorm l o ortho None) in
  match ortho with
  | Dmgs => c = (2 + n.+1 + n.+1 * n.+2)%N
  | Lanczos => c = (2 + 2 * n.+1)%N
  | Householder => c = 2%N
  | _ => True
  end.
Proof.
move=> ho hr hn hst c; rewrite {}/c; case: ortho ho hr => // ho hr; rewrite (C49_gmres_calls _ ho hr hn) hexp hst.
- rewrite /setup_calls /loop_calls /arnoldi_calls /residual_calls /=.
  rewrite (eq_bigr (fun i => (i.+1 * 2 + 1))%N) => [|i _]; last by lia.
  rewrite big_split -big_distrl /= sumc sumS.
  have e : (2 %| n.+1 * (n.+1 + 1))%N by rewrite dvdn2 oddM oddD /=; case: (odd n).
  by rewrite divnK //; lia.
- rewrite /setup_calls /loop_calls /arnoldi_calls /residual_calls /= muln0 !sumc; lia.
- by rewrite /setup_calls /loop_calls /arnoldi_calls /residual_calls /= sumc muln0.
Qed.

(** Without M, the Arnoldi algorithm does not apply it: two calls instead of n + 2. *)
Theorem C49_no_M_refuted s n : lM l = None ->
  of_run (gmres_solve snorm l o Mgs None) s -> size (s_res s) = n.+2 -> stopped (s_res s) ->
  (calls l KM (gmres_prog snorm l o Mgs None) = 2 /\ gmres_operations n.+1 KM = n.+3)%N.
Proof.
move=> hM hr hn hst; rewrite (C49_gmres_calls _ (ortho := Mgs) I hr hn) hexp hst hM.
rewrite /setup_calls /loop_calls /arnoldi_calls /residual_calls sumg /=; lia.
Qed.
End Operations.

(** With explicit_residual=True, A is applied twice in each iteration. *)
Theorem C49_explicit_refuted s n : o_explicit o ->
  of_run (gmres_solve snorm l o Mgs None) s -> size (s_res s) = n.+1 ->
  calls l KA (gmres_prog snorm l o Mgs None) = (2 * n)%N.
Proof.
move=> he hr hn; rewrite (C49_gmres_calls _ (ortho := Mgs) I hr hn) he.
rewrite /setup_calls /loop_calls /arnoldi_calls /residual_calls /=; case: eqP => [->//|_].
rewrite (eq_bigr (fun=> 2%N)) => [|i _]; last by lia.
by rewrite sum_nat_const_nat subn0 mulnC.
Qed.
End Run.
End Properties.

(** The hypotheses can be met: runs with maxiter = 1. *)
Section OneStep.
Variable C : numClosedFieldType.
Variable N : nat.
Local Notation vec := 'cV[C]_N.
Variable snorm : nat -> nat -> (nat -> nat -> C) -> C.
Variables (l : lsys C N) (o : opts C) (ortho : ortho_t).
Hypothesis hl : lsys_ok l.
Hypothesis ho : ortho_ok l ortho.
Hypothesis nb : lMl l (lb l) <> 0.

Let nb' : y_bnorm (lsys_sys l (rhs_norm l)) != 0.
Proof. by rewrite /= rhs_norm_eq0 //; apply/eqP. Qed.
Let r0E : resid l 0 = lMl l (lb l).
Proof. by rewrite /resid (lin0 (lo_A hl)) subr0. Qed.
Let first rs z : in_krylov (lMlAMr l) (lMop l) (resid l 0) 0 z ->
  nth 0 rs 0 = resid_norm l (0 + lMr l z) / rhs_norm l -> nth 0 rs 0 = 1 :> C.
Proof.
case=> c ->; rewrite big_ord0 (lin0 (lo_Mr hl)) addr0 /resid_norm r0E -/(rhs_norm l).
by rewrite divff // -[rhs_norm l]/(y_bnorm (lsys_sys l (rhs_norm l))).
Qed.

Let gm := gmres_good (kdata_lsys l (rhs_norm l)) (o_maxiter o) snorm ortho.
Let eR : gmres_solve snorm l o ortho None =
  krun (lsys_sys l (rhs_norm l)) o (gmres snorm (kdata_lsys l (rhs_norm l)) (o_maxiter o) ortho) None.
Proof. by rewrite /gmres_solve (bnorm_ok hl). Qed.

Lemma gmres_first s : of_run (gmres_solve snorm l o ortho None) s -> nth 0 (s_res s) 0 = 1.
Proof.
move=> hs; have [sz _] := Properties.Gmres.C19_gmres_last_norm hl ho nb hs.
have [|z [k1 k2 _]] := Properties.Gmres.C19_gmres_residual_norms hl ho nb hs (i := 0); first by rewrite sz.
exact: first k1 k2.
Qed.

Lemma gmres_positive s : (0 < o_maxiter o)%N -> o_tol o < 1 ->
  of_run (gmres_solve snorm l o ortho None) s -> (1 < size (s_res s))%N.
Proof.
move=> m0 t1 hs; have f1 := gmres_first hs.
have hd := lsys_kd hl None; have hc := lsys_cfg hl (o_maxiter o) (rhs_norm l) ho.
case: (hs); rewrite eR => E; last first.
  by have [_ _ -> _ _] := Properties.Solver.C23_convergence_error gm E.
have [sz _] := Properties.Gmres.C19_gmres_last_norm hl ho nb hs.
have [_ h1] := Properties.Solver.C23_normal_return gm E.
rewrite ltnNge; apply/negP => n1; have n0 : a_iter (gm_a (s_st s)) = 0%N.
  by move: n1; rewrite sz ltnS leqn0 => /eqP.
have el : last 0 (s_res s) = 1 by move: f1; rewrite n0 in sz; case: (s_res s) sz => [|a []].
move: h1; rewrite el => /(_ t1)[e|hi]; first by rewrite e in m0.
have hs' := hs; rewrite eR in hs'; have [gi _ _ _] := gmres_run hd hc nb' hs'.
by have := gi_z gi n0; move: hi => /= ->; rewrite r0E => /esym/eqP.
Qed.

Hypothesis hex : lexact l = None.
Hypothesis inj : injective_op (lMlAMr l).
Hypothesis hb : bounds_entries snorm.
Hypothesis m1 : o_maxiter o = 1%N.
Hypothesis t1 : o_tol o < 1.
Let he en (x : vec) : y_errnorm (lsys_sys l (rhs_norm l)) = Some en -> exists e, en x = Ok e.
Proof. by rewrite /= hex. Qed.

Lemma gmres_one : exists2 s, of_run (gmres_solve snorm l o ortho None) s &
  size (s_res s) = 2%N /\ stopped o (s_res s).
Proof.
have hd := lsys_kd hl None; have hc := lsys_cfg hl (o_maxiter o) (rhs_norm l) ho.
have := gmres_no_raise hd hc (fun _ z _ => @inj z) hb nb' he.
rewrite -eR; case E: (gmres_solve _ _ _ _ _) => [s|s|//] _; exists s; try by [left|right]; last first.
  have [_ _ sz _ _] := Properties.Solver.C23_convergence_error gm (etrans (esym eR) E).
  by rewrite /stopped sz m1 orbT.
have hs : of_run (gmres_solve snorm l o ortho None) s by left.
have [x [_ [hh _]]] := Properties.Solver.C24_accounting gm (etrans (esym eR) E).
have := h_max hh; rewrite m1 -ltnS -(h_size hh).
have := gmres_positive _ t1 hs; rewrite m1 => /(_ isT).
by rewrite /stopped m1; case: (size _) => [|[|[|]]] // _ _; rewrite orbT.
Qed.

Lemma minres_one : self_adjoint (ip1 (lB l)) (lMlAMr l) ->
  exists2 s, of_run (minres_solve snorm l o ortho None) s &
  size (s_res s) = 2%N /\ stopped o (s_res s).
Proof.
move=> sa; have hd := lsys_kd hl None; have hc := lsys_cfg hl (o_maxiter o) (rhs_norm l) ho.
have := minres_no_raise hd hc sa (fun _ z _ => @inj z) hb nb' he.
have gm0 := minres_good (kdata_lsys l (rhs_norm l)) (o_maxiter o) snorm ortho.
have eR0 : minres_solve snorm l o ortho None =
  krun (lsys_sys l (rhs_norm l)) o (minres snorm (kdata_lsys l (rhs_norm l)) (o_maxiter o) ortho) None.
  by rewrite /minres_solve (bnorm_ok hl).
rewrite -eR0; case E: (minres_solve _ _ _ _ _) => [s|s|//] _; exists s; try by [left|right]; last first.
  have [_ _ sz _ _] := Properties.Solver.C23_convergence_error gm0 (etrans (esym eR0) E).
  by rewrite /stopped sz m1 orbT.
have hs : of_run (minres_solve snorm l o ortho None) s by left.
have [sz _] := Properties.Minres.C20_minres_last_norm hl ho sa nb hs.
have [x [_ [hh _]]] := Properties.Solver.C24_accounting gm0 (etrans (esym eR0) E).
have [_ h1] := Properties.Solver.C23_normal_return gm0 (etrans (esym eR0) E).
have nle : (a_iter (mr_a (s_st s)) <= 1)%N by have := h_max hh; rewrite m1.
suff n0 : a_iter (mr_a (s_st s)) <> 0%N.
  have n1 : a_iter (mr_a (s_st s)) = 1%N by case: (a_iter _) nle n0 => [|[|]].
  by rewrite /stopped sz n1 m1 orbT.
move=> n0; rewrite n0 in sz.
have [|z [k1 k2 _]] := Properties.Minres.C20_minres_residual_norms hl ho sa nb hs (i := 0); first by rewrite sz.
have f1 := first k1 k2; case: (s_res s) sz f1 h1 => [//|a [|//]] _ /= -> /(_ t1)[|hi]; first by rewrite m1.
have hs' := hs; rewrite eR0 in hs'; have [[G [R [Y [z' gi]]]] _ _ _] := minres_run hd hc sa nb' hs'.
by have := ma_z (mi_a gi) n0; rewrite hi r0E => /esym/eqP.
Qed.
End OneStep.

(** The systems of Properties/Gmres.v and Properties/Cg.v *)
Section Example.
Variable C : numClosedFieldType.
Local Notation half := (2%:R^-1 : C).
Import Properties.Gmres Properties.Minres Properties.Cg.

Let half0 : 0 <= half. Proof. by rewrite invr_ge0 ler0n. Qed.
Let half1 : half < 1.
Proof. by rewrite invf_lt1 ?ltr0n // ltr1n. Qed.

Example C49_gmres_run o (h e : bool) : o <> OrthoOther -> (o = Householder -> h) ->
  exists2 s, of_run (gmres_solve (@frob C) (ex_lsys C h) (Opts half 1 e) o None) s &
    size (s_res s) = 2%N /\ stopped (Opts half 1 e) (s_res s).
Proof.
move=> h1 h2; apply: gmres_one => //.
- exact: ex_ok.
- exact: ex_ortho.
- exact: ex_nz.
- exact: ex_inj.
- exact: frob_bounds.
Qed.

(** Two products with A, three with M and Ml, four inner products. *)
Example C49_gmres_run_calls :
  [seq calls (ex_lsys C false) k (gmres_prog (@frob C) (ex_lsys C false) (Opts half 1 false) Mgs None)
     | k <- [:: KA; KM; KMl; KMr; KIp]] = [:: 2; 3; 3; 2; 4]%N.
Proof.
have [//|//|s hr [sz hst]] := @C49_gmres_run Mgs false false.
have h k := C49_gmres_operations (o := Opts half 1 false) (ex_ok C false) erefl (@ex_nz C false) erefl k (fun e => ltac:(discriminate e)) hr sz hst.
by rewrite /= !h.
Qed.

Example C49_minres_run_calls :
  [seq calls (ex_lsys C false) k (minres_prog (@frob C) (ex_lsys C false) (Opts half 1 false) Lanczos None)
     | k <- [:: KA; KM; KMl; KMr; KIp]] = [:: 2; 3; 3; 2; 4]%N.
Proof.
have sa := @ex_sa C false.
have [s hr [sz hst]] := @minres_one C 2 (@frob C) (ex_lsys C false) (Opts half 1 false) Lanczos (ex_ok C false)
  sa (@ex_nz C false) erefl (@ex_inj C false) (@frob_bounds C) erefl half1 sa.
have h k := C49_minres_operations (o := Opts half 1 false) (ex_ok C false) erefl (@ex_nz C false) erefl k (fun e => ltac:(discriminate e)) sa hr sz hst.
by rewrite /= !h.
Qed.

(** The runs of C49_ortho_refuted, C49_no_M_refuted and C49_explicit_refuted *)
Example C49_refuted_runs :
  [/\ calls (ex_lsys C false) KIp (gmres_prog (@frob C) (ex_lsys C false) (Opts half 1 false) Dmgs None) = 5%N,
      calls (ex_lsys C true) KIp (gmres_prog (@frob C) (ex_lsys C true) (Opts half 1 false) Householder None) = 2%N,
      calls (ex_lsys C true) KM (gmres_prog (@frob C) (ex_lsys C true) (Opts half 1 false) Mgs None) = 2%N
    & calls (ex_lsys C false) KA (gmres_prog (@frob C) (ex_lsys C false) (Opts half 1 true) Mgs None) = 2%N].
Proof.
split.
- have [//|//|s hr [sz hst]] := @C49_gmres_run Dmgs false false.
  exact: (C49_ortho_refuted (o := Opts half 1 false) (ex_ok C false) erefl (@ex_nz C false) erefl (ortho := Dmgs) I hr sz hst).
- have [//|//|s hr [sz hst]] := @C49_gmres_run Householder true false.
  by apply: (C49_ortho_refuted (o := Opts half 1 false) (ex_ok C true) erefl (@ex_nz C true) erefl (ortho := Householder) _ hr sz hst).
- have [//|//|s hr [sz hst]] := @C49_gmres_run Mgs true false.
  by have [] := C49_no_M_refuted (o := Opts half 1 false) (ex_ok C true) erefl (@ex_nz C true) erefl erefl hr sz hst.
- have [//|//|s hr [sz hst]] := @C49_gmres_run Mgs false true.
  exact: (C49_explicit_refuted (o := Opts half 1 true) (ex_ok C false) erefl (@ex_nz C false) erefl hr sz).
Qed.

(** tol = 1: no iteration. *)
Example C49_no_iteration_run :
  calls (ex_lsys C false) KA (gmres_prog (@frob C) (ex_lsys C false) (Opts 1 2 false) Mgs None) = 0%N.
Proof.
have [||s E _] := @C28_gmres_finite_partial C 2 (@frob C) (ex_lsys C false) (Opts 1 2 false) Mgs
  None (ex_ok C false) I (@ex_inj C false) (@frob_bounds C) (@ex_nz C false) => //=; first exact: ler01.
have hr : of_run (gmres_solve (@frob C) (ex_lsys C false) (Opts 1 2 false) Mgs None) s by left.
suff sz : size (s_res s) = 1%N.
  by have [] := C49_no_iteration_refuted (o := Opts 1 2 false) (ex_ok C false) erefl (@ex_nz C false) (ortho := Mgs) I hr sz.
have f1 := gmres_first (ex_ok C false) (ortho := Mgs) I (@ex_nz C false) hr.
have gm := gmres_good (kdata_lsys (ex_lsys C false) (rhs_norm (ex_lsys C false))) 2 (@frob C) Mgs.
move: E; rewrite /gmres_solve (bnorm_ok (ex_ok C false)) /= => E.
have [x [_ [hh _]]] := Properties.Solver.C24_accounting gm E.
have := h_gt hh (i := 0); rewrite f1 ltxx -ltnS -(h_size hh) => h.
by move: (h_size hh) h; case: (size _) => [|[|n]] // _ /(_ isT).
Qed.

(** The run of C28_premature_stop_refuted *)
Example C49_invariant_run : exists2 n, (n <= 1)%N &
  (calls (cyc_lsys C) KA (gmres_prog (@frob C) (cyc_lsys C) (Opts half 3 false) Mgs None)).+1 = gmres_operations n.+1 KA.
Proof.
have [_ [s E [el sz]]] := @C28_premature_stop_refuted C.
have hr : of_run (gmres_solve (@frob C) (cyc_lsys C) (Opts half 3 false) Mgs None) s by left.
have nb : lMl (cyc_lsys C) (lb (cyc_lsys C)) <> 0.
  by move=> /= /matrixP/(_ 0 0)/eqP; rewrite !mxE /= oner_eq0.
have n0 := gmres_positive (@cyc_ok C) (ortho := Mgs) I nb (o := Opts half 3 false) isT half1 hr.
case e: (size (s_res s)) n0 sz => [|[|[|[|//]]]] // _ _; exists (size (s_res s)).-2; rewrite e //;
  apply: (C49_invariant_refuted (o := Opts half 3 false) (@cyc_ok C) erefl nb erefl hr) => //;
  by rewrite /stopped el /= (lt_geF half1) e.
Qed.

Example C49_cg_run_calls h : exists2 n, (0 < n <= 2)%N &
  forall k, calls (spd_lsys C h) k (cg_prog (spd_lsys C h) (Opts half 2 false) false None) = cg_operations n k.
Proof.
have [s E [h1 [xk ex hx]]] := @C28_cg_converges C 2 (spd_lsys C h) (Opts half 2 false) false
  None (spd_ok C h) (@spd_lsa C h) (@spd_lpd C h) isT (@spd_nz C h) isT half0.
have hr : of_run (cg_solve (spd_lsys C h) (Opts half 2 false) false None) s by left.
have [sz [x' ex' el]] := C21_cg_last_norm (spd_ok C h) (@spd_lsa C h) (@spd_lpd C h) (@spd_nz C h) hr.
have [z [[z0 _] hz _ _ _]] := C21_cg_iterates (spd_ok C h) (@spd_lsa C h) (@spd_lpd C h) (@spd_nz C h) hr.
have bn : 0 < rhs_norm (spd_lsys C h).
  rewrite lt_def rhs_norm_eq0 ?sqrtC_ge0; last exact: spd_ok.
  by rewrite (ip_ge0' (lmip (spd_ok C h))) andbT; apply/eqP/spd_nz.
have n0 : (0 < cg_it (s_st s))%N.
  rewrite lt0n; apply/negP => /eqP n0; rewrite n0 in sz.
  have := hz 0%N (leq0n _); rewrite z0 (lin0 (lo_Mr (spd_ok C h))) addr0.
  rewrite {1}/resid_norm /resid (lin0 (lo_A (spd_ok C h))) subr0 -/(rhs_norm _) divff ?gt_eqF // => f1.
  have e1 : last 0 (s_res s) = 1 by case: (s_res s) sz f1 => [|a []].
  move: hx el; rewrite ex in ex'; case: ex' => <-; rewrite e1 -ler_pdivr_mulr // => hx e2.
  by move: hx; rewrite -e2 /= (lt_geF half1).
exists (cg_it (s_st s)); first by rewrite n0.
move=> k; have [n en] : exists n, cg_it (s_st s) = n.+1 by case: (cg_it _) n0 => // n; exists n.
rewrite en; apply: (C49_cg_operations (o := Opts half 2 false) (spd_ok C h) erefl (@spd_nz C h) erefl) hr _.
- by rewrite ger0_real.
- exact: spd_lsa.
- exact: spd_lpd.
- by rewrite sz en.
Qed.
End Example.

Print Assumptions C49_gmres_program.
Print Assumptions C49_minres_program.
Print Assumptions C49_cg_program.
Print Assumptions C49_gmres_calls.
Print Assumptions C49_minres_calls.
Print Assumptions C49_cg_calls.
Print Assumptions C49_gmres_operations.
Print Assumptions C49_minres_operations.
Print Assumptions C49_cg_operations.
Print Assumptions C49_no_iteration_refuted.
Print Assumptions C49_invariant_refuted.
Print Assumptions C49_ortho_refuted.
Print Assumptions C49_no_M_refuted.
Print Assumptions C49_explicit_refuted.
