(** C83: RitzAprioriMinres when the Ritz value of largest magnitude is negative. *)
From Coq Require Import String.
From mathcomp Require Import all_ssreflect all_algebra.
From Verif Require Import Base Spec.LinAlg Model.Inner Model.Arnoldi Model.Solver Model.LinearSystem Model.Krylov Model.Projection.
From Verif Require Import Model.Deflation Model.DeflRitz Model.Recycling Spec.Recycling Proof.Recycling Model.RecyclingRun.
From Verif Require Import Model.Bounds Proof.Bounds Model.Shortcuts Proof.Shortcuts Proof.Indefinite.

Set Implicit Arguments.
Unset Strict Implicit.
Unset Printing Implicit Defensive.
Import Order.TTheory GRing.Theory Num.Theory.
Local Open Scope ring_scope.

(** [negative_dominant values]: one value is at most -1e-15 and larger in magnitude than all
    the others, whatever their signs. *)
Definition negative_dominant (C : numClosedFieldType) k (values : 'I_k -> C) : Prop :=
  exists2 m, values m <= - (10%:R ^+ 15)^-1 & forall j, j != m -> `|values j| < `|values m|.

(** [positive_dominant values]: one positive value is larger in magnitude than all the others,
    and no value is small but not negligible: every one is greater than -1e-15 or less than
    -1e-15 times the dominant one. *)
Definition positive_dominant (C : numClosedFieldType) k (values : 'I_k -> C) : Prop :=
  exists2 m, 0 < values m & (forall j, j != m -> `|values j| < `|values m|) /\
    forall i, values i \is Num.real /\ (- (10%:R ^+ 15)^-1 < values i \/ values i < - (10%:R ^+ 15)^-1 * values m).

Section Properties.
Variable C : numClosedFieldType.
Variable N : nat.
Variables eig eigh : forall n, 'M[C]_n -> ('I_n -> C) * 'M[C]_n.
Variables geig geigh : forall n, 'M[C]_n -> 'M[C]_n -> ('I_n -> C) * 'M[C]_n.
Variable R : realDomainType.
Variable flt : C -> R.
Variable argsort : seq C -> seq nat.
Hypothesis argsortP : argsort_spec argsort.
Variable order : forall n, {set 'I_n} -> seq 'I_n.
Hypothesis orderP : forall n (S : {set 'I_n}), perm_eq (order S) (enum S).
Variable time_minres : dsolver C N -> bound C -> nat -> R.
Local Notation minres := (ev_minres order time_minres).

(** The search for the best subset ends in a ValueError: it always reaches the set of all
    vectors but the dominant one, for which BoundMinres fails. *)
Theorem C83_select (s : dsolver C N) (z : dritz C (ds_n s + ds_m s)) :
  negative_dominant (fun i => odflt 0 (dz_values z i)) -> auto_select flt argsort order minres z = Err ValueError.
Proof.
case=> m neg dom; rewrite /auto_select /best_select.
have e : (fun i => odflt 0 (dz_values z i)) m <= - eps15 C by [].
have := best_dominant argsortP (@orderP _) (fun i => flt (odflt 0 (dz_resnorms z i))) (time_minres s) e dom.
by rewrite /minres_eval /ev_minres /apriori => ->.
Qed.

(** With a positive dominant value the search succeeds, for indefinite systems as well. *)
Theorem C83_positive (s : dsolver C N) (z : dritz C (ds_n s + ds_m s)) :
  positive_dominant (fun i => odflt 0 (dz_values z i)) -> exists q, auto_select flt argsort order minres z = Ok q.
Proof.
case=> m pos [dom h]; rewrite /auto_select /best_select.
have := best_positive argsortP (@orderP _) (fun i => flt (odflt 0 (dz_resnorms z i))) (time_minres s) pos (fun i => (h i).1) dom (fun i => (h i).2).
by rewrite /minres_eval /ev_minres /apriori => -[[S hs] ->]; eexists.
Qed.

(** solve() then raises ValueError, if the dominant value is negative, for every
    system and whatever the deflated solver, and last_solver is unchanged: all later calls with this string fail as well. *)
Theorem C83_solve (ev_krylov : evaluator C N R) (time_cg : dsolver C N -> C -> nat -> R)
    (deflated : rsys C N -> seq 'cV[C]_N -> rargs C N -> res (dsolver C N)) (default : vfactory C N)
    (s : dsolver C N) (z : dritz C (ds_n s + ds_m s)) (cs : seq (scall C N)) :
  mk_dritz eig eigh geig geigh (ds_l s) (ds_sa s) (ds_ob s) (ds_b s) DmRitz = Ok z ->
  negative_dominant (fun i => odflt 0 (dz_values z i)) ->
  (forall i c, nth None (map Some cs) i = Some c -> sc_fac c = VString C N "RitzAprioriMinres" \/
     (sc_fac c = VNone C N /\ default = VString C N "RitzAprioriMinres")) ->
  ssolves eig eigh geig geigh flt argsort order ev_krylov time_cg time_minres deflated default (Some s) cs
  = (nseq (size cs) (SRaises C N ValueError), Some s).
Proof.
move=> Ez nd; elim: cs => [|c cs IH] hc //.
have step : ssolve eig eigh geig geigh flt argsort order ev_krylov time_cg time_minres deflated default (Some s) c
    = (SRaises C N ValueError, Some s).
  have -> : ssolve eig eigh geig geigh flt argsort order ev_krylov time_cg time_minres deflated default (Some s) c
    = ssolve eig eigh geig geigh flt argsort order ev_krylov time_cg time_minres deflated default (Some s)
        (SCall (sc_sys c) (VString C N "RitzAprioriMinres") (sc_args c)).
    by have := hc 0%N c erefl; clear; case: c => y f a /= [->|[-> ->]].
  by rewrite /ssolve /= /auto_factory /ritz_factory Ez /= C83_select.
by rewrite ssteps_cons step (IH (fun i => hc i.+1)).
Qed.
End Properties.

(** The Ritz values -2 and 1 of a solver after two iterations without deflation *)
Section Example.
Variable C : numClosedFieldType.
Definition ind_lsys : lsys C 2 := LSys id 0 None id id IpNone None.
Definition ind_values (i : 'I_2) : C := if i == ord0 then - 2%:R else 1.

Lemma ind_dominant : negative_dominant ind_values.
Proof.
exists ord0.
  by rewrite /ind_values eqxx ler_opp2; apply: le_trans (ltW (eps_lt1 C)) _; rewrite ler1n.
move=> j jn; rewrite /ind_values eqxx (negPf jn) normrN normr1 normr_nat.
by rewrite ltr1n.
Qed.

Lemma ind_positive : positive_dominant (fun i => - ind_values i).
Proof.
have e : (10%:R ^+ 15)^-1 < 1 :> C := eps_lt1 C.
exists ord0; first by rewrite /ind_values eqxx opprK ltr0n.
split=> [j jn|i]; first by rewrite /ind_values eqxx (negPf jn) !normrN normr1 normr_nat ltr1n.
rewrite /ind_values eqxx opprK; case: ifP => _; split; rewrite ?opprK ?realn ?rpredN ?rpred1 //.
  by left; apply: lt_trans (ltr0n _ 2); rewrite oppr_lt0 invr_gt0 exprn_gt0 ?ltr0n.
right; rewrite mulNr ltr_opp2 mulrC ltr_pdivr_mulr ?mul1r; last by rewrite exprn_gt0 ?ltr0n.
by rewrite -natrX ltr_nat.
Qed.

(** The Ritz values -2 and 1, and 2 and -1 *)
Example C83_example (o : obl C 2 0) (time : bound C -> nat -> int) :
  let s := DSolver ind_lsys true o (Byprod (n_ := 2) (n := 2) 0 0 0 0) None [::] false in
  let select v := auto_select (s := s) (fun=> 0 : int_realDomainType) (some_argsort (C := C)) (fun n S => enum S)
    (ev_minres (fun n S => enum S) (fun _ => time)) (DRitz (k := 2) (fun i => Some (v i)) 0 (fun=> None)) in
  select ind_values = Err ValueError /\ exists q, select (fun i => - ind_values i) = Ok q.
Proof.
split.
  by apply: C83_select; [exact: some_argsortP|move=> *; exact: perm_refl|exact: ind_dominant].
by apply: C83_positive; [exact: some_argsortP|move=> *; exact: perm_refl|exact: ind_positive].
Qed.
End Example.

Print Assumptions C83_select.
Print Assumptions C83_positive.
Print Assumptions C83_solve.
Print Assumptions C83_example.
