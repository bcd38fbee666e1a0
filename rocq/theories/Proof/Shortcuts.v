(** Proofs about the shortcuts for vector_factory. *)
From Coq Require Import String.
From mathcomp Require Import all_ssreflect all_algebra.
From Verif Require Import Base Spec.LinAlg Proof.Algebra Model.Ritz Spec.Ritz Model.Inner Spec.Inner Proof.Inner Proof.IpTheory.
From Verif Require Import Model.Arnoldi Model.Solver Model.LinearSystem Model.Krylov Spec.Krylov.
From Verif Require Import Model.Projection Spec.Projection Model.Deflation Spec.Deflation Proof.Deflation Model.DeflRitz Model.Recycling Spec.Recycling Proof.Recycling.
From Verif Require Import Model.RecyclingRun Spec.RecyclingRun Proof.RecyclingRun Model.Bounds Proof.Bounds Spec.DeflRitz Model.Shortcuts Spec.Shortcuts.
From Verif Require Properties.Recycling Properties.Bounds.

Set Implicit Arguments.
Unset Strict Implicit.
Unset Printing Implicit Defensive.
Import Order.TTheory GRing.Theory Num.Theory.
Local Open Scope ring_scope.

Section Proof.
Variable C : numClosedFieldType.
Variable N : nat.
Local Notation vec := 'cV[C]_N.
Variables eig eigh : forall n, 'M[C]_n -> ('I_n -> C) * 'M[C]_n.
Variables geig geigh : forall n, 'M[C]_n -> 'M[C]_n -> ('I_n -> C) * 'M[C]_n.
Hypothesis heh : forall n (X : 'M[C]_n), X^h = X -> eigh_ok X (eigh X).
Variable R : realDomainType.
Variable flt : C -> R.
Variable argsort : seq C -> seq nat.
Hypothesis argsortP : argsort_spec argsort.
Variable order : forall n, {set 'I_n} -> seq 'I_n.
Hypothesis orderP : forall n (S : {set 'I_n}), perm_eq (order S) (enum S).
Local Notation select := (auto_select flt argsort order).
Local Notation fact := (auto_factory eig eigh geig geigh flt argsort order).

Lemma auto_total (ev : evaluator C N R) s z : tame ev -> (forall i, exists2 t, dz_values z i = Some t & 0 < t) ->
  exists q, select ev (s := s) z = Ok q.
Proof.
move=> hev hz; rewrite /auto_select /best_select.
case E: (best_subset _ _ _ _ _) => [[S h]|e]; first by eexists.
exfalso; case: (exn_eqb e OutOfFuel) / idP => he; last first.
  have ne : e <> OutOfFuel by move=> h; rewrite h in he.
  by case: (Properties.Recycling.C45_errors E ne) => [[[h [S hS]]]|[]] //; rewrite (hev _ _ _ _ _ hz hS).
have ee : e = OutOfFuel by case: (e) he.
rewrite ee in E; case: (@Properties.Recycling.C45_terminates _ _ _ _ _ _ _ _ _ _ E) => //; last first.
  by move=> h S hS; have := hev _ _ _ _ _ hz hS.
move=> S t; have [h1 h2] := Properties.Recycling.C46_small argsortP (@orderP _) (fun i => odflt 0 (dz_values z i)) None S.
case: (boolP ((#|S| <= 1)%N || reached None (ds_n s + ds_m s - #|S|))) => [/h1->|/h2[i [hi _] ->]] //.
by rewrite inE => /eqP->; rewrite sub1set hi -card_gt0 cards1.
Qed.

Variable l : lsys C N.
Hypothesis hl : lsys_ok l.
Variables (Minv : option (vec -> vec)) (same : bool) (Bm : ipB C N).
Local Notation A := (lMlAMr l).
Hypothesis sa : self_adjoint (ip1 (lB l)) A.
Hypothesis vBm : valid_ip Bm.
Local Notation good U := (inner Bm (colmx U) (colmx U) = 1%:M /\ inner (lB l) (colmx U) (imcols A (colmx U)) \in unitmx).

Lemma auto_select_ok ev : pos_def (ip1 (lB l)) A -> select_ok l (auto_select (N := N) flt argsort order ev).
Proof.
move=> pd s z q _; rewrite /auto_select /best_select => E; have [[S h] _ [<-]] := bind_ok E; split; last by left.
  by rewrite map_inj_uniq ?(perm_uniq (orderP _)) ?enum_uniq //; exact: val_inj.
by apply/allP => i /mapP[j _ ->] /=.
Qed.

Lemma ritz_value s z i : recyc l Bm s ->
  mk_dritz eig eigh geig geigh (ds_l s) (ds_sa s) (ds_ob s) (ds_b s) DmRitz = Ok z ->
  exists2 t, dz_values z i = Some t & exists2 u, ip1 Bm u u = 1 & t = ip1 (lB l) u (A u).
Proof.
case: s z i => l' sa' m ob n_ n b xk rs iv z i [/= -> [b' [e' ->]] [hn [W [hr hA]]]] Ez.
have nm : (0 < n + m)%N by case: i => j /= hj; exact: leq_ltn_trans hj.
have [z' Ez' [k1 [k2 k3]]] := @ritz_vectors_ok C N eig eigh geig geigh heh (with_rhs l b' e') m ob n_ n b hn Bm W hr sa nm.
move: Ez'; rewrite Ez => -[ez]; rewrite -ez in k1 k2.
have [t et [u1 u2 u3]] := k1 i; exists t => //; exists (dvec ob b z i); first by rewrite k2 eqxx.
have := u3 _ u1; rewrite (ipBr (valid_is_ip (dr_Bm hr))) (ipZr (valid_is_ip (dr_Bm hr))) k2 eqxx mulr1 (dr_adj hr) => /eqP.
by rewrite subr_eq0 => /eqP<-.
Qed.

Lemma ritz_positive s z : pos_def (ip1 (lB l)) A -> recyc l Bm s ->
  mk_dritz eig eigh geig geigh (ds_l s) (ds_sa s) (ds_ob s) (ds_b s) DmRitz = Ok z ->
  forall i, exists2 t, dz_values z i = Some t & 0 < t.
Proof.
move=> pd hs Ez i; have [t et [u hu eu]] := ritz_value i hs Ez; exists t; first by rewrite et.
rewrite eu; apply: pd; apply/eqP => u0; move/eqP: hu; rewrite u0 (ipr0 (valid_is_ip vBm)) eq_sym oner_eq0 //.
Qed.

Hypothesis pd : pos_def (ip1 (lB l)) A.
(** A shortcut fails if and only if there are no Ritz pairs. *)
Lemma auto_step ev s : tame ev -> recyc l Bm s ->
  (ds_n s = 0 /\ ds_m s = 0)%N /\ fact ev s = Err IndexError \/
  ~ (ds_n s = 0 /\ ds_m s = 0)%N /\ exists2 vs, fact ev s = Ok vs & good vs.
Proof.
move=> hev hs.
case: (factory_step eig geig geigh heh sa hs (auto_select_ok (ev := ev) pd)) => [[vs e gv]|[x e hx]].
  right; split; last by exists vs.
  move=> [n0 m0]; move: e; rewrite /ritz_factory => E; have [z _ {}E] := bind_ok E; have [q _ {}E] := bind_ok E.
  by move: E; rewrite ifT // addn_eq0 n0 m0.
left; case: hx => [[h ex]|[z Ez es]]; last by have [q] := auto_total hev (ritz_positive pd hs Ez); rewrite es.
by rewrite /auto_factory e ex; split=> //; move/eqP: h; rewrite addn_eq0 => /andP[/eqP-> /eqP->].
Qed.

(** BoundCG of a list raises AssumptionErrors only. *)
Lemma bound_cg_err (v : seq C) e : bound_cg (EList v) false = Err e -> e = AssumptionError.
Proof.
rewrite /bound_cg /=; case: ifP => [_ [<-] //|nv]; case: ifP => [_ [<-] //|_].
case: ifP => [_ [<-] //|/negbT/negPn]; set L := map _ _ => ha.
have : L != [::] by rewrite -size_eq0 size_map size_sort nv.
case: L ha => [//|[x|] L] //= /andP[hx ha] _; rewrite (lt_trans _ hx) ?(lt_trans _ (eps_gt0 C)) ?oppr_lt0 ?eps_gt0 //=.
by rewrite hx.
Qed.

Variable time_cg : dsolver C N -> C -> nat -> R.
Variable time_minres : dsolver C N -> bound C -> nat -> R.
Local Notation ev_cg := (ev_cg order time_cg).
Local Notation ev_minres := (ev_minres order time_minres).

Lemma cg_tame : tame ev_cg.
Proof. by move=> s z h S e _; rewrite /ev_cg /apriori; case E: (bound_cg _ _) => [b|x] //= [<-]; exact: bound_cg_err E. Qed.

Lemma minres_tame : tame ev_minres.
Proof.
move=> s z h S e hz; rewrite /ev_minres /apriori /bound_minres /= ifT; last first.
  apply/allP => x /mapP[i _ ->]; have [t -> t0] := hz i.
  by rewrite /gt_lex /= (Creal_ReP _ (gtr0_real t0)) (lt_trans _ t0) // oppr_lt0 eps_gt0.
by case E: (bound_cg _ _) => [b|x] //= [<-]; exact: bound_cg_err E.
Qed.

(** RitzAprioriMinres fails for negative definite systems. *)
Lemma minres_negative s : recyc l Bm s -> (0 < ds_n s + ds_m s)%N ->
  (forall u, ip1 Bm u u = 1 -> ip1 (lB l) u (A u) <= - eps15 C) -> fact ev_minres s = Err ValueError.
Proof.
move=> hs nm hneg.
have [z Ez] : exists z, mk_dritz eig eigh geig geigh (ds_l s) (ds_sa s) (ds_ob s) (ds_b s) DmRitz = Ok z.
  case: s hs nm => l' sa' m ob n_ n b xk rs iv [/= -> [b' [e' ->]] [hn [W [hr hA]]]] nm.
  have [z Ez _] := @ritz_vectors_ok C N eig eigh geig geigh heh (with_rhs l b' e') m ob n_ n b hn Bm W hr sa nm.
  by exists z.
rewrite /auto_factory /ritz_factory Ez /= /auto_select /best_select /best_subset /eval1 /=.
rewrite {1}/ev_minres /apriori Properties.Bounds.C39_negative_refuted //.
  rewrite -size_eq0 size_map (perm_size (orderP _)) -cardE setC0 cardsT card_ord; by case: (_ + _)%N nm.
by apply/allP => x /mapP[i _ ->]; have [t -> [u hu ->]] := ritz_value i hs Ez; exact: hneg.
Qed.

Variable ev_krylov : evaluator C N R.
Hypothesis h1 : tame ev_krylov.
Local Notation repl := (replace eig eigh geig geigh flt argsort order ev_krylov time_cg time_minres).

Lemma repl_string w :
  (valid w /\ exists2 ev, repl (VString C N w) = VFactory (fact ev) & tame ev) \/
  (~ valid w /\ repl (VString C N w) = VString C N w).
Proof.
rewrite /replace.
case: String.eqb_spec => [->|n1]; first by left; split; [left|exists ev_krylov].
case: String.eqb_spec => [->|n2]; first by left; split; [right; left|exists ev_cg; [|exact: cg_tame]].
case: String.eqb_spec => [->|n3]; first by left; split; [right; right; left|exists ev_minres; [|exact: minres_tame]].
by right; split=> // -[/esym|[/esym|[/esym|[]]]].
Qed.

Variable new : rsys C N -> seq vec -> rargs C N -> res (dsolver C N).
Hypothesis new_ok : forall y U a, call_ok l Minv same Bm y a -> good U ->
  exists2 s, new y U a = Ok s & solved (rs_l y) (o_tol (ra_o a)) s /\ recyc l Bm s.
Variable default : vfactory C N.
Hypothesis hdef : none_or_string default.
Local Notation step := (ssolve eig eigh geig geigh flt argsort order ev_krylov time_cg time_minres new default).
Local Notation steps := (ssolves eig eigh geig geigh flt argsort order ev_krylov time_cg time_minres new default).
Local Notation lastok last := (if last is Some s then recyc l Bm s else True).
Local Notation string_calls := (string_calls l Minv same Bm).

Lemma sstep_ok last c : lastok last -> call_ok l Minv same Bm (sc_sys c) (sc_args c) -> none_or_string (sc_fac c) ->
  lastok (step last c).2 /\ string_outcome default last c (step last c).1.
Proof.
move=> hlast hc hf; rewrite /ssolve /=.
set v := (if sc_fac c is VNone then default else sc_fac c).
have done U : good U -> exists2 s, new (sc_sys c) U (sc_args c) = Ok s &
    solved (rs_l (sc_sys c)) (o_tol (ra_o (sc_args c))) s /\ recyc l Bm s by exact: new_ok.
have hv : (v = VNone C N /\ forall w, ~ in_force default c w) \/
    exists w, v = VString C N w /\ forall w', in_force default c w' <-> w' = w.
  rewrite /v /in_force; case: hf => [->|[w ->]]; last first.
    right; exists w; split=> // w'; split=> [[[->]|[]]|->] //; by left.
  case: hdef => [->|[w ->]]; first by left; split=> // w [|[]].
  right; exists w; split=> // w'; split=> [[|[_ [->]]]|->] //; by right.
case: last hlast => [s|] hlast; last first.
  have [s -> [k1 k2]] := done _ (good_nil _ _); split=> //=; apply: Or33; split; last by exists s.
    by case.
  by case=> -[].
case: hv => [[-> hw]|[w [-> hw]]].
  have [s' -> [k1 k2]] := done _ (good_nil _ _); split=> //=; apply: Or33; split; last by exists s'.
    by case=> _ [w /hw].
  by case=> _ [w /hw].
case: (repl_string w) => [[vw [ev -> hev]]|[vw ->]]; last first.
  by split=> //; apply: Or31; split=> //; split=> //; exists w => //; exact/hw.
case: (auto_step hev hlast) => [[hn ->]|[hn [vs -> gv]]] /=.
  split=> //; apply: Or32; split=> //; split; first by exists s.
  by exists w => //; exact/hw.
have [s' -> [k1 k2]] := done _ gv; split=> //=; apply: Or33; split; last by exists s'.
  by case=> _ [w' /hw->].
by case=> -[s0 [<-]].
Qed.

Lemma ssteps_cons last c cs :
  steps last (c :: cs) = ((step last c).1 :: (steps (step last c).2 cs).1, (steps (step last c).2 cs).2).
Proof. by rewrite /=; case: (steps _ cs). Qed.

Lemma ssteps_cat last pre c post :
  nth None (map Some (steps last (pre ++ c :: post)).1) (size pre) = Some (step (steps last pre).2 c).1.
Proof.
elim: pre last => [|d pre IH] last; first by rewrite ssteps_cons.
by rewrite cat_cons !ssteps_cons; exact: IH.
Qed.

Lemma ssteps_ok last cs : lastok last -> string_calls cs -> lastok (steps last cs).2.
Proof.
elim: cs last => [|c cs IH] last h hc //; have [k1 k2] := hc 0%N c erefl.
have [k3 _] := sstep_ok h k1 k2; rewrite ssteps_cons.
exact: (IH _ k3 (fun i => hc i.+1)).
Qed.

Lemma ssequence pre c post : string_calls (pre ++ c :: post) ->
  exists2 o, nth None (map Some (steps None (pre ++ c :: post)).1) (size pre) = Some o &
  string_outcome default (steps None pre).2 c o.
Proof.
move=> hc; rewrite ssteps_cat; eexists; first reflexivity.
have k1 : string_calls pre.
  move=> i d h; apply: (hc i); rewrite map_cat nth_cat size_map; case: ifP => // /negbT; rewrite -leqNgt => hi.
  by rewrite nth_default ?size_map in h.
have [k2 k3] : call_ok l Minv same Bm (sc_sys c) (sc_args c) /\ none_or_string (sc_fac c).
  by apply: (hc (size pre)); rewrite map_cat nth_cat size_map ltnn subnn.
by have [_ h] := sstep_ok (ssteps_ok (last := None) I k1) k2 k3.
Qed.

(** last_solver after a call that returns *)
Lemma ssteps_rcons last cs c : (steps last (rcons cs c)).2 = (step (steps last cs).2 c).2.
Proof. by elim: cs last => [|d cs IH] last; rewrite ?rcons_cons !ssteps_cons //=; exact: IH. Qed.
End Proof.
