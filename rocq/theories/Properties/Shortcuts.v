(** C82: strings as vector_factory. *)
From Coq Require Import String.
From mathcomp Require Import all_ssreflect all_algebra.
From Verif Require Import Base Spec.LinAlg Proof.Algebra Model.Ritz Spec.Ritz Model.Inner Spec.Inner Proof.Inner Proof.IpTheory.
From Verif Require Import Model.Arnoldi Spec.Arnoldi Model.Solver Model.LinearSystem Model.Krylov Spec.Krylov Proof.LinearSystem Proof.Gmres.
From Verif Require Import Model.Projection Spec.Projection Proof.Qr Proof.QrExist Model.Deflation Spec.Deflation Proof.Deflation.
From Verif Require Import Model.DeflRitz Model.Recycling Spec.Recycling Proof.Recycling Model.RecyclingRun Spec.RecyclingRun Proof.RecyclingRun.
From Verif Require Import Model.Bounds Model.Shortcuts Spec.Shortcuts Proof.Shortcuts Properties.Deflation.
From Verif Require Import Proof.ArnoldiExample Proof.ArnoldiAll Properties.Gmres.
From Verif Require Properties.RecyclingRun.

Set Implicit Arguments.
Unset Strict Implicit.
Unset Printing Implicit Defensive.
Import Order.TTheory GRing.Theory Num.Theory.
Local Open Scope ring_scope.

(** Reading guide: Spec/Shortcuts.v ([string_outcome]: what happens in a call of solve()). *)
Section Properties.
Variable C : numClosedFieldType.
Variable sqr : forall n k, 'M[C]_(n, k) -> 'M[C]_(n, k) * 'M[C]_k.
Hypothesis hsqr : qr_spec sqr.
Variable snorm : nat -> nat -> (nat -> nat -> C) -> C.
Hypothesis hsn : bounds_entries snorm.
Variables eig eigh : forall n, 'M[C]_n -> ('I_n -> C) * 'M[C]_n.
Variables geig geigh : forall n, 'M[C]_n -> 'M[C]_n -> ('I_n -> C) * 'M[C]_n.
Hypothesis heh : forall n (X : 'M[C]_n), X^h = X -> eigh_ok X (eigh X).
Variable N : nat.
Local Notation vec := 'cV[C]_N.
(** As for C81 *)
Variable l : lsys C N.
Hypothesis hl : lsys_ok l.
Local Notation A := (lMlAMr l).
Hypothesis sa : self_adjoint (ip1 (lB l)) A.
Hypothesis inj : injective_op A.
Hypothesis hMr : forall x, lMr l x = x.
Variables (Minv : option (vec -> vec)) (same : bool) (Bm : ipB C N).
Hypothesis hsame : same -> forall x, A x = x.
Hypothesis eBm : get_ip_Minv_B l Minv = Ok Bm.
Hypothesis vBm : valid_ip Bm.
Hypothesis hadj : forall x y, ip1 Bm x (lMop l y) = ip1 (lB l) x y.
(** The times are elements of R; the evaluator RitzApproxKrylov is arbitrary. *)
Variable R : realDomainType.
Variable flt : C -> R.
Variable argsort : seq C -> seq nat.
Hypothesis argsortP : argsort_spec argsort.
Variable order : forall n, {set 'I_n} -> seq 'I_n.
Hypothesis orderP : forall n (S : {set 'I_n}), perm_eq (order S) (enum S).
Variable ev_krylov : evaluator C N R.
Variable time_cg : dsolver C N -> C -> nat -> R.
Variable time_minres : dsolver C N -> bound C -> nat -> R.
Local Notation good U := (inner Bm (colmx U) (colmx U) = 1%:M /\ inner (lB l) (colmx U) (imcols A (colmx U)) \in unitmx).
Local Notation minres := (shortcut_minres eig eigh geig geigh flt argsort order ev_krylov time_cg time_minres sqr snorm).
Local Notation gmres := (shortcut_gmres eig eigh geig geigh flt argsort order ev_krylov time_cg time_minres sqr snorm).
Local Notation string_calls := (string_calls l Minv same Bm).

Let minres_fresh y U a : call_ok l Minv same Bm y a -> good U ->
  exists2 s, new_minres sqr snorm y U a = Ok s & [/\ solved (rs_l y) (o_tol (ra_o a)) s, recyc l Bm s & fresh (rs_l y) U a s].
Proof.
case: y => l' Mi sm f [/= [b [e ->]] nb -> -> -> ho hi hor hm ht] [h1 h2].
exact: (new_minres_ok hsqr hsn hl eBm vBm hadj sa inj hMr e nb (orth_args sqr hl eBm vBm hi hsame hor h1 h2) h1 ho hm ht).
Qed.

Let gmres_fresh y U a : call_ok l Minv same Bm y a -> good U ->
  exists2 s, new_gmres sqr snorm y U a = Ok s & [/\ solved (rs_l y) (o_tol (ra_o a)) s, recyc l Bm s & fresh (rs_l y) U a s].
Proof.
case: y => l' Mi sm f [/= [b [e ->]] nb -> -> -> ho hi hor hm ht] [h1 h2].
exact: (new_gmres_ok hsqr hsn hl eBm vBm hadj sa inj hMr e nb (orth_args sqr hl eBm vBm hi hsame hor h1 h2) h1 ho hm ht).
Qed.

Let weaken new (h : forall y U a, call_ok l Minv same Bm y a -> good U ->
     exists2 s, new y U a = Ok s & [/\ solved (rs_l y) (o_tol (ra_o a)) s, recyc l Bm s & fresh (rs_l y) U a s]) y U a :
  call_ok l Minv same Bm y a -> good U -> exists2 s, new y U a = Ok s & solved (rs_l y) (o_tol (ra_o a)) s /\ recyc l Bm s.
Proof. by move=> h1 h2; have [s e [h3 h4 _]] := h _ _ _ h1 h2; exists s. Qed.

(** Positive definite systems: what happens in every call of a sequence *)
Section Sequence.
Hypothesis pd : pos_def (ip1 (lB l)) A.
Hypothesis htame : tame ev_krylov.
Variable default : vfactory C N.
Hypothesis hdef : none_or_string default.

Theorem C82_minres pre c post : string_calls (pre ++ c :: post) ->
  exists2 o, nth None (map Some (minres default (pre ++ c :: post)).1) (size pre) = Some o &
  string_outcome default (minres default pre).2 c o.
Proof. exact: (ssequence eig geig geigh heh flt argsortP orderP sa vBm pd time_cg time_minres htame (weaken minres_fresh) hdef). Qed.

Theorem C82_gmres pre c post : string_calls (pre ++ c :: post) ->
  exists2 o, nth None (map Some (gmres default (pre ++ c :: post)).1) (size pre) = Some o &
  string_outcome default (gmres default pre).2 c o.
Proof. exact: (ssequence eig geig geigh heh flt argsortP orderP sa vBm pd time_cg time_minres htame (weaken gmres_fresh) hdef). Qed.
End Sequence.

Local Notation hit c1 := (o_tol (ra_o (sc_args c1)) * rhs_norm (rs_l (sc_sys c1)) < resid_norm (rs_l (sc_sys c1)) (x0_of (ra_x0 (sc_args c1)))).

Let pairs (y : rsys C N) (a : rargs C N) (s : dsolver C N) : solved (rs_l y) (o_tol (ra_o a)) s -> fresh (rs_l y) [::] a s ->
  o_tol (ra_o a) * rhs_norm (rs_l y) < resid_norm (rs_l y) (x0_of (ra_x0 a)) -> (0 < ds_n s + ds_m s)%N.
Proof.
move=> u1 [_ u4 _ _] h; rewrite lt0n addn_eq0; apply/negP => /andP[/eqP n0 _]; have [xk ex [_ _ hr]] := u1.
have := hr (or_intror n0); move: ex; rewrite (u4 erefl n0) => -[<-].
by move/(lt_le_trans h); rewrite ltxx.
Qed.

(** The first call does not use vector_factory, whatever it is; there are Ritz pairs for the
    next one if the initial guess is not good enough. *)
Theorem C82_first default c1 : call_ok l Minv same Bm (sc_sys c1) (sc_args c1) ->
  forall run, run = minres \/ run = gmres ->
  exists2 s, run default [:: c1] = ([:: SReturns s], Some s) &
    solved (rs_l (sc_sys c1)) (o_tol (ra_o (sc_args c1))) s /\ (hit c1 -> (0 < ds_n s + ds_m s)%N).
Proof.
move=> hc1 run hrun.
have gen new : (forall y U a, call_ok l Minv same Bm y a -> good U ->
     exists2 s, new y U a = Ok s & [/\ solved (rs_l y) (o_tol (ra_o a)) s, recyc l Bm s & fresh (rs_l y) U a s]) ->
    exists2 s, ssolves eig eigh geig geigh flt argsort order ev_krylov time_cg time_minres new default None [:: c1]
       = ([:: SReturns s], Some s) &
    solved (rs_l (sc_sys c1)) (o_tol (ra_o (sc_args c1))) s /\ (hit c1 -> (0 < ds_n s + ds_m s)%N).
  move=> hnew; have [s e [h1 _ h2]] := hnew _ _ _ hc1 (good_nil _ _); exists s.
    by rewrite ssteps_cons /ssolve [out _]/= e.
  by split=> //; exact: pairs.
by case: hrun => ->; exact: gen.
Qed.

(** A string that is not a shortcut is noticed in the second call only: the first system is
    solved, then each call raises an AttributeError and last_solver is kept.  The system need
    not be positive definite. *)
Theorem C82_misspelt w c1 cs : ~ valid w ->
  (forall i c, nth None (map Some (c1 :: cs)) i = Some c -> sc_fac c = VNone C N) ->
  call_ok l Minv same Bm (sc_sys c1) (sc_args c1) ->
  forall run, run = minres \/ run = gmres ->
  exists2 s, run (VString C N w) (c1 :: cs) = (SReturns s :: nseq (size cs) (SAttributeError C N), Some s) &
    solved (rs_l (sc_sys c1)) (o_tol (ra_o (sc_args c1))) s /\ (hit c1 -> (0 < ds_n s + ds_m s)%N).
Proof.
move=> nv hc hc1 run hrun.
have rw : replace eig eigh geig geigh flt argsort order ev_krylov time_cg time_minres (VString C N w) = VString C N w.
  rewrite /replace; case: String.eqb_spec => [e|_]; first by case: nv; rewrite e; left.
  case: String.eqb_spec => [e|_]; first by case: nv; rewrite e; right; left.
  by case: String.eqb_spec => [e|_] //; case: nv; rewrite e; right; right; left.
have gen new : (forall y U a, call_ok l Minv same Bm y a -> good U ->
     exists2 s, new y U a = Ok s & [/\ solved (rs_l y) (o_tol (ra_o a)) s, recyc l Bm s & fresh (rs_l y) U a s]) ->
    exists2 s, ssolves eig eigh geig geigh flt argsort order ev_krylov time_cg time_minres new (VString C N w) None (c1 :: cs)
       = (SReturns s :: nseq (size cs) (SAttributeError C N), Some s) &
    solved (rs_l (sc_sys c1)) (o_tol (ra_o (sc_args c1))) s /\ (hit c1 -> (0 < ds_n s + ds_m s)%N).
  move=> hnew; have [s e [h1 _ h2]] := hnew _ _ _ hc1 (good_nil _ _); exists s; last by split=> //; exact: pairs.
  rewrite ssteps_cons /ssolve [out _]/= e /=.
  suff -> : ssolves eig eigh geig geigh flt argsort order ev_krylov time_cg time_minres new (VString C N w) (Some s) cs
    = (nseq (size cs) (SAttributeError C N), Some s) by [].
  have hc' i c : nth None (map Some cs) i = Some c -> sc_fac c = VNone C N by exact: (hc i.+1).
  elim: cs hc' {hc} => [|c cs' IH] hc' //; rewrite ssteps_cons /ssolve (hc' 0%N c erefl) rw /=.
  by rewrite (IH (fun i => hc' i.+1)).
by case: hrun => ->; exact: gen.
Qed.

(** 'RitzAprioriMinres' does not work for negative definite systems: BoundMinres raises a
    ValueError (C39_negative_refuted) that is not caught, so that after a solve with
    iterations every call with it fails. *)
Theorem C82_negative c1 cs :
  (forall u, ip1 Bm u u = 1 -> ip1 (lB l) u (A u) <= - eps15 C) ->
  (forall i c, nth None (map Some (c1 :: cs)) i = Some c -> sc_fac c = VNone C N) ->
  call_ok l Minv same Bm (sc_sys c1) (sc_args c1) ->
  o_tol (ra_o (sc_args c1)) * rhs_norm (rs_l (sc_sys c1)) < resid_norm (rs_l (sc_sys c1)) (x0_of (ra_x0 (sc_args c1))) ->
  forall run, run = minres \/ run = gmres ->
  exists2 s, run (VString C N "RitzAprioriMinres") (c1 :: cs) = (SReturns s :: nseq (size cs) (SRaises C N ValueError), Some s) &
    solved (rs_l (sc_sys c1)) (o_tol (ra_o (sc_args c1))) s.
Proof.
move=> hneg hc hc1 hit run hrun.
have gen new : (forall y U a, call_ok l Minv same Bm y a -> good U ->
     exists2 s, new y U a = Ok s & [/\ solved (rs_l y) (o_tol (ra_o a)) s, recyc l Bm s & fresh (rs_l y) U a s]) ->
    exists2 s, ssolves eig eigh geig geigh flt argsort order ev_krylov time_cg time_minres new (VString C N "RitzAprioriMinres") None (c1 :: cs)
       = (SReturns s :: nseq (size cs) (SRaises C N ValueError), Some s) &
    solved (rs_l (sc_sys c1)) (o_tol (ra_o (sc_args c1))) s.
  move=> hnew; have [s e [u1 u2 [u3 u4 _ _]]] := hnew _ _ _ hc1 (good_nil _ _); exists s => //.
  have p1 : (0 < ds_n s + ds_m s)%N.
    rewrite lt0n addn_eq0; apply/negP => /andP[/eqP n0 _]; have [xk ex [_ _ hr]] := u1.
    have := hr (or_intror n0); move: ex; rewrite (u4 erefl n0) => -[<-].
    by move/(lt_le_trans hit); rewrite ltxx.
  rewrite ssteps_cons /ssolve [out _]/= e /=.
  suff -> : ssolves eig eigh geig geigh flt argsort order ev_krylov time_cg time_minres new (VString C N "RitzAprioriMinres") (Some s) cs
    = (nseq (size cs) (SRaises C N ValueError), Some s) by [].
  have hc' i c : nth None (map Some cs) i = Some c -> sc_fac c = VNone C N by exact: (hc i.+1).
  elim: cs hc' {hc} => [|c cs' IH] hc' //; rewrite ssteps_cons /ssolve (hc' 0%N c erefl).
  have -> : replace eig eigh geig geigh flt argsort order ev_krylov time_cg time_minres (VString C N "RitzAprioriMinres")
    = VFactory (auto_factory eig eigh geig geigh flt argsort order (ev_minres order time_minres)) by [].
  rewrite (minres_negative eig geig geigh heh flt argsort orderP sa time_minres u2 p1 hneg) /=.
  by rewrite (IH (fun i => hc' i.+1)).
by case: hrun => ->; exact: gen.
Qed.
End Properties.

(** The system [[2,1],[1,2]] x = b of C81_run with the default 'RitzAprioriCg' (and a
    misspelt one), and -x = b with 'RitzAprioriMinres' *)
Section Example.
Variable C : numClosedFieldType.
Definition ex_call (w : vfactory C 2) (b : 'cV[C]_2) : scall C 2 :=
  SCall (c_sys (Properties.RecyclingRun.ex_call b None)) w (c_args (Properties.RecyclingRun.ex_call b None)).
Definition neg_lsys : lsys C 2 := LSys -%R (e0 C) None id id IpNone None.
Definition neg_call (b : 'cV[C]_2) : scall C 2 :=
  SCall (RSys (with_rhs neg_lsys b None) None false true) (VNone C 2) (RArgs (Opts 0 2 false) Mgs None (PKw 0 false 1)).
Let order n (S : {set 'I_n}) : seq 'I_n := enum S.
Definition ex_run (time : C -> nat -> int) := shortcut_gmres (N := 2) (R := int_realDomainType) (@some_eigh C) (@some_eigh C)
  (fun _ X _ => some_eigh X) (fun _ X _ => some_eigh X) (fun=> 0) (some_argsort (C := C)) order (fun _ _ _ _ => Err AssumptionError)
  (fun _ => time) (fun _ b => time (if b is BCg b then b else 0)) (@some_qr C) (@frob C).

Example C82_run time :
  [/\ exists s1 s2, (ex_run time (VString C 2 "RitzAprioriCg") [:: ex_call (VNone C 2) (e0 C); ex_call (VNone C 2) (e1 C)]).1
        = [:: SReturns s1; SReturns s2],
      exists s1 s2, (ex_run time (VString C 2 "RitzAprioriCG")
          [:: ex_call (VNone C 2) (e0 C); ex_call (VNone C 2) (e1 C); ex_call (VString C 2 "RitzAprioriMinres") (e1 C)]).1
        = [:: SReturns s1; SAttributeError C 2; SReturns s2] &
      exists s1, (ex_run time (VString C 2 "RitzAprioriMinres") [:: neg_call (e0 C); neg_call (e1 C)]).1
        = [:: SReturns s1; SRaises C 2 ValueError]].
Proof.
have [Bm [eB vB hB hcall]] := Properties.RecyclingRun.ex_setting C.
have he n (X : 'M[C]_n) : X^h = X -> eigh_ok X (some_eigh X) by exact: some_eigh_spec.
have z0 : e0 C <> 0 by apply/eqP; exact: e0_nz.
have z1 : e1 C <> 0.
  by move/(congr1 (fun v : 'cV[C]_2 => v 1 0)); rewrite !mxE /= => /eqP; rewrite oner_eq0.
have mr x : lMr (dex_lsys C) x = x by [].
have ho n (S : {set 'I_n}) : perm_eq (order S) (enum S) by [].
have hk : tame (fun (s : dsolver C 2) z _ _ => Err AssumptionError : res int_realDomainType) by move=> s z h S e _ [<-].
have nf (P : Prop) : false -> P by [].
have hit (l : lsys C 2) x0 : lsys_ok l -> x0_of x0 = 0 -> lMl l (lb l) <> 0 -> 0 * rhs_norm l < resid_norm l (x0_of x0).
  move=> hl -> nb; rewrite mul0r; have -> : resid_norm l 0 = rhs_norm l.
    by rewrite /resid_norm /resid (lin0 (lo_A hl)) subr0.
  rewrite lt_def sqrtC_ge0 (ip_ge0' (lmip hl)) andbT rhs_norm_eq0 //; exact/eqP.
have hc w b : b <> 0 -> call_ok (dex_lsys C) (dex_Minv C) false Bm (sc_sys (ex_call w b)) (sc_args (ex_call w b)) by exact: hcall.
pose c1 := ex_call (VNone C 2) (e0 C).
have h1 := hc (VNone C 2) _ z0; have i1 := hit _ None (with_rhs_ok (dex_ok C) (e0 C) None) erefl (co_b h1).
have seq2 (D : vfactory C 2) (a b : scall C 2) : exists o1 o2, (ex_run time D [:: a; b]).1 = [:: o1; o2].
  by rewrite /ex_run /shortcut_gmres !ssteps_cons; do 2 eexists.
have seq3 (D : vfactory C 2) (a b c : scall C 2) : exists o1 o2 o3, (ex_run time D [:: a; b; c]).1 = [:: o1; o2; o3].
  by rewrite /ex_run /shortcut_gmres !ssteps_cons; do 3 eexists.
have first D : exists2 s, ex_run time D [:: c1] = ([:: SReturns s], Some s) & (0 < ds_n s + ds_m s)%N.
  have [s e [_ p]] := C82_first (@some_qr_spec C) (@frob_bounds C) (dex_ok C) (@dex_sa C) (@dex_inj C) mr (nf _) eB vB hB
    D h1 (or_intror (erefl (ex_run time))).
  by exists s => //; exact: (p i1).
have seq := C82_gmres (@some_qr_spec C) (@frob_bounds C) (@some_eigh C) (fun _ X _ => some_eigh X) (fun _ X _ => some_eigh X) he
  (dex_ok C) (@dex_sa C) (@dex_inj C) mr (nf _) eB vB hB (fun=> 0 : int_realDomainType) (@some_argsortP C) ho
  (fun _ => time) (fun _ b => time (if b is BCg b then b else 0)) (@dex_pd C) hk.
have vs w : string_calls (dex_lsys C) (dex_Minv C) false Bm [:: c1; ex_call (VNone C 2) (e1 C); ex_call (VString C 2 w) (e1 C)].
  by move=> [|[|[|[|i]]]] c //= [<-]; split; try exact: hc; [left|left|right; exists w].
have vs2 : string_calls (dex_lsys C) (dex_Minv C) false Bm [:: c1; ex_call (VNone C 2) (e1 C)].
  by move=> [|[|[|i]]] c //= [<-]; split; try exact: hc; left.
split.
- have [s1 f1 p1] := first (VString C 2 "RitzAprioriCg").
  have hd : none_or_string (VString C 2 "RitzAprioriCg") by right; eexists.
  have [o1 [o2 E]] := seq2 (VString C 2 "RitzAprioriCg") c1 (ex_call (VNone C 2) (e1 C)); rewrite E.
  have [o +] := seq _ hd [::] c1 [:: ex_call (VNone C 2) (e1 C)] vs2; rewrite -[shortcut_gmres _ _ _ _ _ _ _ _ _ _ _ _]/(ex_run time) E => -[<-].
  case=> [[[] //]|[[[]] //]|[_ _ [s eo _]]]; rewrite eo.
  have [o' +] := seq _ hd [:: c1] (ex_call (VNone C 2) (e1 C)) [::] vs2; rewrite -[shortcut_gmres _ _ _ _ _ _ _ _ _ _ _ _]/(ex_run time) E f1 => -[<-].
  case=> [[[_ [w [|[_ [<-]]] nw]]]|[[[s' [<-] [n0 m0]]]]|[_ _ [s2 -> _]]] //.
  + by case: nw; right; left.
  + by move: p1; rewrite n0 m0.
  by exists s, s2.
- have nv : ~ valid "RitzAprioriCG" by case=> [|[|[|]]].
  have [s1 f1 p1] := first (VString C 2 "RitzAprioriCG").
  have hd : none_or_string (VString C 2 "RitzAprioriCG") by right; eexists.
  have [|s f2 [_ p2]] := C82_misspelt (@some_qr_spec C) (@frob_bounds C) (dex_ok C) (@dex_sa C) (@dex_inj C) mr (nf _) eB vB hB
    (cs := [:: ex_call (VNone C 2) (e1 C)]) nv _ h1 (or_intror (erefl (ex_run time))).
  + by move=> [|[|[|i]]] c //= [<-].
  have {}p2 := p2 i1.
  set c3 := ex_call (VString C 2 "RitzAprioriMinres") (e1 C).
  have [o1 [o2 [o3 E]]] := seq3 (VString C 2 "RitzAprioriCG") c1 (ex_call (VNone C 2) (e1 C)) c3; rewrite E.
  have e12 : [:: o1; o2] = [:: SReturns s; SAttributeError C 2].
    by have := congr1 fst f2; move: E; rewrite /ex_run /shortcut_gmres !ssteps_cons /= => -[<- <- _] [->].
  case: e12 => -> ->.
  have [o +] := seq _ hd [:: c1; ex_call (VNone C 2) (e1 C)] c3 [::] (vs _); rewrite -[shortcut_gmres _ _ _ _ _ _ _ _ _ _ _ _]/(ex_run time) E f2 => -[<-].
  case=> [[[_ [w [[<-]|[]] nw]]]|[[[s' [<-] [n0 m0]]]]|[_ _ [s2 -> _]]] //.
  + by case: nw; right; right; left.
  + by move: p2; rewrite n0 m0.
  by exists s, s2.
have hip := valid_is_ip (B := @IpNone C 2) I.
have nl : lsys_ok neg_lsys.
  split=> //=; try by move=> a x y.
  + by move=> a x y; rewrite opprD scalerN.
  + by move=> x nx; rewrite /lMop /=; exact: (ip_pos hip).
have nsa : self_adjoint (ip1 (lB neg_lsys)) (lMlAMr neg_lsys).
  by move=> x y; rewrite /lMlAMr /= (ipNl hip) (ipNr hip).
have ninj : injective_op (lMlAMr neg_lsys).
  by move=> x /eqP; rewrite /lMlAMr /= oppr_eq0 => /eqP.
have ncall b : b <> 0 -> call_ok neg_lsys None false IpNone (sc_sys (neg_call b)) (sc_args (neg_call b)).
  by move=> nb; split=> //=; exists b, None.
have [|||s -> _] := C82_negative (@some_qr_spec C) (@frob_bounds C) he nl nsa ninj (fun=> erefl) (nf _) (erefl (Ok IpNone)) I (fun _ _ => erefl) ho
   (cs := [:: neg_call (e1 C)]) _ _ (ncall _ z0) _ (or_intror (erefl (ex_run time))).
- move=> u hu; rewrite /lMlAMr /= (ipNr hip) hu ler_opp2 ltW // Proof.Bounds.eps_lt1 //.
- by move=> [|[|[|i]]] c //= [<-].
- exact: (hit _ None (with_rhs_ok nl (e0 C) None) erefl (co_b (ncall _ z0))).
by exists s.
Qed.
End Example.

Print Assumptions C82_minres.
Print Assumptions C82_gmres.
Print Assumptions C82_first.
Print Assumptions C82_misspelt.
Print Assumptions C82_negative.
Print Assumptions C82_run.
