(** C81: sequences of linear systems with recycled Ritz vectors. *)
From mathcomp Require Import all_ssreflect all_algebra ring.
From Verif Require Import Base Spec.LinAlg Proof.Algebra Model.Ritz Spec.Ritz Model.Inner Spec.Inner Proof.Inner Proof.IpTheory.
From Verif Require Import Model.Arnoldi Spec.Arnoldi Model.Solver Model.LinearSystem Model.Krylov Spec.Krylov Proof.LinearSystem Proof.Gmres.
From Verif Require Import Model.Projection Spec.Projection Proof.Qr Proof.QrExist Model.Deflation Spec.Deflation Proof.Deflation.
From Verif Require Import Model.DeflRitz Model.Recycling Spec.Recycling Proof.Recycling Model.RecyclingRun Spec.RecyclingRun Proof.RecyclingRun.
From Verif Require Import Spec.DeflAgree Spec.DeflCount Properties.Deflation Properties.DeflCount.
From Verif Require Import Proof.ArnoldiExample Proof.ArnoldiAll Properties.Gmres.
From Verif Require Properties.Recycling Properties.Cg.

Set Implicit Arguments.
Unset Strict Implicit.
Unset Printing Implicit Defensive.
Import Order.TTheory GRing.Theory Num.Theory.
Local Open Scope ring_scope.

(** Reading guide: Spec/RecyclingRun.v ([call_ok]: what is assumed of the calls of solve(),
    [select_ok]: of the selection of Ritz pairs, [outcome_ok]: what is shown). *)
Section Properties.
Variable C : numClosedFieldType.
Variable sqr : forall n k, 'M[C]_(n, k) -> 'M[C]_(n, k) * 'M[C]_k.
Hypothesis hsqr : qr_spec sqr.
Variable snorm : nat -> nat -> (nat -> nat -> C) -> C.
Hypothesis hsn : bounds_entries snorm.
Variables eig eigh : forall n, 'M[C]_n -> ('I_n -> C) * 'M[C]_n.
Variables geig geigh : forall n, 'M[C]_n -> 'M[C]_n -> ('I_n -> C) * 'M[C]_n.
Hypothesis heh : forall n (X : 'M[C]_n), X^h = X -> eigh_ok X (eigh X).
Variable N : nat.
Local Notation vec := 'cV[C]_N.
(** All systems are l with other right hand sides; Ml A Mr is self-adjoint and nonsingular,
    there is no right preconditioner, Minv is the inverse of M. *)
Variable l : lsys C N.
Hypothesis hl : lsys_ok l.
Local Notation A := (lMlAMr l).
Hypothesis sa : self_adjoint (ip1 (lB l)) A.
Hypothesis inj : injective_op A.
Hypothesis hMr : forall x, lMr l x = x.
Variables (Minv : option (vec -> vec)) (same : bool) (Bm : ipB C N).
Hypothesis hsame : same -> forall x, A x = x.
Hypothesis eBm : get_ip_Minv_B l Minv = Ok Bm.
Hypothesis vBm : valid_ip Bm.
Hypothesis hadj : forall x y, ip1 Bm x (lMop l y) = ip1 (lB l) x y.
Local Notation fac := (ritz_factory eig eigh geig geigh).
Local Notation calls_ok := (calls_ok eig eigh geig geigh l Minv same Bm).
Local Notation fac_ok := (fac_ok eig eigh geig geigh l).
Local Notation outcome_ok := (outcome_ok eig eigh geig geigh).
Local Notation good U := (inner Bm (colmx U) (colmx U) = 1%:M /\ inner (lB l) (colmx U) (imcols A (colmx U)) \in unitmx).

Let minres_fresh y U a : call_ok l Minv same Bm y a -> good U ->
  exists2 s, new_minres sqr snorm y U a = Ok s & [/\ solved (rs_l y) (o_tol (ra_o a)) s, recyc l Bm s & fresh (rs_l y) U a s].
Proof.
case: y => l' Mi sm f [/= [b [e ->]] nb -> -> -> ho hi hor hm ht] [h1 h2].
exact: (new_minres_ok hsqr hsn hl eBm vBm hadj sa inj hMr e nb (orth_args sqr hl eBm vBm hi hsame hor h1 h2) h1 ho hm ht).
Qed.

Let gmres_fresh y U a : call_ok l Minv same Bm y a -> good U ->
  exists2 s, new_gmres sqr snorm y U a = Ok s & [/\ solved (rs_l y) (o_tol (ra_o a)) s, recyc l Bm s & fresh (rs_l y) U a s].
Proof.
case: y => l' Mi sm f [/= [b [e ->]] nb -> -> -> ho hi hor hm ht] [h1 h2].
exact: (new_gmres_ok hsqr hsn hl eBm vBm hadj sa inj hMr e nb (orth_args sqr hl eBm vBm hi hsame hor h1 h2) h1 ho hm ht).
Qed.

Let weaken new (h : forall y U a, call_ok l Minv same Bm y a -> good U ->
     exists2 s, new y U a = Ok s & [/\ solved (rs_l y) (o_tol (ra_o a)) s, recyc l Bm s & fresh (rs_l y) U a s]) y U a :
  call_ok l Minv same Bm y a -> good U -> exists2 s, new y U a = Ok s & solved (rs_l y) (o_tol (ra_o a)) s /\ recyc l Bm s.
Proof. by move=> h1 h2; have [s e [h3 h4 _]] := h _ _ _ h1 h2; exists s. Qed.

Let minres_ok := weaken minres_fresh.
Let gmres_ok := weaken gmres_fresh.

Section Sequence.
Variable default : option (factory (dsolver C N) (seq vec)).
Hypothesis hdef : fac_ok default.

(** Every solve of the sequence succeeds or the factory fails. *)
Theorem C81_minres pre c post : calls_ok (pre ++ c :: post) ->
  exists2 r, nth None (map Some (recycling_minres sqr snorm default (pre ++ c :: post)).1) (size pre) = Some r &
  outcome_ok default (recycling_minres sqr snorm default pre).2 c r.
Proof. exact: (sequence heh sa minres_ok hdef). Qed.

Theorem C81_gmres pre c post : calls_ok (pre ++ c :: post) ->
  exists2 r, nth None (map Some (recycling_gmres sqr snorm default (pre ++ c :: post)).1) (size pre) = Some r &
  outcome_ok default (recycling_gmres sqr snorm default pre).2 c r.
Proof. exact: (sequence heh sa gmres_ok hdef). Qed.

(** The deflation vectors are orthonormal in <., M^-1 .>, and <U, Ml A Mr U> is nonsingular. *)
Theorem C81_vectors cs s sel U : calls_ok cs -> select_ok l sel ->
  (recycling_minres sqr snorm default cs).2 = Some s \/ (recycling_gmres sqr snorm default cs).2 = Some s ->
  fac sel s = Ok U -> good U.
Proof.
move=> hc hs [h|h] hU.
  exact: (sequence_vectors heh sa minres_ok hdef hc h hs hU).
exact: (sequence_vectors heh sa gmres_ok hdef hc h hs hU).
Qed.
End Sequence.

(** RitzFactorySimple: all selections are admissible for positive definite systems. *)
Section Simple.
Variable argsort : seq C -> seq nat.
Hypothesis argsortP : argsort_spec argsort.
Hypothesis pd : pos_def (ip1 (lB l)) A.

Theorem C81_simple_select k w : select_ok l (simple_select (N := N) argsort k w).
Proof.
move=> s z q hr.
have h t : all (fun x => x \is Num.real) t -> size t = (ds_n s + ds_m s)%N ->
    uniq (argsort t) /\ {in argsort t, forall i, (i < ds_n s + ds_m s)%N}.
  by move=> rt <-; split; [exact: argsort_uniq|move=> i; exact: argsort_lt].
have hf t : all (fun x => x \is Num.real) t -> size t = (ds_n s + ds_m s)%N ->
    uniq (first_k k (argsort t)) /\ all (fun i => i < ds_n s + ds_m s)%N (first_k k (argsort t)).
  by move=> rt st; have [h1 h2] := h t rt st; split; [exact: take_uniq|apply/allP => i /mem_take; exact: h2].
have hla t : all (fun x => x \is Num.real) t -> size t = (ds_n s + ds_m s)%N ->
    uniq (last_k k (argsort t)) /\ all (fun i => i < ds_n s + ds_m s)%N (last_k k (argsort t)).
  move=> rt st; have [h1 h2] := h t rt st; rewrite /last_k; case: ifP => _; first by split=> //; apply/allP.
  by split; [exact: drop_uniq|apply/allP => i /mem_drop; exact: h2].
have r1 (f : C -> C) t : (forall x, f x \is Num.real) -> all (fun x => x \is Num.real) [seq f x | x <- t].
  by move=> g; apply/allP => x /mapP[y _ ->].
have sz (f : 'I_(ds_n s + ds_m s) -> C) : size [seq f i | i <- enum 'I_(ds_n s + ds_m s)] = (ds_n s + ds_m s)%N.
  by rewrite size_map size_enum_ord.
have e g : simple_select argsort k g z = Ok q -> uniq q /\ all (fun i => i < ds_n s + ds_m s)%N q.
  case: g => // -[<-]; [apply: hla|apply: hf|apply: hla|apply: hf|apply: hla|apply: hf|apply: hf]; try by rewrite !size_map -enumT size_enum_ord.
  - by apply: r1 => x; exact: normr_real.
  - by apply: r1 => x; exact: normr_real.
  - by apply: r1 => x; exact: Creal_Re.
  - by apply: r1 => x; exact: Creal_Re.
  - by apply: r1 => x; exact: Creal_Im.
  - by apply: r1 => x; exact: Creal_Im.
  by apply/allP => x /mapP[i _ ->].
by case/e => h1 h2; split=> //; left.
Qed.

Lemma simple_size k w (s : dsolver C N) (z : dritz C (ds_n s + ds_m s)) q : (forall i, odflt 0 (dz_resnorms z i) \is Num.real) ->
  simple_select argsort k.+1 w z = Ok q -> (0 < ds_n s + ds_m s)%N -> (0 < size q)%N.
Proof.
move=> hr E nm.
have r1 (f : C -> C) t : (forall x, f x \is Num.real) -> all (fun x => x \is Num.real) [seq f x | x <- t].
  by move=> g; apply/allP => x /mapP[y _ ->].
have hs t : all (fun x => x \is Num.real) t -> size t = (ds_n s + ds_m s)%N -> size (argsort t) = (ds_n s + ds_m s)%N.
  by move=> rt <-; exact: argsort_size.
have hf t : all (fun x => x \is Num.real) t -> size t = (ds_n s + ds_m s)%N -> (0 < size (first_k k.+1 (argsort t)))%N.
  by move=> rt /(hs _ rt) st; rewrite /first_k size_take st; case: ifP.
have hla t : all (fun x => x \is Num.real) t -> size t = (ds_n s + ds_m s)%N -> (0 < size (last_k k.+1 (argsort t)))%N.
  by move=> rt /(hs _ rt) st; rewrite /last_k /= size_drop st subn_gt0 ltn_subrL.
case: w E => // -[<-]; [apply: hla|apply: hf|apply: hla|apply: hf|apply: hla|apply: hf|apply: hf]; try by rewrite !size_map -enumT size_enum_ord.
- by apply: r1 => x; exact: normr_real.
- by apply: r1 => x; exact: normr_real.
- by apply: r1 => x; exact: Creal_Re.
- by apply: r1 => x; exact: Creal_Re.
- by apply: r1 => x; exact: Creal_Im.
- by apply: r1 => x; exact: Creal_Im.
by apply/allP => x /mapP[i _ ->].
Qed.

(** Hence every solve succeeds unless the previous one has neither iterated nor deflated. *)
Theorem C81_simple k w pre c post : w <> WOther ->
  (forall i d, nth None (map Some (pre ++ c :: post)) i = Some d ->
     call_ok l Minv same Bm (c_sys d) (c_args d) /\ c_fac d = None) ->
  forall run, run = recycling_minres sqr snorm \/ run = recycling_gmres sqr snorm ->
  let rec := run (Some (fac (simple_select argsort k w))) in
  exists2 r, nth None (map Some (rec (pre ++ c :: post)).1) (size pre) = Some r &
  (exists2 s, r = Ok s & solved (rs_l (c_sys c)) (o_tol (ra_o (c_args c))) s) \/
  r = Err IndexError /\ exists2 s, (rec pre).2 = Some s & ds_n s = 0%N /\ ds_m s = 0%N.
Proof.
move=> hw hc run hrun rec.
have hc' : calls_ok (pre ++ c :: post) by move=> i d /hc[h1 h2]; split=> //; left.
have ec : c_fac c = None.
  have /hc[]// : nth None (map Some (pre ++ c :: post)) (size pre) = Some c.
  by rewrite map_cat nth_cat size_map ltnn subnn.
have hd : fac_ok (Some (fac (simple_select argsort k w))).
  by right; exists (simple_select argsort k w) => //; exact: C81_simple_select.
have [r e h] : exists2 r, nth None (map Some (rec (pre ++ c :: post)).1) (size pre) = Some r &
    outcome_ok (Some (fac (simple_select argsort k w))) (rec pre).2 c r.
  by rewrite /rec; case: hrun => ->; [exact: C81_minres|exact: C81_gmres].
exists r => //; case: h => [|[s [sel [x [h1 h2 h3 h4]]]]]; first by left.
move: h2; rewrite /used ec => -[hf]; right; rewrite h3.
suff [-> en] : x = IndexError /\ (ds_n s + ds_m s = 0)%N.
  by split=> //; exists s => //; move/eqP: en; rewrite addn_eq0 => /andP[/eqP-> /eqP->].
case: h4 => [[h4 ->] //|[z Ez es]].
have := congr1 (fun f => f s) hf; rewrite /ritz_factory Ez /= es /=.
case E: (simple_select argsort k w z) => [q|y] /=; last by case: (w) hw E.
have [_ hq _] := C81_simple_select (fun i => resnorms_real i Ez) E.
case: eqP => [h0 [<-]|_]; first by [].
by rewrite /dvectors hq.
Qed.

(** If the first solve has to iterate and n_vectors >= 1, then all solves succeed. *)
Theorem C81_all k w c1 cs : w <> WOther ->
  (forall i d, nth None (map Some (c1 :: cs)) i = Some d ->
     call_ok l Minv same Bm (c_sys d) (c_args d) /\ c_fac d = None) ->
  o_tol (ra_o (c_args c1)) * rhs_norm (rs_l (c_sys c1)) < resid_norm (rs_l (c_sys c1)) (x0_of (ra_x0 (c_args c1))) ->
  forall run, run = recycling_minres sqr snorm \/ run = recycling_gmres sqr snorm ->
  forall i c, nth None (map Some (c1 :: cs)) i = Some c ->
  exists2 s, nth None (map Some (run (Some (fac (simple_select argsort k.+1 w))) (c1 :: cs)).1) i = Some (Ok s) &
    solved (rs_l (c_sys c)) (o_tol (ra_o (c_args c))) s.
Proof.
move=> hw hc h1 run hrun; set sel := simple_select argsort k.+1 w.
have gen new : (forall y U a, call_ok l Minv same Bm y a -> good U ->
     exists2 s, new y U a = Ok s & [/\ solved (rs_l y) (o_tol (ra_o a)) s, recyc l Bm s & fresh (rs_l y) U a s]) ->
    forall i c, nth None (map Some (c1 :: cs)) i = Some c ->
    exists2 s, nth None (map Some (rsolves (fun y => Ok y) [::] new (Some (fac sel)) None (c1 :: cs)).1) i = Some (Ok s) &
      solved (rs_l (c_sys c)) (o_tol (ra_o (c_args c))) s.
  move=> hnew; have [k1 k2] := hc 0%N c1 erefl.
  have [s1 e1 [u1 u2 [u3 u4 _ _]]] := hnew _ _ _ k1 (good_nil _ _).
  have p1 : (0 < ds_n s1 + ds_m s1)%N.
    rewrite lt0n addn_eq0; apply/negP => /andP[/eqP n0 _]; have [xk ex [_ _ hr]] := u1.
    have := hr (or_intror n0); move: ex; rewrite (u4 erefl n0) => -[<-].
    by move/(lt_le_trans h1); rewrite ltxx.
  have rest last : recyc l Bm last -> (0 < ds_n last + ds_m last)%N ->
      forall i c, nth None (map Some cs) i = Some c ->
      exists2 s, nth None (map Some (rsolves (fun y => Ok y) [::] new (Some (fac sel)) (Some last) cs).1) i = Some (Ok s) &
        solved (rs_l (c_sys c)) (o_tol (ra_o (c_args c))) s.
    have hc' i d : nth None (map Some cs) i = Some d -> call_ok l Minv same Bm (c_sys d) (c_args d) /\ c_fac d = None.
      exact: (hc i.+1).
    elim: cs hc' last {hc k1 k2} => [|c cs' IH] hc' last hl1 hl2 i d; first by rewrite nth_nil.
    have [k1 k2] := hc' 0%N c erefl; rewrite steps_cons /rsolve /= k2.
    have ok : select_ok l sel := @C81_simple_select k.+1 w.
    case: (factory_step eig geig geigh heh sa hl1 ok) => [[vs ev gv]|[x ex hx]]; last first.
      exfalso; case: hx => [[h0 _]|[z Ez es]]; first by rewrite h0 in hl2.
      by move: es; rewrite /sel /simple_select; case: (w) hw.
    rewrite ev /=; have [s2 e2 [v1 v2 [v3 _ _ _]]] := hnew _ _ _ k1 gv; rewrite e2 /=.
    case: i => [|i] /=; first by case=> <-; exists s2.
    apply: (IH (fun i => hc' i.+1)) => //; rewrite v3 addn_gt0; apply/orP; right.
    move: ev; rewrite /ritz_factory => E; have [z Ez {}E] := bind_ok E; have [q Eq {}E] := bind_ok E.
    move: E; case: ifP => // _; rewrite /dvectors; case: ifP => // _ [<-]; rewrite size_map.
    exact: (simple_size (fun i => resnorms_real i Ez) Eq hl2).
  rewrite !steps_cons /rsolve /= e1 /= => -[|i] c /=; first by case=> <-; exists s1.
  exact: rest.
case: hrun => ->; exact: gen.
Qed.

(** RitzFactory with any evaluator: the selections are admissible, too. *)
Theorem C81_best_select (R : realDomainType) flt (order : forall n, {set 'I_n} -> seq 'I_n) evaluate mv fuel print_ok :
  (forall n (S : {set 'I_n}), perm_eq (order n S) (enum S)) ->
  select_ok l (best_select (N := N) (R := R) flt argsort order evaluate mv fuel print_ok).
Proof.
move=> ho s z q _; rewrite /best_select => E; have [[S calls] _ [<-]] := bind_ok E; split; last by left.
  by rewrite map_inj_uniq ?(perm_uniq (ho _ _)) ?enum_uniq //; exact: val_inj.
by apply/allP => i /mapP[j _ ->] /=.
Qed.
End Simple.

(** If the same system is solved again with the same initial guess, after a solve that has
    found a solution, and all Ritz vectors are used, then no iteration is needed. *)
Theorem C81_repeat pre c c' s xk default sel : fac_ok default -> calls_ok (pre ++ [:: c; c']) ->
  rs_l (c_sys c') = rs_l (c_sys c) -> x0_of (ra_x0 (c_args c')) = x0_of (ra_x0 (c_args c)) ->
  used default c' = Some (fac sel) -> select_ok l sel ->
  (forall z, exists2 q, sel s z = Ok q & size q = (ds_n s + ds_m s)%N) -> (0 < ds_n s + ds_m s)%N ->
  forall run, run = recycling_minres sqr snorm \/ run = recycling_gmres sqr snorm ->
  nth None (map Some (run default (pre ++ [:: c; c'])).1) (size pre) = Some (Ok s) ->
  ds_xk s = Some xk -> resid (rs_l (c_sys c)) xk = 0 ->
  exists2 s', nth None (map Some (run default (pre ++ [:: c; c'])).1) (size pre).+1 = Some (Ok s') & ds_res s' = [:: 0].
Proof.
move=> hd hc hsys hx hu hs hall nm run hrun.
have gen new : (forall y U a, call_ok l Minv same Bm y a -> good U ->
     exists2 s, new y U a = Ok s & [/\ solved (rs_l y) (o_tol (ra_o a)) s, recyc l Bm s & fresh (rs_l y) U a s]) ->
    nth None (map Some (rsolves (fun y => Ok y) [::] new default None (pre ++ [:: c; c'])).1) (size pre) = Some (Ok s) ->
    ds_xk s = Some xk -> resid (rs_l (c_sys c)) xk = 0 ->
    exists2 s', nth None (map Some (rsolves (fun y => Ok y) [::] new default None (pre ++ [:: c; c'])).1) (size pre).+1 = Some (Ok s')
      & ds_res s' = [:: 0].
  move=> hnew; have new_ok := weaken hnew.
  have h1 : calls_ok pre.
    move=> i d h; apply: (hc i); rewrite map_cat nth_cat size_map; case: ifP => // /negbT; rewrite -leqNgt => hi.
    by rewrite nth_default ?size_map in h.
  have [k1 k2] : call_ok l Minv same Bm (c_sys c) (c_args c) /\ fac_ok (c_fac c).
    by apply: (hc (size pre)); rewrite map_cat nth_cat size_map ltnn subnn.
  have [k3 k4] : call_ok l Minv same Bm (c_sys c') (c_args c') /\ fac_ok (c_fac c').
    by apply: (hc (size pre).+1); rewrite map_cat nth_cat size_map ltnNge leqnSn subSnn.
  have hlast := steps_ok (last := None) heh sa new_ok hd I h1.
  rewrite steps_cat => -[es] ex er.
  have [U gU eU] := step_from heh sa hd hlast k1 k2 es.
  have [s1 + [u1 u2 [_ _ _ u3]]] := hnew _ _ _ k1 gU; rewrite eU => -[es1]; rewrite -es1 in u1 u2 u3.
  have [hn [xk' [ex' hw]]] := u3; move: ex'; rewrite ex => -[exk]; rewrite -exk in hw.
  have -> : pre ++ [:: c; c'] = rcons pre c ++ c' :: [::] by rewrite cat_rcons.
  rewrite -(size_rcons pre c) steps_cat steps_rcons.
  have -> : (rsolve (fun y => Ok y) [::] new default (rsolves (fun y => Ok y) [::] new default None pre).2 c).2 = Some s.
    by move: es; rewrite /rsolve /= => ->.
  rewrite /rsolve /= -/(used default c') hu.
  case: (factory_step eig geig geigh heh sa u2 hs) => [[vs ev gv]|[x _ hf]]; last first.
    exfalso; case: hf => [[h0 _]|[z _ e]]; first by rewrite h0 in nm.
    by have [q] := hall z; rewrite e.
  have [cc ec] := factory_all heh sa u2 hs nm hall ev hw.
  rewrite ev /=; have [s' e' [_ _ [_ _ u6 _]]] := hnew _ _ _ k3 gv; exists s'; first by rewrite e'.
  by apply: (u6 cc); rewrite hsys hx -ec addrCA subrr addr0.
case: hrun => ->; exact: gen.
Qed.

(** The last case is real: after a solve whose initial guess is a solution the factory has
    no Ritz pairs and the next solve raises an IndexError. *)
Theorem C81_no_pairs c1 c2 default sel : calls_ok [:: c1; c2] -> fac_ok default ->
  resid (rs_l (c_sys c1)) (x0_of (ra_x0 (c_args c1))) = 0 ->
  used default c2 = Some (fac sel) -> (forall s z, exists q, sel s z = Ok q) ->
  forall run, run = recycling_minres sqr snorm \/ run = recycling_gmres sqr snorm ->
  exists2 s, (run default [:: c1; c2]).1 = [:: Ok s; Err IndexError] & ds_res s = [:: 0].
Proof.
move=> hc hd h0 hu hsel run hrun; have [hc1 _] := hc 0%N c1 erefl.
have n0 : good [::] by exact: good_nil.
have fin s : ds_n s = 0%N -> ds_m s = 0%N -> fac sel s = Err IndexError.
  move=> e1 e2; have e : (ds_n s + ds_m s == 0)%N by rewrite e1 e2.
  rewrite /ritz_factory /mk_dritz e /=; set z := DRitz _ _ _.
  by have [q ->] := hsel s z.
have case_ok new : (exists2 s, new (c_sys c1) [::] (c_args c1) = Ok s & [/\ ds_n s = 0%N, ds_m s = 0%N & ds_res s = [:: 0]]) ->
    exists2 s, (rsolves (fun y => Ok y) [::] new default None [:: c1; c2]).1 = [:: Ok s; Err IndexError] & ds_res s = [:: 0].
  case=> s E [k1 k2 k3]; exists s => //; rewrite !steps_cons /rsolve /= E /= -/(used default c2) hu.
  by rewrite fin.
have hc1' := hc1; case: (c_sys c1) hc1 h0 case_ok => l' Mi sm f [/= [b [e ->]] nb -> -> -> ho hi hor hm ht] h0 case_ok.
have ha := orth_args sqr hl eBm vBm hi hsame hor n0.1 n0.2.
have hlb := with_rhs_ok hl b e.
have ha' : defl_args sqr (with_rhs l b e) Minv same (colmx [::]) (ra_kw (c_args c1)) by case: ha => *; split.
have ho' : ortho_ok (with_rhs l b e) (ra_ortho (c_args c1)) by case: (ra_ortho _) ho.
have hU c : lMr (with_rhs l b e) (colmx [::] *m c) = colmx [::] *m c by exact: hMr.
have [ob hob] := oblique_total hsqr hlb ha'.
have h0' : resid (with_rhs l b e) (x0_of (ra_x0 (c_args c1)) + colmx [::] *m 0) = 0 by rewrite mulmx0 addr0.
case: hrun => ->; apply: case_ok.
  have [s E _] := C29_minres_finite hsqr hlb ha' hU (ra_x0 (c_args c1)) ho' sa inj hsn nb hm ht.
  have [er _] := C78_no_iterations hlb nb hU ht h0' (or_introl (DmrMinres hsqr ha' ho' sa (or_introl E))).
  have [_ sz _] := C29_minres_optimal hsqr hlb ha' hU ho' sa nb (or_introl E).
  rewrite /new_minres /= E hob /=; eexists; first reflexivity.
  by rewrite er in sz; case: sz => sz; split; rewrite /= -?sz.
have [s E _] := C29_gmres_finite hsqr hlb ha' hU (ra_x0 (c_args c1)) ho' inj hsn nb hm ht.
have [er _] := C78_no_iterations hlb nb hU ht h0' (or_introl (DmrGmres hsqr ha' ho' (or_introl E))).
have [_ sz _] := C29_gmres_optimal hsqr hlb ha' hU ho' nb (or_introl E).
rewrite /new_gmres /= E hob /=; eexists; first reflexivity.
by rewrite er in sz; case: sz => sz; split; rewrite /= -?sz.
Qed.
End Properties.

(** The system of C29 with Ml A Mr = 2 [[2,1],[1,2]] and M = 5 I, with RitzFactorySimple:
    first b = e_0 with the solution as initial guess or without initial guess, then b = e_1. *)
Section Example.
Variable C : numClosedFieldType.
Local Notation l := (dex_lsys C).
Let kw : pkwargs := PKw 0 false 1.
Definition xs : 'cV[C]_2 := 3%:R^-1 *: (2%:R *: e0 C - e1 C).
Definition ex_call (b : 'cV[C]_2) (x0 : option 'cV[C]_2) : rcall C 2 :=
  Call (RSys (with_rhs l b None) (dex_Minv C) false true) None
       (RArgs (Opts 0 2 false) Mgs x0 kw).
Definition ex_fac := ritz_factory (N := 2) (@some_eigh C) (@some_eigh C) (fun _ X _ => some_eigh X) (fun _ X _ => some_eigh X)
  (simple_select (some_argsort (C := C)) 1 WSm).

Lemma ex_setting : exists Bm, [/\ get_ip_Minv_B l (dex_Minv C) = Ok Bm, valid_ip Bm,
   forall x y, ip1 Bm x (lMop l y) = ip1 (lB l) x y
   & forall b x0, b <> 0 -> call_ok l (dex_Minv C) false Bm (c_sys (ex_call b x0)) (c_args (ex_call b x0))].
Proof.
have h5 : 5%:R != 0 :> C by rewrite pnatr_eq0.
have [|||B eB [vB hB]] := @C43_Minv_inner_product C 2 l _ (fun x => 5%:R^-1 *: x) (dex_ok C) erefl.
- by move=> x; rewrite scalerA mulVf // scale1r.
- by move=> x; rewrite scalerA divff // scale1r.
- by [].
exists B; split=> // [x y|b x0 nb].
  by have [_ ->] := hB x (lMop l y); rewrite /lMop /= scalerA mulVf // scale1r.
split=> //=; first by exists b, None.
by move=> /eqP; rewrite scaler_eq0 pnatr_eq0 /= => /eqP.
Qed.

Example C81_run run : run = recycling_minres (@some_qr C) (@frob C) \/ run = recycling_gmres (@some_qr C) (@frob C) ->
  (exists2 s, (run (Some ex_fac) [:: ex_call (e0 C) (Some xs); ex_call (e1 C) None]).1 = [:: Ok s; Err IndexError]
    & ds_res s = [:: 0]) /\
  forall i c, nth None (map Some [:: ex_call (e0 C) None; ex_call (e1 C) None]) i = Some c ->
  exists2 s, nth None (map Some (run (Some ex_fac) [:: ex_call (e0 C) None; ex_call (e1 C) None]).1) i = Some (Ok s) &
    solved (rs_l (c_sys c)) (o_tol (ra_o (c_args c))) s.
Proof.
move=> hrun; have [Bm [eB vB hB hcall]] := ex_setting.
have he n (X : 'M[C]_n) : X^h = X -> eigh_ok X (some_eigh X) by exact: some_eigh_spec.
have z0 : e0 C <> 0 by apply/eqP; exact: e0_nz.
have z1 : e1 C <> 0.
  by move/(congr1 (fun v : 'cV[C]_2 => v 1 0)); rewrite !mxE /= => /eqP; rewrite oner_eq0.
have hs : select_ok l (simple_select (N := 2) (some_argsort (C := C)) 1 WSm).
  exact: (C81_simple_select (@some_argsortP C) (@dex_pd C)).
have mr x : lMr l x = x by [].
split.
  apply: (C81_no_pairs (@some_qr_spec C) (@frob_bounds C) (dex_ok C) (@dex_sa C) (@dex_inj C) mr (same := false) _ eB vB
    (sel := simple_select (some_argsort (C := C)) 1 WSm)) => //.
  - move=> [|[|[|i]]] c //= [<-]; split; by [exact: hcall|left].
  - by right; exists (simple_select (some_argsort (C := C)) 1 WSm).
  - rewrite /resid /= /Properties.Cg.spd_op /xs; apply/eqP; rewrite scaler_eq0 pnatr_eq0 /= subr_eq0; apply/eqP.
    rewrite (linZ (@swap_lin C)) (linB (@swap_lin C)) (linZ (@swap_lin C)) swap_e0 swap_e1.
    have h3 : 3%:R != 0 :> C by rewrite pnatr_eq0.
    by apply/colP => i; rewrite !mxE; field.
  - by move=> s z; eexists.
have hr : rhs_norm (with_rhs l (e0 C) None) != 0.
  rewrite rhs_norm_eq0; last exact: (with_rhs_ok (dex_ok C)).
  by rewrite /= scaler_eq0 pnatr_eq0 e0_nz.
apply: (@C81_all _ _ (@some_qr_spec C) _ (@frob_bounds C) (@some_eigh C) (@some_eigh C) (fun _ X _ => some_eigh X) (fun _ X _ => some_eigh X) he
  _ _ (dex_ok C) (@dex_sa C) (@dex_inj C) mr _ false _ (fun h => False_ind _ (notF h)) eB vB hB _ (@some_argsortP C) (@dex_pd C) 0 WSm (ex_call (e0 C) None) [:: ex_call (e1 C) None]) => //.
  by move=> [|[|[|i]]] c //= [<-]; split=> //; exact: hcall.
rewrite /= mul0r; have -> : resid_norm (with_rhs l (e0 C) None) 0 = rhs_norm (with_rhs l (e0 C) None).
  by rewrite /resid_norm /resid (lin0 (@Properties.Cg.spd_lin C) : lA (with_rhs l (e0 C) None) 0 = 0) subr0.
by rewrite lt_def hr sqrtC_ge0; exact: (ip_ge0' (lmip (with_rhs_ok (dex_ok C) (e0 C) None))).
Qed.

(** The eigenvector wp as right hand side, twice: the second solve does not iterate. *)
Definition ex_fac2 := ritz_factory (N := 2) (@some_eigh C) (@some_eigh C) (fun _ X _ => some_eigh X) (fun _ X _ => some_eigh X)
  (simple_select (some_argsort (C := C)) 2 WSm).

Example C81_repeat_run : exists s1 s2,
  [/\ (recycling_gmres (@some_qr C) (@frob C) (Some ex_fac2) [:: ex_call (wp C) None; ex_call (wp C) None]).1 = [:: Ok s1; Ok s2],
      size (ds_res s1) = 2%N & ds_res s2 = [:: 0]].
Proof.
have [Bm [eB vB hB hcall]] := ex_setting.
have he n (X : 'M[C]_n) : X^h = X -> eigh_ok X (some_eigh X) by exact: some_eigh_spec.
have w0 : wp C <> 0.
  by move/(congr1 (fun v : 'cV[C]_2 => v 0 0)); rewrite !mxE /= addr0 => /eqP; rewrite oner_eq0.
pose sel := simple_select (N := 2) (some_argsort (C := C)) 2 WSm.
have hs : select_ok l sel by exact: (C81_simple_select (@some_argsortP C) (@dex_pd C)).
have mr x : lMr l x = x by [].
have hc := hcall (wp C) None w0; pose lw := with_rhs l (wp C) None.
have nb : lMl lw (lb lw) <> 0 := co_b hc.
have ho : ortho_ok lw Mgs by [].
have ht : 0 <= 0 :> C by [].
have hlw : lsys_ok lw := with_rhs_ok (dex_ok C) (wp C) None.
have n0 : inner Bm (@colmx C 2 [::]) (@colmx C 2 [::]) = 1%:M /\
    inner (lB l) (@colmx C 2 [::]) (imcols (lMlAMr l) (@colmx C 2 [::])) \in unitmx by exact: good_nil.
have ha : defl_args (@some_qr C) l (dex_Minv C) false (@colmx C 2 [::]) kw.
  exact: (orth_args (same := false) (kw := kw) (@some_qr C) (dex_ok C) eB vB isT (fun h => False_ind _ (notF h)) (fun h => False_ind _ (notF h)) n0.1 n0.2).
have ha' : defl_args (@some_qr C) lw (dex_Minv C) false (@colmx C 2 [::]) kw by case: ha => *; split.
have hU c : lMr lw (@colmx C 2 [::] *m c) = @colmx C 2 [::] *m c by [].
have [ob hob] := oblique_total (@some_qr_spec C) hlw ha'.
have [//|//|s E [hn hj]] := C29_gmres_finite (o := Opts 0 2 false) (@some_qr_spec C) hlw ha' hU None ho (@dex_inj C) (@frob_bounds C) nb.
have [_ sz h3] := C29_gmres_optimal (@some_qr_spec C) hlw ha' hU ho nb (or_introl E).
have hres : resid lw 0 = 2%:R *: wp C.
  by rewrite /resid /= (lin0 (@Properties.Cg.spd_lin C)) subr0.
have U0 (c : 'cV_(size (@nil 'cV[C]_2))) : @colmx C 2 [::] *m c = 0.
  by apply/matrixP => i j; rewrite mxE [RHS]mxE big1 // => -[].
have hw : within lw 1 (s_res s) (s_xk s).
  apply: (C78_deflated_eigen (U := @colmx C 2 [::]) (x0 := None) (c := 0) (s := resid lw 0) hlw nb hU _ ht).
  - by move=> c; exists 0; rewrite U0 mulmx0 /lMop (lin0 (lMlAMr_lin hlw)) /= scaler0.
  - by rewrite mulmx0 (lin0 (lMlAMr_lin hlw)) add0r.
  - exists (fun=> resid lw 0), (fun=> 30%:R); split; first by rewrite big_ord1.
    move=> i _; split; first by rewrite pnatr_eq0.
    rewrite hres; have -> : lMop lw (2%:R *: wp C) = 10%:R *: wp C by rewrite /lMop /= scalerA -natrM.
    rewrite (linZ (lMlAMr_lin hlw)) (A_wp C : lMlAMr lw (wp C) = _) !scalerA.
    by congr (_ *: _); rewrite -!natrM.
  by left; exact: (DmrGmres (@some_qr_spec C) ha' ho (or_introl E)).
have hr : 0 < rhs_norm lw.
  by rewrite lt_def rhs_norm_eq0 // sqrtC_ge0 (ip_ge0' (lmip hlw)) andbT; apply/eqP.
have n1 : a_iter (gm_a (s_st s).1) = 1%N.
  have le1 : (a_iter (gm_a (s_st s).1) <= 1)%N by have [+ _] := hw; rewrite sz.
  case: hj => [|[j [ej _]]]; last by move: le1; rewrite ej ltnS leqn0 => /eqP->.
  case en: (a_iter _) le1 sz h3 => [|[|n]] // _ sz h3 h0; exfalso.
  have [xi [_ [z [c [ex [al ez] _]]]] er] := h3 0%N isT.
  have x0 : xi = 0 by rewrite ex U0 addr0 ez big_ord0 addr0.
  move: h0 er; case: (s_res s) sz => [|r []] //= _ h0; rewrite x0 => er; move: h0; rewrite er.
  rewrite (_ : resid_norm lw 0 = rhs_norm lw); last by rewrite /resid_norm hres.
  by rewrite divff ?gt_eqF // => h0; have := lt_le_trans (@ltr01 C) h0; rewrite ltxx.
have [_ [_ [xk ex er]]] := (hw.1, hw.2 (etrans sz (congr1 S n1))).
pose s1 := mk_dsolver (RSys lw (dex_Minv C) false true) ob (gm_a (s_st s).1) (s_st s).2 (s_xk s) (s_res s).
have e1 : new_gmres (@some_qr C) (@frob C) (c_sys (ex_call (wp C) None)) [::] (c_args (ex_call (wp C) None)) = Ok s1.
  rewrite /new_gmres (_ : deflated_gmres _ _ _ _ _ _ _ _ _ _ = Returns s); last exact: E.
  by rewrite (_ : mk_oblique _ _ _ _ _ _ = Ok ob); last exact: hob.
have nm : (ds_n s1 + ds_m s1 = 1)%N by rewrite /= n1.
have hall z : exists2 q, sel s1 z = Ok q & size q = (ds_n s1 + ds_m s1)%N.
  rewrite /sel /simple_select /=; set t := [seq _ | v <- _].
  have rt : all (fun x => x \is Num.real) t by apply/allP => x /mapP[y _ ->]; exact: normr_real.
  have st : size t = (ds_n s1 + ds_m s1)%N by rewrite !size_map -enumT size_enum_ord.
  by eexists; [reflexivity|rewrite size_take (argsort_size (@some_argsortP C) rt) st nm].
have run1 : (recycling_gmres (@some_qr C) (@frob C) (Some ex_fac2) [:: ex_call (wp C) None; ex_call (wp C) None]).1 =
    [:: Ok s1; (rsolve (fun y => Ok y) [::] (new_gmres (@some_qr C) (@frob C)) (Some ex_fac2) (Some s1) (ex_call (wp C) None)).1].
  by rewrite /recycling_gmres !steps_cons; have -> : rsolve (fun y => Ok y) [::] (new_gmres (@some_qr C) (@frob C)) (Some ex_fac2) None (ex_call (wp C) None)
    = (Ok s1, Some s1) by rewrite /rsolve /= -/(c_sys (ex_call (wp C) None)) e1.
have hcs : calls_ok (@some_eigh C) (@some_eigh C) (fun _ X _ => some_eigh X) (fun _ X _ => some_eigh X) l (dex_Minv C) false Bm
    ([::] ++ [:: ex_call (wp C) None; ex_call (wp C) None]).
  by move=> [|[|[|i]]] c //= [<-]; split; by [exact: hc|left].
have [|||||s2 e2 h2] := @C81_repeat _ _ (@some_qr_spec C) _ (@frob_bounds C) (@some_eigh C) (@some_eigh C) (fun _ X _ => some_eigh X) (fun _ X _ => some_eigh X) he
  _ _ (dex_ok C) (@dex_sa C) (@dex_inj C) mr _ false _ (fun h => False_ind _ (notF h)) eB vB hB [::] (ex_call (wp C) None) (ex_call (wp C) None)
  s1 xk (Some ex_fac2) sel _ hcs erefl erefl erefl hs hall _ _ (or_intror erefl).
- by right; exists sel.
- by rewrite nm.
- by rewrite [[::] ++ _]/= run1.
- by rewrite -ex.
- by rewrite -er.
exists s1, s2; split=> //; last by rewrite /= sz n1.
move: e2; rewrite [[::] ++ _]/= run1 /= => -[e2].
by rewrite e2.
Qed.
End Example.

Print Assumptions C81_minres.
Print Assumptions C81_gmres.
Print Assumptions C81_vectors.
Print Assumptions C81_simple_select.
Print Assumptions C81_simple.
Print Assumptions C81_best_select.
Print Assumptions C81_all.
Print Assumptions C81_repeat.
Print Assumptions C81_no_pairs.
Print Assumptions C81_run.
Print Assumptions C81_repeat_run.
