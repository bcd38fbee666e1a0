(** The programs of Model/Calls.v: their results and their numbers of calls. *)
From mathcomp Require Import all_ssreflect all_algebra.
From Verif Require Import Base Model.Inner Model.Arnoldi Model.Solver Spec.Solver Model.LinearSystem Model.Krylov Model.Calls Spec.Calls.
From Verif Require Import Spec.LinAlg Spec.Inner Spec.Arnoldi Spec.Krylov Proof.CgTheory Proof.Solver Proof.SolverInv Proof.ArnoldiAll Proof.Gmres Proof.Minres Proof.Cg Proof.LinearSystem.

Set Implicit Arguments.
Unset Strict Implicit.
Unset Printing Implicit Defensive.
Import Order.TTheory GRing.Theory Num.Theory.
Local Open Scope ring_scope.

Section Exec.
Variable C : numClosedFieldType.
Variable N : nat.
Local Notation vec := 'cV[C]_N.
Variable l : lsys C N.

Definition pval T (p : prog C N T) : res T := (exec l p).2.
Local Notation val := pval.

Lemma val_bind S T (p : prog C N S) (f : S -> prog C N T) :
  val (pbind p f) = bind (val p) (fun a => val (f a)).
Proof.
rewrite /pval; elim: p => //= x y k IH.
by case: (norm x y (lB l)) => //= c; apply: IH.
Qed.

Lemma calls_bind S T kd (p : prog C N S) (f : S -> prog C N T) :
  calls l kd (pbind p f) = (calls l kd p + (if val p is Ok a then calls l kd (f a) else 0))%N.
Proof.
rewrite /pval /calls; elim: p => //= [o x k IH|x y k IH|x y k IH]; try by rewrite IH addnA.
by case: (norm x y (lB l)) => //= c; [rewrite -addnA -IH|rewrite !addn0].
Qed.

Lemma calls_bind0 S T kd (p : prog C N S) (f : S -> prog C N T) :
  (forall a, val p = Ok a -> calls l kd (f a) = 0%N) -> calls l kd (pbind p f) = calls l kd p.
Proof. by move=> h; rewrite calls_bind; case: (val p) h => [a /(_ a erefl) ->|e _]; rewrite addn0. Qed.

Lemma pbindR S T (a : S) (f : S -> prog C N T) : pbind (Ret C N a) f = f a.
Proof. by []. Qed.

Lemma val_lift T (r : res T) : val (lift C N r) = r.
Proof. by case: r. Qed.
Lemma calls_lift T kd (r : res T) : calls l kd (lift C N r) = 0%N.
Proof. by case: r. Qed.
Lemma val_app o x : val (app o x) = Ok (op_of l o x).
Proof. by []. Qed.
Lemma calls_app kd o x : calls l kd (app o x) = same kd (kind_of o).
Proof. by rewrite /calls /= addn0. Qed.
Lemma val_pnorm x y : val (pnorm x y) = norm x y (lB l).
Proof. by rewrite /pval /=; case: (norm x y _). Qed.
Lemma calls_pnorm kd x y : calls l kd (pnorm x y) = same kd KIp.
Proof. by rewrite /calls /=; case: (norm x y _) => /= [c|e]; rewrite addn0. Qed.
Lemma val_pinner x y : val (pinner x y) = Ok (ip1 (lB l) x y).
Proof. by []. Qed.
Lemma calls_pinner kd x y : calls l kd (pinner x y) = same kd KIp.
Proof. by rewrite /calls /= addn0. Qed.
Lemma val_Ret T (a : T) : val (Ret C N a) = Ok a. Proof. by []. Qed.
Lemma calls_Ret T kd (a : T) : calls l kd (Ret C N a) = 0%N. Proof. by []. Qed.

Lemma val_pMlAMr x : val (pMlAMr x) = Ok (lMlAMr l x).
Proof. by []. Qed.
End Exec.

(** The result of a program is the one of the model without calls. *)
Local Arguments norm : simpl never.
Section Erase.
Variable C : numClosedFieldType.
Variable N : nat.
Local Notation vec := 'cV[C]_N.
Variables (l : lsys C N) (o : opts C) (x0 : option vec).
Local Notation val := (pval l).

Definition out_of T (r : res (outcome C vec T)) : outcome C vec T :=
  match r with Ok s => s | Err e => Raises _ _ _ e end.

Lemma out_bind S T (r : res S) (f : S -> res (outcome C vec T)) :
  out_of (bind r f) = bindO r (fun a => out_of (f a)).
Proof. by case: r. Qed.

Lemma bindO_ext A T (r : res A) (f g : A -> outcome C vec T) :
  (forall a, r = Ok a -> f a = g a) -> bindO r f = bindO r g.
Proof. by case: r => //= a; apply. Qed.

Variable st : Type.
Variables (qstart : vec * vec * C -> vec -> prog C N st) (iter : st -> nat) (inv : st -> bool).
Variables (qstep : st -> prog C N (st * C)) (qgetx : st -> prog C N vec) (feed : st -> C -> st) (incr : bool).
Local Notation q := (PMethod qstart iter inv qstep qgetx feed incr).
Variables (r0 : option vec -> res C) (start : option vec -> vec -> res st) (step : st -> res (st * C)).
Variable getx : st -> res vec.
Variable getx0 : vec -> res vec.
Local Notation m := (Method r0 start iter inv step getx getx0 feed incr).

Definition ldE (bn : C) : ldata C N := LData (lMlb l) (lMMlb l) bn.

Lemma val_residual bn z : val (presidual (lb l) (ldE bn) z) = get_residual l bn z.
Proof.
by case: z => //= z; rewrite /pval /=; case: (norm _ _ (lB l)).
Qed.

Lemma val_linsys bn : lMMlb_norm l = Ok bn -> val (plinsys (lb l)) = Ok (ldE bn).
Proof. by move=> eb; rewrite /pval /= -/(lMlb l) -/(lMMlb l) -/(lMMlb_norm l) eb. Qed.

Local Arguments pbind : simpl never.
Local Arguments get_residual : simpl never.
Local Arguments presidual : simpl never.

Variable bn : C.
Local Notation ld := (ldE bn).
Hypothesis hr0 : r0 x0 = let! t := get_residual l bn x0 in Ok t.2.
Hypothesis hstart : forall x t, get_residual l bn x0 = Ok t -> val (qstart t x) = start x0 x.
Hypothesis hstep : forall t, val (qstep t) = step t.
Hypothesis hgetx : forall t, val (qgetx t) = getx t.
Hypothesis hgetx0 : forall x, getx0 x = Ok x.

Local Notation mloop := (loop (fun a b => b < a) (fun a b => a <= b) (fun a b => a / b) 0 (lsys_sys l bn) o (m := m)).
Local Notation mbody := (body (fun a b => b < a) (fun a b => a <= b) (fun a b => a / b) (lsys_sys l bn) o (m := m)).

Lemma body_val (s : sol C vec st) k k' : (forall s', out_of (val (k s')) = k' s') ->
  out_of (val (pbody (lb l) (lexact l) o (m := q) ld s k)) = mbody s k'.
Proof.
move=> hk; rewrite /pbody /body val_bind out_bind /= hstep.
apply: bindO_ext => -[t rn] _; rewrite /pfinalize /finalize_iteration val_bind out_bind /=.
have -> : val (if lexact l is Some e then
         pbind (qgetx t) (fun x => pbind (pnorm (e - x) None) (fun n => Ret C N (Some x, rcons (s_err s) n)))
       else Ret C N (None, s_err s)) =
   (if (if lexact l is Some e then Some (fun x => norm (e - x) None (lB l)) else None) is Some en then
           let! x := getx t in let! e := en x in Ok (Some x, rcons (s_err s) e)
         else Ok (None, s_err s)).
  case: (lexact l) => // e; rewrite val_bind hgetx; case: (getx t) => //= x.
  by rewrite val_bind val_pnorm.
apply: bindO_ext => -[xk err] _; case: ifP => _ //.
rewrite val_bind out_bind.
have -> : val (if xk is Some x then Ret C N x else qgetx t) = (if xk is Some x then Ok x else getx t).
  by case: xk.
apply: bindO_ext => x _; rewrite val_bind out_bind val_residual.
case: (get_residual l bn (Some x)) => [[[MMlr Mlr] n]|e] //=.
by case: (_ && _) => //; rewrite hk.
Qed.

Lemma loop_val f (s : sol C vec st) :
  out_of (val (ploop (lb l) (lexact l) o (m := q) ld f s)) = mloop f s.
Proof.
elim: f s => [|f IH] s /=; rewrite /pmore /more /=; case: ifP => // _; try by
  (case: (s_xk s) => // ; rewrite val_bind out_bind hgetx).
exact: body_val.
Qed.

Lemma run_val : lMMlb_norm l = Ok bn ->
  out_of (val (prun (lb l) (lexact l) o q x0)) =
  krun (lsys_sys l bn) o m x0.
Proof.
move=> eb; rewrite /prun val_bind (val_linsys eb) /=.
rewrite val_bind out_bind val_residual /krun /run /= hr0.
case E: (get_residual l bn x0) => [[[MMlr Mlr] n]|e] //=.
rewrite val_bind out_bind.
set x' := (if bn == 0 then _ else _).
have -> : val (if lexact l is Some e then pbind (pnorm (e - x') None) (fun n => Ret C N [:: n]) else Ret C N [::]) =
  (if (if lexact l is Some e then Some (fun x => norm (e - x) None (lB l)) else None) is Some en then
           let! x := getx0 x' in let! e := en x in Ok [:: e] else Ok [::]).
  by case: (lexact l) => // e; rewrite val_bind val_pnorm hgetx0.
apply: bindO_ext => err _; rewrite val_bind out_bind (hstart _ E).
by apply: bindO_ext => t _; apply: loop_val.
Qed.
(** The number of calls in the loop.  Without explicit_residual the residual is computed
    explicitly only in an iteration after which the loop stops. *)
Section Count.
Variables (Inv : st -> Prop) (Q : nat -> C -> Prop).
Hypothesis hit : forall t t' r, step t = Ok (t', r) -> iter t' = (iter t).+1.
Hypothesis hfi : forall t r, iter (feed t r) = iter t.
Hypothesis Hs : forall (t t' : st) r, Inv t -> inv t = false -> (iter t < o_maxiter o)%N ->
  step t = Ok (t', r) -> Inv t' /\ (inv t' = false \/ is_ok (getx t') -> Q (iter t') r).
Hypothesis Hx : forall (t : st) x r, Inv t -> (0 < iter t)%N ->
  getx t = Ok x -> y_resnorm (lsys_sys l bn) x = Ok r -> Q (iter t) r /\ Inv (feed t r).
Hypothesis Qu : forall n r r', Q n r -> Q n r' -> r = r'.
Variables (kd : kind) (cs : nat -> nat).
Hypothesis hcs : forall t t' r, step t = Ok (t', r) -> calls l kd (qstep t) = cs (iter t).
Hypothesis hcx : forall t, (0 < iter t)%N -> is_ok (getx t) -> calls l kd (qgetx t) = same kd KMr.

Local Notation cres := (residual_calls kd).
Lemma calls_residual d z : calls l kd (presidual (lb l) d (Some z)) = cres.
Proof.
by rewrite /calls /cres /presidual /=; case: (norm _ _ _) => [n|e] /=; rewrite addn0 !addnA.
Qed.

Lemma calls_linsys : calls l kd (plinsys (lb l)) = (same kd KMl + same kd KM + same kd KIp)%N.
Proof. by rewrite /calls /=; case: (norm _ _ _) => [n|e] /=; rewrite addn0 !addnA. Qed.

Local Notation ploop := (ploop (lb l) None o (m := q) ld).

Definition fin (s : sol C vec st) : bool := (last 0 (s_res s) <= o_tol o) || (iter (s_st s) == o_maxiter o).

Lemma lp_calls f (s s' : sol C vec st) : o_explicit o = false -> Inv (s_st s) -> s_xk s = None ->
  pmore o (m := q) s -> of_run (out_of (val (ploop f s))) s' ->
  (iter (s_st s) < iter (s_st s'))%N /\
  calls l kd (ploop f s) =
    (\sum_(iter (s_st s) <= i < iter (s_st s')) cs i + same kd KMr + (if fin s' then cres else 0))%N.
Proof.
move=> ne; elim: f s => [|f IH] s hi hk hm /=; rewrite hm; first by case.
rewrite /pbody calls_bind val_bind out_bind /= hstep.
case Es: (step (s_st s)) => [[t rn]|e] /=; last by case.
case/and3P: (hm) => _ mlt /negbTE minv.
have [it hq] := Hs hi minv mlt Es; have ei := hit Es; rewrite (hcs Es).
rewrite /pfinalize !pbindR /= ne orFb.
case: ifP => [hc|/norP[hc1 hc2]].
  rewrite calls_bind val_bind out_bind hgetx.
  case Ex: (getx t) => [x|e] /=; last by case.
  have ti : (0 < iter t)%N by rewrite ei.
  rewrite (hcx ti) ?Ex // calls_bind val_bind out_bind val_residual calls_residual.
  case Er: (get_residual l bn (Some x)) => [[[MMlr Mlr] n]|e] /=; last by case.
  have Er' : y_resnorm (lsys_sys l bn) x = Ok n by rewrite /= Er.
  have [q2 _] := Hx it ti Ex Er'.
  have en : rn = n by apply: Qu q2; apply: hq; right; rewrite Ex.
  case: ifP => [/andP[_ hl]|_].
    move=> [//|[<-]] /=; rewrite ei; split=> //; rewrite big_nat1 /fin /= ei.
    by rewrite hl orbT addn0 addnA.
  set s1 := pwith_st _ _ _.
  have -> : ploop f s1 = Ret C N (Returns s1).
    suff nm : pmore o (m := q) s1 = false by case: (f) => [|f'] /=; rewrite nm.
    rewrite /pmore /= last_rcons hfi ei -en; case/orP: hc => hc.
      by rewrite le_gtF.
    by rewrite (eqP hc) ltnn andbF.
  move=> [[<-]|//]; rewrite /= hfi ei; split=> //; rewrite big_nat1.
  suff -> : fin s1 by rewrite calls_Ret addn0 addnA.
  by rewrite /fin /= last_rcons hfi ei -en.
set s1 := pwith_st _ _ _.
case hm1: (pmore o (m := q) s1).
  move=> /(IH s1 it erefl hm1) [/= h1 ->]; rewrite ei in h1 *.
  by split; [apply: ltn_trans h1|rewrite [in RHS]big_ltn ?addnA // (ltn_trans _ h1)].
have -> : ploop f s1 = pbind (qgetx t) (fun x =>
    Ret C N (Returns (Sol t (s_iter s1) (s_x0 s1) (Some x) (s_res s1) (s_err s1)))).
  by case: (f) => [|f'] /=; rewrite hm1.
rewrite calls_bind val_bind out_bind hgetx; case Ex: (getx t) => [x|e] /=; last by case.
move=> [[<-]|//] /=; rewrite ei; split=> //; rewrite big_nat1 hcx ?Ex ?ei // addn0.
by rewrite /fin /= last_rcons ei (negbTE hc1) (negbTE hc2) addn0.
Qed.

(** With explicit_residual every iteration computes the residual explicitly. *)
Lemma lp_calls_explicit f (s s' : sol C vec st) : o_explicit o -> pmore o (m := q) s ->
  of_run (out_of (val (ploop f s))) s' ->
  (iter (s_st s) < iter (s_st s'))%N /\
  calls l kd (ploop f s) =
    (\sum_(iter (s_st s) <= i < iter (s_st s')) (cs i + same kd KMr + cres))%N.
Proof.
move=> ne; elim: f s => [|f IH] s hm /=; rewrite hm; first by case.
rewrite /pbody calls_bind val_bind out_bind /= hstep.
case Es: (step (s_st s)) => [[t rn]|e] /=; last by case.
have ei := hit Es; rewrite (hcs Es).
rewrite /pfinalize !pbindR /= ne orTb.
rewrite calls_bind val_bind out_bind hgetx.
case Ex: (getx t) => [x|e] /=; last by case.
have ti : (0 < iter t)%N by rewrite ei.
rewrite (hcx ti) ?Ex // calls_bind val_bind out_bind val_residual calls_residual.
case Er: (get_residual l bn (Some x)) => [[[MMlr Mlr] n]|e] /=; last by case.
case: ifP => [/andP[_ hl]|_].
  by move=> [//|[<-]] /=; rewrite ei; split=> //; rewrite big_nat1 addn0 addnA.
set s1 := pwith_st _ _ _.
case hm1: (pmore o (m := q) s1); last first.
  have -> : ploop f s1 = Ret C N (Returns s1) by case: (f) => [|f'] /=; rewrite hm1.
  by move=> [[<-]|//]; rewrite /= hfi ei; split=> //; rewrite big_nat1 calls_Ret addn0 addnA.
move=> /(IH s1 hm1) [/= h1 ->]; rewrite hfi ei in h1 *.
by split; [apply: ltn_trans h1|rewrite [in RHS]big_ltn ?addnA // (ltn_trans _ h1)].
Qed.
Hypothesis hcst : forall r x, calls l kd (qstart r x) = 0%N.
Hypothesis H0 : forall x t, start x0 x = Ok t -> iter t = 0%N.
Hypothesis H0i : forall t, start x0 (if x0 is Some x then x else 0) = Ok t -> Inv t.
Hypothesis nb : bn != 0.
Hypothesis eb : lMMlb_norm l = Ok bn.
Hypothesis hex : lexact l = None.

Local Notation c0 := (setup_calls kd x0).

Lemma calls_res0 : calls l kd (presidual (lb l) ld x0) = (if x0 is Some _ then cres else 0%N).
Proof. by case: x0 => [x|] //; rewrite calls_residual. Qed.

Lemma start_calls s' : of_run (out_of (val (prun (lb l) (lexact l) o q x0))) s' ->
  exists s : sol C vec st, [/\ Inv (s_st s), s_xk s = None, iter (s_st s) = 0%N,
    of_run (out_of (val (ploop (o_maxiter o) s))) s'
  & calls l kd (prun (lb l) (lexact l) o q x0) = (c0 + calls l kd (ploop (o_maxiter o) s))%N].
Proof.
rewrite /prun hex val_bind calls_bind calls_linsys (val_linsys eb) /=.
rewrite val_bind out_bind calls_bind calls_res0 val_residual.
case Er: (get_residual l bn x0) => [t|e] /=; last by case.
rewrite !pbindR (negbTE nb) val_bind out_bind calls_bind hcst (hstart _ Er).
case Es: (start x0 _) => [t'|e] /=; last by case.
move=> h; eexists; split; [| | |exact: h|] => //=; first exact: H0i Es.
  exact: H0 Es.
by rewrite add0n /setup_calls !addnA; case: x0.
Qed.

Lemma run_calls (s' : sol C vec st) : o_explicit o = false ->
  of_run (out_of (val (prun (lb l) (lexact l) o q x0))) s' -> (0 < iter (s_st s'))%N ->
  calls l kd (prun (lb l) (lexact l) o q x0) =
    (c0 + (\sum_(0 <= i < iter (s_st s')) cs i + same kd KMr + (if fin s' then cres else 0)))%N.
Proof.
move=> ne /start_calls[s [hi hk it hr ->]] n0; congr (_ + _)%N.
case hm: (pmore o (m := q) s); first by have [_ ->] := lp_calls ne hi hk hm hr; rewrite it.
move: hr n0; suff : of_run (out_of (val (ploop (o_maxiter o) s))) s' -> iter (s_st s') = 0%N.
  by move=> h /h ->.
case: (o_maxiter o) => [|f] /=; rewrite hm hk val_bind out_bind hgetx;
  by case: (getx _) => [x|e] /= [] // [<-].
Qed.

Lemma run_calls0 (s' : sol C vec st) (w : nat) : (forall t, iter t = 0%N -> calls l kd (qgetx t) = w) ->
  of_run (out_of (val (prun (lb l) (lexact l) o q x0))) s' -> iter (s_st s') = 0%N ->
  calls l kd (prun (lb l) (lexact l) o q x0) = (c0 + w)%N.
Proof.
move=> hw /start_calls[s [hi hk it hr ->]] n0; congr (_ + _)%N.
case hm: (pmore o (m := q) s).
  case ne: (o_explicit o).
    by have [] := lp_calls_explicit ne hm hr; rewrite n0 ltn0.
  by have [] := lp_calls ne hi hk hm hr; rewrite n0 ltn0.
case: (o_maxiter o) hr => [|f] /=; rewrite hm hk calls_bind0 // hw //.
Qed.

Lemma run_calls_explicit (s' : sol C vec st) : o_explicit o ->
  of_run (out_of (val (prun (lb l) (lexact l) o q x0))) s' -> (0 < iter (s_st s'))%N ->
  calls l kd (prun (lb l) (lexact l) o q x0) =
    (c0 + \sum_(0 <= i < iter (s_st s')) (cs i + same kd KMr + cres))%N.
Proof.
move=> ne /start_calls[s [hi hk it hr ->]] n0; congr (_ + _)%N.
case hm: (pmore o (m := q) s); first by have [_ ->] := lp_calls_explicit ne hm hr; rewrite it.
move: hr n0; suff : of_run (out_of (val (ploop (o_maxiter o) s))) s' -> iter (s_st s') = 0%N.
  by move=> h /h ->.
case: (o_maxiter o) => [|f] /=; rewrite hm hk val_bind out_bind hgetx;
  by case: (getx _) => [x|e] /= [] // [<-].
Qed.

Lemma run_counts w (s' : sol C vec st) : (forall t, iter t = 0%N -> calls l kd (qgetx t) = w) ->
  of_run (out_of (val (prun (lb l) (lexact l) o q x0))) s' ->
  calls l kd (prun (lb l) (lexact l) o q x0) =
    (c0 + loop_calls kd cs w (o_explicit o) (fin s') (iter (s_st s')))%N.
Proof.
rewrite /loop_calls => hw h; case: ifP => [/eqP n0|n0]; first exact: run_calls0 h n0.
have {}n0 : (0 < iter (s_st s'))%N by rewrite lt0n n0.
by case e: (o_explicit o); [apply: run_calls_explicit|apply: run_calls].
Qed.
End Count.
End Erase.

(** Arnoldi *)
Section Arnoldi.
Variable C : numClosedFieldType.
Variable N : nat.
Local Notation vec := 'cV[C]_N.
Variable snorm : nat -> nat -> (nat -> nat -> C) -> C.
Variables (l : lsys C N) (maxiter : nat) (ortho : ortho_t).
Local Notation val := (pval l).
Local Notation calls := (calls l).
Local Notation c := (ACfg (lMlAMr l) (lM l) (lB l) ortho maxiter).

Lemma val_pfor S a n (body : nat -> S -> prog C N S) f s :
  (forall j t, val (body j t) = Ok (f j t)) -> val (pfor a n body s) = Ok (forrange a n f s).
Proof. by move=> h; elim: n => //= n IH; rewrite val_bind IH /= h. Qed.

Lemma calls_pfor S a n (body : nat -> S -> prog C N S) f s kd w :
  (forall j t, val (body j t) = Ok (f j t)) -> (forall j t, calls kd (body j t) = w) ->
  calls kd (pfor a n body s) = (n * w)%N.
Proof.
move=> h h'; elim: n => //= n IH; rewrite calls_bind IH.
by rewrite (val_pfor _ _ _ h) h' mulSn addnC.
Qed.

Lemma natcase T (x y : T) : (if N is 0 then x else y) = if N == 0%N then x else y.
Proof. by case: N. Qed.

Local Arguments norm : simpl never.
Lemma val_parn_init v Mv nr : val (parn_init (lM l) (is_none (lB l)) ortho v Mv nr) =
  arn_init c v (Some Mv) (Some nr).
Proof.
rewrite /parn_init /arn_init /=; case: ortho => //=; rewrite /init_gs /init_house /=; case: (lM l) => [M|] //=.
- by case e: (0 < nr) => /=; rewrite e.
- by case e: (0 < nr) => /=; rewrite e.
- by case e: (0 < nr) => /=; rewrite e.
- by case: (lB l) => //=; rewrite !natcase; case: (N == 0%N).
Qed.

Lemma calls_parn_init v Mv nr kd : calls kd (parn_init (lM l) (is_none (lB l)) ortho v Mv nr) = 0%N.
Proof.
by rewrite /parn_init; case: ortho => //; case: ifP => // _; rewrite natcase; case: (N == 0%N).
Qed.

Local Arguments pbind : simpl never.
Local Arguments orth_body : simpl never.

Local Arguments pfor : simpl never.
Local Arguments forn : simpl never.
Local Arguments forrange : simpl never.
Local Arguments invariant_test : simpl never.

Definition orth_prog (a : arn C N) (W : nat -> vec) : nat -> (nat -> nat -> C) * vec -> prog C N ((nat -> nat -> C) * vec) :=
  fun j '(H, Av) =>
    pbind (pinner (a_V a j) Av) (fun alpha =>
      let alpha := if is_lanczos ortho then 'Re alpha else alpha in
      Ret C N (upd2 H j (a_iter a) (H j (a_iter a) + alpha), Av - alpha *: W j)).

Lemma val_orth a j t : val (orth_prog a (sub_basis c (a_V a) (a_P a)) j t) =
  Ok (orth_body c (a_V a) (a_P a) (a_iter a) j t).
Proof. by case: t. Qed.

Lemma calls_orth a W kd j t : calls kd (orth_prog a W j t) = same kd KIp.
Proof. by case: t => H Av; rewrite calls_bind calls_pinner /= addn0. Qed.

Definition orth_loop a W st n t := pfor 0 (reorthos ortho).+1 (fun _ => pfor st n (orth_prog a W)) t.

Lemma val_orth_loop a st n t : val (orth_loop a (sub_basis c (a_V a) (a_P a)) st n t) =
  Ok (forn (reorthos ortho).+1 (fun _ s => forrange st n (orth_body c (a_V a) (a_P a) (a_iter a)) s) t).
Proof.
by rewrite /orth_loop; apply: (@val_pfor _ 0%N _ _ (fun _ s => forrange st n (orth_body c (a_V a) (a_P a) (a_iter a)) s)) => _ s; apply: val_pfor; apply: val_orth.
Qed.

Lemma calls_orth_loop a st n t kd :
  calls kd (orth_loop a (sub_basis c (a_V a) (a_P a)) st n t) = ((reorthos ortho).+1 * (n * same kd KIp))%N.
Proof.
rewrite /orth_loop; apply: (@calls_pfor _ 0%N _ _ (fun _ s => forrange st n (orth_body c (a_V a) (a_P a) (a_iter a)) s)) => _ s.
  by apply: val_pfor; apply: val_orth.
by apply: (@calls_pfor _ _ _ _ (orth_body c (a_V a) (a_P a) (a_iter a))) => [j t'|j t']; [apply: val_orth|apply: calls_orth].
Qed.

Definition adv_start (a : arn C N) : nat := if is_lanczos ortho then a_iter a else 0%N.

Lemma val_M Av : val (if lM l then app OpM Av else Ret C N Av) = Ok (if lM l is Some M then M Av else Av).
Proof. by rewrite (fun_if (@pval _ _ l _)) val_app /= /lMop; case: (lM l). Qed.

Lemma calls_M Av kd : calls kd (if lM l then app OpM Av else Ret C N Av) = (lM l * same kd KM)%N.
Proof.
case: (isSome (lM l)); last by rewrite calls_Ret mul0n.
by rewrite calls_app mul1n.
Qed.

Lemma val_padvance_gs a : val (padvance_gs (lM l) snorm ortho a) = advance_gs snorm c a.
Proof.
rewrite /padvance_gs /advance_gs val_bind val_pMlAMr /=.
have eW : (if lM l then a_P a else a_V a) = sub_basis c (a_V a) (a_P a) by rewrite /sub_basis /=; case: (lM l).
rewrite eW; case: (if _ && _ then _ else _) => H Av.
rewrite val_bind -/(orth_loop a (sub_basis c (a_V a) (a_P a)) _ _ _) val_orth_loop /=.
case: (forn _ _ _) => {}H {}Av; rewrite val_bind val_M /= val_bind val_pnorm.
set MAv := (if lM l is Some M then M Av else Av).
have -> : norm Av (if lM l then Some MAv else None) (lB l) =
    (if lM l is Some _ then norm Av (Some MAv) (lB l) else norm Av None (lB l)) by case: (lM l).
case: (match lM l with Some _ => _ | None => _ end) => //= nrm.
rewrite val_bind val_lift; case: (invariant_test _ _ _) => //= -[|] //.
by case: ifP => // _; case: (lM l).
Qed.

Lemma calls_padvance_gs a kd : calls kd (padvance_gs (lM l) snorm ortho a) =
  (same kd KMr + same kd KA + same kd KMl + (reorthos ortho).+1 * (((a_iter a).+1 - adv_start a) * same kd KIp)
   + lM l * same kd KM + same kd KIp)%N.
Proof.
rewrite /padvance_gs calls_bind val_pMlAMr.
have -> : calls kd (pMlAMr (a_V a (a_iter a))) = (same kd KMr + same kd KA + same kd KMl)%N.
  by rewrite /Calls.calls /= addn0 addnA.
rewrite -!addnA; do 3!congr (_ + _)%N; rewrite !addnA.
have eW : (if lM l then a_P a else a_V a) = sub_basis c (a_V a) (a_P a) by rewrite /sub_basis /=; case: (lM l).
rewrite eW; case: (if _ && _ then _ else _) => H Av.
rewrite calls_bind -/(orth_loop a (sub_basis c (a_V a) (a_P a)) _ _ _) val_orth_loop calls_orth_loop.
case: (forn _ _ _) => {}H {}Av; rewrite -!addnA; congr (_ + _)%N.
rewrite calls_bind val_M /= calls_M; apply/eqP; rewrite eqn_add2l; apply/eqP.
rewrite calls_bind0 ?calls_pnorm // => nrm _; rewrite calls_bind0 ?calls_lift // => -[|] _ //.
by case: ifP.
Qed.
Lemma val_padvance a : val (padvance (lM l) snorm maxiter ortho a) = advance snorm c a.
Proof.
rewrite /padvance /advance /=; case: ifP => // _; case: ifP => // _.
case e: ortho; rewrite -?e ?val_padvance_gs //.
by rewrite val_bind val_pMlAMr /= val_lift.
Qed.

Lemma calls_padvance a a' kd : advance snorm c a = Ok a' ->
  calls kd (padvance (lM l) snorm maxiter ortho a) = arnoldi_calls kd (lM l) ortho (a_iter a).
Proof.
rewrite /padvance /advance /arnoldi_calls /=; case: ifP => // _; case: ifP => // _ _.
have gs : (((a_iter a).+1 - adv_start a) = if is_lanczos ortho then 1 else (a_iter a).+1)%N.
  by rewrite /adv_start; case: ifP => _; rewrite ?subSnn ?subn0.
case e: ortho; rewrite -?e ?calls_padvance_gs ?gs ?e /= ?mul1n ?addnA //.
rewrite calls_bind0 ?calls_lift // => [|Av _]; last exact: calls_lift.
by rewrite /Calls.calls /= !addn0 addnA.
Qed.
End Arnoldi.

(** The results of the programs *)
Section Faithful.
Variable C : numClosedFieldType.
Variable N : nat.
Local Notation vec := 'cV[C]_N.
Variable snorm : nat -> nat -> (nat -> nat -> C) -> C.
Variables (l : lsys C N) (o : opts C).
Local Notation val := (pval l).

Lemma run_raise m x0 e : lMMlb_norm l = Err e -> out_of (val (prun (lb l) (lexact l) o m x0)) = Raises _ _ _ e.
Proof.
move=> eb; rewrite /prun val_bind; have -> : val (plinsys (lb l)) = Err e; last by [].
by rewrite /pval /= -/(lMlb l) -/(lMMlb l) -/(lMMlb_norm l) eb.
Qed.

Section Gm.
Variable ortho : ortho_t.
Local Notation cfg bn := (k_cfg (kdata_lsys l bn) (o_maxiter o) ortho).

Lemma val_gm_start bn x0 x t : get_residual l bn x0 = Ok t ->
  val (q_start (pgmres N (lM l) (is_none (lB l)) snorm (o_maxiter o) ortho) t x) =
  gmres_start (kdata_lsys l bn) (o_maxiter o) ortho x0 x.
Proof.
case: t => [[MMlr Mlr] n] Er; rewrite /gmres_start /k_arn /= Er /= val_bind (val_parn_init _ (o_maxiter o)).
by case: (arn_init _ _ _ _).
Qed.

Lemma val_gm_step bn t : val (q_step (p := pgmres N (lM l) (is_none (lB l)) snorm (o_maxiter o) ortho) t) =
  gmres_step snorm (kdata_lsys l bn) (o_maxiter o) ortho t.
Proof. by rewrite /gmres_step /= val_bind val_padvance; case: (advance _ _ _). Qed.

Lemma val_gm_getx bn t : val (q_getx (p := pgmres N (lM l) (is_none (lB l)) snorm (o_maxiter o) ortho) t) =
  gmres_getx (kdata_lsys l bn) t.
Proof.
rewrite /gmres_getx /=; case: ifP => // _; rewrite val_bind val_lift.
by case: (solve_tri _ _ _) => //= yy.
Qed.

Lemma gmres_val x0 : out_of (val (gmres_prog snorm l o ortho x0)) = gmres_solve snorm l o ortho x0.
Proof.
rewrite /gmres_prog /gmres_solve; case eb: (lMMlb_norm l) => [bn|e]; last exact: run_raise.
rewrite /bindO; apply: run_val => //.
- by move=> x t; apply: val_gm_start.
- by move=> t; apply: (val_gm_step bn).
- by move=> t; apply: (val_gm_getx bn).
Qed.

Lemma val_mr_start bn x0 x t : get_residual l bn x0 = Ok t ->
  val (q_start (pminres N (lM l) (is_none (lB l)) snorm (o_maxiter o) ortho) t x) =
  minres_start (kdata_lsys l bn) (o_maxiter o) ortho x0 x.
Proof.
case: t => [[MMlr Mlr] n] Er; rewrite /minres_start /k_arn /= Er /= val_bind (val_parn_init _ (o_maxiter o)).
by case: (arn_init _ _ _ _).
Qed.

Lemma val_mr_step bn t : val (q_step (p := pminres N (lM l) (is_none (lB l)) snorm (o_maxiter o) ortho) t) =
  minres_step snorm (kdata_lsys l bn) (o_maxiter o) ortho t.
Proof.
rewrite /minres_step /= val_bind val_padvance; case: (advance _ _ _) => //= a.
case: (if mr_G1 t is Some g then _ else _) => R0 R1; case: (if mr_G2 t is Some g then _ else _) => R1' R2.
by set g := mk_givens _ _; case: (givens_apply g (mr_y t) 0) => y0 y1; case: ifP.
Qed.

Lemma val_mr_getx bn t : val (q_getx (p := pminres N (lM l) (is_none (lB l)) snorm (o_maxiter o) ortho) t) =
  minres_getx (kdata_lsys l bn) t.
Proof. by []. Qed.

Lemma minres_val x0 : out_of (val (minres_prog snorm l o ortho x0)) = minres_solve snorm l o ortho x0.
Proof.
rewrite /minres_prog /minres_solve; case eb: (lMMlb_norm l) => [bn|e]; last exact: run_raise.
rewrite /bindO; apply: run_val => //.
- by move=> x t; apply: val_mr_start.
- by move=> t; apply: (val_mr_step bn).
Qed.
End Gm.

Section CgS.
Local Arguments pbind : simpl never.
Local Arguments pnorm : simpl never.
Local Arguments app : simpl never.
Variable store : bool.

Lemma val_cg_start bn x0 x t : get_residual l bn x0 = Ok t ->
  val (q_start (@pcg C N (lM l) store) t x) = cg_start (kdata_lsys l bn) store x0 x.
Proof. by case: t => [[MMlr Mlr] n] Er; rewrite /cg_start /= Er. Qed.

Lemma val_cg_step bn t : val (q_step (p := @pcg C N (lM l) store) t) = cg_step (kdata_lsys l bn) store t.
Proof.
rewrite /cg_step /= val_bind val_lift; case: (if _ then _ else _) => //= omega.
rewrite val_bind val_pMlAMr /= val_bind val_pinner /= val_bind val_lift.
case: (divE _ _) => //= alpha; rewrite val_bind val_lift; case: (if store then _ else _) => //= H.
rewrite val_bind val_app /= val_bind val_pnorm.
have -> : lMop l = k_Mop (kdata_lsys l bn) by [].
case: (norm _ _ _) => //= nr; rewrite val_bind val_lift.
by case: (if store then _ else _) => [[[V P] H']|e].
Qed.

Lemma cg_val x0 : out_of (val (cg_prog l o store x0)) = cg_solve l o store x0.
Proof.
rewrite /cg_prog /cg_solve; case eb: (lMMlb_norm l) => [bn|e]; last exact: run_raise.
rewrite /bindO; apply: run_val => //.
- by move=> x t; apply: val_cg_start.
- by move=> t; apply: (val_cg_step bn).
Qed.
End CgS.
End Faithful.

(** The number of calls of the three methods *)
Section Counts.
Local Arguments pbind : simpl never.
Local Arguments pnorm : simpl never.
Local Arguments app : simpl never.
Variable C : numClosedFieldType.
Variable N : nat.
Local Notation vec := 'cV[C]_N.
Variable snorm : nat -> nat -> (nat -> nat -> C) -> C.
Variables (l : lsys C N) (o : opts C) (x0 : option vec).
Hypothesis hl : lsys_ok l.
Hypothesis hex : lexact l = None.
Hypothesis nb : rhs_norm l != 0.
Local Notation bn := (rhs_norm l).
Local Notation d := (kdata_lsys l bn).
Local Notation r0 := (resid l (x0_of x0)).
Let hd := lsys_kd hl x0.
Let eb := bnorm_ok hl.

Section Gm.
Variable ortho : ortho_t.
Hypothesis ho : ortho_ok l ortho.
Let hc := lsys_cfg hl (o_maxiter o) bn ho.
Local Notation gm := (gmres snorm d (o_maxiter o) ortho).
Local Notation ginv := (gm_inv d x0 r0 (o_maxiter o) snorm ortho).

Lemma gm_calls_getx kd t : is_ok (gmres_getx d t) ->
  calls l kd (q_getx (p := pgmres N (lM l) (is_none (lB l)) snorm (o_maxiter o) ortho) t) =
  if (0 < a_iter (gm_a t))%N then nat_of_bool (same kd KMr) else 0%N.
Proof.
rewrite /gmres_getx /=; case: ifP => // _; rewrite calls_bind calls_lift val_lift.
by case: (solve_tri _ _ _) => //= yy _; rewrite calls_bind0 ?calls_app.
Qed.

Lemma gm_calls_step kd t t' r : gmres_step snorm d (o_maxiter o) ortho t = Ok (t', r) ->
  calls l kd (q_step (p := pgmres N (lM l) (is_none (lB l)) snorm (o_maxiter o) ortho) t) =
  arnoldi_calls kd (lM l) ortho (a_iter (gm_a t)).
Proof.
rewrite /gmres_step /=; case E: (advance _ _ _) => [a|e] //= _.
by rewrite calls_bind0 ?(calls_padvance _ E).
Qed.

Lemma gmres_counts kd s : of_run (gmres_solve snorm l o ortho x0) s ->
  calls l kd (gmres_prog snorm l o ortho x0) =
    (setup_calls kd x0 + loop_calls kd (arnoldi_calls kd (lM l) ortho) 0 (o_explicit o)
       (fin o (fun t => a_iter (gm_a t)) s) (a_iter (gm_a (s_st s))))%N.
Proof.
rewrite -gmres_val => hr.
apply: (@run_counts C N l o x0 _ _ (fun t => a_iter (gm_a t)) (fun t => a_inv (gm_a t)) _ _ (fun t _ => t) false
  (gmres_start d (o_maxiter o) ortho) (gmres_step snorm d (o_maxiter o) ortho) (gmres_getx d) bn _ _ _
  ginv (min_res d r0) _ _ _ _ _ kd (arnoldi_calls kd (lM l) ortho)) => //.
- by move=> x t; apply: val_gm_start.
- by move=> t; apply: val_gm_step.
- by move=> t; apply: val_gm_getx.
- exact: (gm_step (gmres_good d (o_maxiter o) snorm ortho)).
- move=> t t' r i1 i2 _ E; have [j1 j2 ->] := gm_step_inv hd hc i1 i2 E; split=> // j3.
  by apply: (gm_step_min hd j1) => //; rewrite j2.
- move=> t x r i1 _ E Er; split=> //; have [z h1 h2] := gm_getx_min hd i1 E; exists z => //.
  by have [x' h3] := ko_fix hd z; move: h3; rewrite h2 => -[<-]; rewrite Er => -[].
- by move=> n r r'; apply: min_res_unique.
- by move=> t t' r; apply: gm_calls_step.
- by move=> t n1 h; rewrite gm_calls_getx // n1.
- by move=> [[MMlr Mlr] nr] x; rewrite /= calls_bind0 ?calls_parn_init.
- exact: (gm_start (gmres_good d (o_maxiter o) snorm ortho)).
- exact: (gm_start_inv snorm hd hc).
- by move=> t /= ->.
Qed.

(** MINRES *)
Section Mr.
Hypothesis hsa : self_adjoint (ip1 (lB l)) (lMlAMr l).
Local Notation minv := (mr_inv d x0 r0 (o_maxiter o) snorm ortho).

Lemma mr_calls_step kd t t' r : minres_step snorm d (o_maxiter o) ortho t = Ok (t', r) ->
  calls l kd (q_step (p := pminres N (lM l) (is_none (lB l)) snorm (o_maxiter o) ortho) t) =
  arnoldi_calls kd (lM l) ortho (a_iter (mr_a t)).
Proof.
rewrite /minres_step /=; case E: (advance _ _ _) => [a|e] //= _.
rewrite calls_bind0 ?(calls_padvance _ E) // => a' _.
case: (if mr_G1 t is Some g then _ else _) => R0 R1; case: (if mr_G2 t is Some g then _ else _) => R1' R2.
by set g := mk_givens _ _; case: (givens_apply g (mr_y t) 0) => y0 y1; case: ifP.
Qed.

Lemma minres_counts kd s : of_run (minres_solve snorm l o ortho x0) s ->
  calls l kd (minres_prog snorm l o ortho x0) =
    (setup_calls kd x0 + loop_calls kd (arnoldi_calls kd (lM l) ortho) (same kd KMr) (o_explicit o)
       (fin o (fun t => a_iter (mr_a t)) s) (a_iter (mr_a (s_st s))))%N.
Proof.
rewrite -minres_val => hr.
have cx t : calls l kd (q_getx (p := pminres N (lM l) (is_none (lB l)) snorm (o_maxiter o) ortho) t) = same kd KMr.
  by rewrite /= calls_bind0 ?calls_app.
apply: (@run_counts C N l o x0 _ _ (fun t => a_iter (mr_a t)) (fun t => a_inv (mr_a t)) _ _ (fun t _ => t) false
  (minres_start d (o_maxiter o) ortho) (minres_step snorm d (o_maxiter o) ortho) (minres_getx d) bn _ _ _
  minv (min_res d r0) _ _ _ _ _ kd (arnoldi_calls kd (lM l) ortho)) => //.
- by move=> x t; apply: val_mr_start.
- by move=> t; apply: val_mr_step.
- exact: (gm_step (minres_good d (o_maxiter o) snorm ortho)).
- move=> t t' r i1 i2 _ E; have [j1 j2 ->] := mr_step_inv hd hc hsa i1 i2 E; split=> // _.
  exact: (mr_min_res hd j1).
- move=> t x r i1 _; rewrite /minres_getx (mr_x0E i1) => E Er; split=> //.
  have [k1 k2] := mr_min hd i1; eexists; first exact: k1.
  by have [x' h3] := ko_fix hd (mr_yk t); move: h3; rewrite E => -[<-]; rewrite Er => -[].
- by move=> n r r'; apply: min_res_unique.
- by move=> t t' r; apply: mr_calls_step.
- by move=> t _ _; apply: cx.
- by move=> [[MMlr Mlr] nr] x; rewrite /= calls_bind0 ?calls_parn_init.
- exact: (gm_start (minres_good d (o_maxiter o) snorm ortho)).
- exact: (mr_start_inv snorm hd hc).
- by move=> t _; apply: cx.
Qed.
End Mr.
End Gm.

(** CG *)
Section CgC.
Variable store : bool.
Hypothesis hs : cg_spd (ip1 (lB l)) (lMlAMr l) r0.
Local Notation cnr := (cnr (ip1 (lB l)) (lMlAMr l) (k_Mop d) r0).

Lemma cg_calls_step kd t t' r : cg_step d store t = Ok (t', r) ->
  calls l kd (q_step (p := @pcg C N (lM l) store) t) = cg_calls kd.
Proof.
rewrite /cg_step /= calls_bind calls_lift val_lift; case: (if _ then _ else _) => //= omega.
rewrite calls_bind val_pMlAMr calls_bind val_pinner calls_bind calls_pinner calls_lift val_lift.
have -> : forall x, calls l kd (pMlAMr x) = (same kd KMr + same kd KA + same kd KMl)%N.
  by move=> x; rewrite /calls /= addn0 addnA.
case: (divE _ _) => //= alpha; rewrite calls_bind calls_lift val_lift; case: (if store then _ else _) => //= H.
rewrite calls_bind val_app calls_app /= calls_bind val_pnorm calls_pnorm.
have -> : lMop l = k_Mop d by [].
case: (norm _ _ _) => //= nr; rewrite calls_bind calls_lift val_lift.
case: (if store then _ else _) => [[[V P] H']|e] //= _.
by rewrite calls_Ret /cg_calls !add0n !addn0 mul2n -addnn !addnA -!addnA [(same kd KIp + (same kd KM + _))%N]addnCA.
Qed.

Lemma cg_counts kd s : of_run (cg_solve l o store x0) s ->
  calls l kd (cg_prog l o store x0) =
    (setup_calls kd x0 + loop_calls kd (fun _ => cg_calls kd) (same kd KMr) (o_explicit o)
       (fin o (@cg_it C N) s) (cg_it (s_st s)))%N.
Proof.
rewrite -cg_val => hr.
have cx t : calls l kd (q_getx (p := @pcg C N (lM l) store) t) = same kd KMr.
  by rewrite /= calls_bind0 ?calls_app.
have gx t x : cg_ok d x0 r0 store t -> cg_getx d t = Ok x ->
   k_fix d (x0_of x0 + k_Mr d (cy (ip1 (lB l)) (lMlAMr l) (k_Mop d) r0 (cg_it t))) = Ok x.
  by move=> i1; rewrite /= /cg_getx (ci_x0 i1) (ci_y i1).
apply: (@run_counts C N l o x0 _ _ (@cg_it C N) (fun _ => false) _ _ (@cg_feed C N) true
  (cg_start d store) (cg_step d store) (cg_getx d) bn _ _ _
  (cg_ok d x0 r0 store) (fun i r => r = cnr i) _ _ _ _ _ kd (fun _ => cg_calls kd)) => //.
- by move=> x t; apply: val_cg_start.
- by move=> t; apply: val_cg_step.
- exact: (gm_step (cg_good d store)).
- by move=> t t' r i1 i2 _ E; have [j1 j2 j3] := cg_step_inv hd hs i1 E.
- move=> t x r i1 _ /(gx _ _ i1) E Er.
  have e : r = cnr (cg_it t).
    have [x' h3] := ko_fix hd (cy (ip1 (lB l)) (lMlAMr l) (k_Mop d) r0 (cg_it t)).
    move: h3; rewrite E => -[<-]; rewrite Er => -[->].
    by rewrite -(cr_res (ip1 (lB l)) (k_Mop d) r0 (ko_A hd)).
  by split=> //; apply: cg_feed_inv.
- by move=> n r r' -> ->.
- by move=> t t' r; apply: cg_calls_step.
- by move=> t _ _; apply: cx.
- by move=> [[MMlr Mlr] nr] x.
- exact: (gm_start (cg_good d store)).
- exact: (cg_start_inv hd).
- by move=> t _; apply: cx.
Qed.
End CgC.
End Counts.
