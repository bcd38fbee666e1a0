(** Proofs about the solver skeleton. *)
From mathcomp Require Import all_ssreflect.
From Verif Require Import Base Model.Solver Spec.Solver.

Set Implicit Arguments.
Unset Strict Implicit.
Unset Printing Implicit Defensive.

Section Skeleton.
Variables (S X : Type).
Variables (gt le : S -> S -> bool) (isz : S -> bool) (div : S -> S -> S) (zero : S).
Variable zeroX : X.
Variables (y : sys S X) (o : opts S) (m : method S X).
Hypothesis gm : good_method m.
Local Notation st := (m_st m).
Local Notation sol := (sol S X).
Local Notation hist := (history gt zero y o).
Local Notation expl := (explicit_last div zero y).

(** Loop invariant; n is the number of iterations done. *)
Record linv (n : nat) (s : sol st) : Prop := Linv {
  li_iter : m_iter (s_st s) = n;
  li_attr : s_iter s = if m_incr m then n else n.-1;
  li_size : size (s_res s) = n.+1;
  li_max : (n <= o_maxiter o)%N;
  li_gt : forall i, (i < n)%N -> gt (nth zero (s_res s) i) (o_tol o);
  li_err : if y_errnorm y is Some en then size (s_err s) = n.+1 /\
             ((0 < n)%N -> exists2 x, m_getx (s_st s) = Ok x & en x = Ok (last zero (s_err s)) /\
                                     s_xk s = Some x)
           else s_err s = [::];
  li_x : (0 < n)%N -> forall x, s_xk s = Some x -> m_getx (s_st s) = Ok x;
  li_last : [\/ n = 0%N,
     exists x, [/\ s_xk s = Some x, expl x (s_res s) &
                   n = o_maxiter o -> gt (last zero (s_res s)) (o_tol o) = false]
   | (n < o_maxiter o)%N /\ ~~ le (last zero (s_res s)) (o_tol o)] }.

(** What is claimed of a finished run. *)
Definition post (out : outcome S X st) : Prop :=
  match out with
  | Returns s => exists n x,
      [/\ [/\ s_xk s = Some x, m_iter (s_st s) = n & s_iter s = if m_incr m then n else n.-1],
          hist n x (s_res s) (s_err s),
          (0 < n)%N -> m_getx (s_st s) = Ok x,
          [\/ n = 0%N /\ (s_xk s = Some x),
              expl x (s_res s) /\ (n = o_maxiter o -> gt (last zero (s_res s)) (o_tol o) = false)
            | (n < o_maxiter o)%N /\ ~~ le (last zero (s_res s)) (o_tol o)]
        & [\/ gt (last zero (s_res s)) (o_tol o) = false, n = o_maxiter o | m_inv (s_st s)]]
  | NoConvergence s => exists x,
      [/\ [/\ s_xk s = Some x, (0 < o_maxiter o)%N & s_iter s = (o_maxiter o).-1],
          hist (o_maxiter o) x (s_res s) (s_err s),
          m_getx (s_st s) = Ok x /\ m_iter (s_st s) = o_maxiter o,
          expl x (s_res s) & gt (last zero (s_res s)) (o_tol o)]
  | Raises e => True
  end.

Lemma body_spec n s k : linv n s -> more gt zero o s ->
  (forall s', linv n.+1 s' -> s_x0 s' = s_x0 s -> post (k s')) -> post (body gt le div y o s k).
Proof.
move=> hi /and3P[hgt hit hninv] hk; rewrite /body.
case Es: (m_step (s_st s)) => [[t r]|e] //=.
have it := gm_step gm Es; have eni := li_iter hi; rewrite eni in it hit *.
rewrite /finalize_iteration /=.
(* errors *)
have err : forall (P : outcome S X st -> Prop) (f : option X * seq S -> outcome S X st),
    (forall e, P (@Raises S X st e)) ->
    (forall xk es, (forall x, xk = Some x -> m_getx t = Ok x) ->
       (if y_errnorm y is Some en then size es = n.+2 /\
             exists2 x, m_getx t = Ok x & en x = Ok (last zero es) /\ xk = Some x
        else es = [::] /\ xk = None) -> P (f (xk, es))) ->
    P (bindO (if y_errnorm y is Some en then
           let! x := m_getx t in let! e := en x in Ok (Some x, rcons (s_err s) e)
         else Ok (None, s_err s)) f).
  move=> P f hr hf; have := li_err hi; case: (y_errnorm y) hf => [en|] hf /=.
    move=> [hs _]; case Ex: (m_getx t) => [x|e] //=; case Ee: (en x) => [e|e] //=.
    apply: hf => [x' [<-]//|]; rewrite size_rcons hs; split=> //; exists x => //.
    by rewrite last_rcons.
  by move=> he; apply: hf.
apply: err => //.
move=> xk es hx hes; case: ifP => [he|/norP[_ /norP[hle hlast]]].
  case Ex: (if xk is Some x then Ok x else m_getx t) => [x|e] //=.
  have gx : m_getx t = Ok x by case: xk Ex hx {hes} => [x' [->] h|->//]; apply: h.
  case Er: (y_resnorm y x) => [rkn|e] //=.
  have hgtall i : (i < n.+1)%N -> gt (nth zero (rcons (s_res s) (div rkn (y_bnorm y))) i) (o_tol o).
    rewrite ltnS leq_eqVlt => hi'; rewrite nth_rcons (li_size hi).
    have hin : (i < n.+1)%N by case/orP: hi' => [/eqP->|/ltnW]; rewrite ltnS.
    rewrite hin; case/orP: hi' => [/eqP->|hi']; last exact: (li_gt hi).
    by have := hgt; rewrite (last_nth zero); case: (s_res s) (li_size hi) => //= a l [->].
  case: ifP => [/andP[hg /eqP hm]|hc].
    exists x; split=> //=.
    - by rewrite -hm.
    - split=> /=.
      + by rewrite size_rcons (li_size hi) -hm.
      + by [].
      + by rewrite -hm; apply: hgtall.
      + case: (y_errnorm y) hes => [en|]; last by case.
        rewrite -hm => -[-> [x' gx' [e2 _]]]; split=> // _.
        by move: gx'; rewrite gx => -[->].
    - by rewrite it.
    - by exists rkn => //; rewrite last_rcons.
    - by rewrite last_rcons.
  apply: hk => //; split=> //=.
  - by rewrite (gm_iter gm).
  - by rewrite size_rcons (li_size hi).
  - case: (y_errnorm y) hes => [en|]; last by case.
    move=> [-> [x' gx' [e2 _]]]; split=> // _; exists x; rewrite ?(gm_getx gm) //.
    by move: gx'; rewrite gx => -[->].
  - by move=> _ x' [<-]; rewrite (gm_getx gm).
  - apply: Or32; exists x; split=> //; first by exists rkn => //; rewrite last_rcons.
    rewrite last_rcons => hm; move: hc; rewrite hm eqxx andbT.
    by case: gt.
apply: hk => //; split=> //=.
- by rewrite size_rcons (li_size hi).
- move=> i; rewrite ltnS leq_eqVlt => hi'; rewrite nth_rcons (li_size hi).
  have hin : (i < n.+1)%N by case/orP: hi' => [/eqP->|/ltnW]; rewrite ltnS.
  rewrite hin; case/orP: hi' => [/eqP->|hi']; last exact: (li_gt hi).
  by have := hgt; rewrite (last_nth zero); case: (s_res s) (li_size hi) => //= a l [->].
- case: (y_errnorm y) hes => [en|]; last by case.
  by move=> [-> [x' gx' [e2 e3]]]; split=> // _; exists x'.
- apply: Or33; rewrite last_rcons; split=> //.
  by rewrite ltn_neqAle hit andbT.
Qed.

Lemma final_spec n s : linv n s -> more gt zero o s = false ->
  post (match s_xk s with
    | Some _ => Returns s
    | None => bindO (m_getx (s_st s)) (fun x =>
        Returns (Sol (s_st s) (s_iter s) (s_x0 s) (Some x) (s_res s) (s_err s)))
    end).
Proof.
move=> hi hm.
have st3 : [\/ gt (last zero (s_res s)) (o_tol o) = false, n = o_maxiter o | m_inv (s_st s)].
  move: hm; rewrite /more (li_iter hi); case: gt => /=; last by constructor.
  case: ltnP => /= [_ /negbFE ?|h _]; first by constructor.
  by constructor 2; apply/eqP; rewrite eqn_leq (li_max hi) h.
have hh x : ((0 < n)%N -> m_getx (s_st s) = Ok x) -> hist n x (s_res s) (s_err s).
  move=> gx; split; [exact: li_size hi|exact: li_max hi|exact: li_gt hi|].
  have := li_err hi; case: (y_errnorm y) => [en|] // [h1 h2]; split=> // n0.
  by have [x' e1 [e2 _]] := h2 n0; move: e1; rewrite gx // => -[->].
case Ex: (s_xk s) => [x|].
  have gx : (0 < n)%N -> m_getx (s_st s) = Ok x by move=> n0; apply: (li_x hi).
  exists n, x; split=> //.
  - by split=> //; [exact: li_iter hi|exact: li_attr hi].
  - exact: hh.
  - case: (li_last hi) => [n0|[x' [e1 e2 e3]]|h]; [by constructor|constructor 2|by constructor 3].
    by move: e1; rewrite Ex => -[->].
case Eg: (m_getx (s_st s)) => [x|e] //=; exists n, x; split=> //=.
- by split=> //; [exact: li_iter hi|exact: li_attr hi].
- exact: hh.
- case: (li_last hi) => [n0|[x' [e1 _ _]]|h]; [by constructor| |by constructor 3].
  by rewrite Ex in e1.
Qed.

Lemma loop_spec f n s : linv n s -> (o_maxiter o - n <= f)%N -> post (loop gt le div zero y o f s).
Proof.
elim: f n s => [|f IH] n s hi hf /=; case: ifP => [hm|hm]; try exact: final_spec hi hm.
- by case/and3P: hm => _; rewrite (li_iter hi) => h; move: hf; rewrite leqn0 subn_eq0 leqNgt h.
- apply: (body_spec hi hm) => s' hi' _; apply: (IH n.+1) => //.
  by rewrite subnS -ltnS; case: (o_maxiter o - n)%N hf => // x; rewrite ltnS.
Qed.

Lemma run_spec x0 : post (run gt le isz div zero zeroX y o m x0).
Proof.
rewrite /run; case E0: (m_r0 m x0) => [r0|e] //=.
case Ee: (if y_errnorm y is Some en then _ else _) => [err|e] //=.
case Es: (m_start m x0 _) => [t|e] //=.
apply: (@loop_spec _ 0); last by rewrite subn0.
split=> //=; first exact: (gm_start gm Es); first by case: (m_incr m).
  case: (y_errnorm y) Ee => [en|] /=; last by case.
  by case: (m_getx0 m _) => //= x; case: (en x) => //= e [<-].
by constructor.
Qed.

(** Termination: the fuel suffices. *)
Definition not_fuel (out : outcome S X st) : Prop :=
  if out is Raises e then e <> OutOfFuel else True.

Lemma bindO_nf A (r : res A) k : no_fuel r -> (forall a, r = Ok a -> not_fuel (k a)) ->
  not_fuel (bindO r k).
Proof. by case: r => [a _|e h _ /=]; [apply|move=> e1; rewrite e1 in h]. Qed.

Lemma body_nf s k : no_fuel_method y m ->
  (forall s', m_iter (s_st s') = (m_iter (s_st s)).+1 -> not_fuel (k s')) ->
  not_fuel (body gt le div y o s k).
Proof.
move=> nf hk; rewrite /body; apply: bindO_nf => [|[t r] Es]; first exact: (nf_step nf).
have it := gm_step gm Es; rewrite /finalize_iteration /=; apply: bindO_nf.
  have := nf_err nf; case: (y_errnorm y) => [en|] // hn.
  have : no_fuel (m_getx t):= nf_getx nf t; case: (m_getx t) => [x|e] h //=.
  by have := hn en x erefl; case: (en x).
move=> [xk es] _; case: ifP => _; last exact: hk.
apply: bindO_nf => [|x _]; first by case: xk => // ; apply: (nf_getx nf).
apply: bindO_nf => [|r' _]; first exact: (nf_res nf).
by case: ifP => _ //; apply: hk => /=; rewrite (gm_iter gm).
Qed.

Lemma loop_nf f s : no_fuel_method y m -> (o_maxiter o - m_iter (s_st s) <= f)%N ->
  not_fuel (loop gt le div zero y o f s).
Proof.
move=> nf; have fin s' : not_fuel (match s_xk s' with
    | Some _ => Returns s'
    | None => bindO (m_getx (s_st s')) (fun x =>
        Returns (Sol (s_st s') (s_iter s') (s_x0 s') (Some x) (s_res s') (s_err s')))
    end).
  by case: (s_xk s') => // ; apply: bindO_nf => //; apply: (nf_getx nf).
elim: f s => [|f IH] s hf /=; case: ifP => [hm|_]; try exact: fin.
  by case/and3P: hm => _ h; move: hf; rewrite leqn0 subn_eq0 leqNgt h.
apply: body_nf => // s' e; apply: IH; rewrite e subnS -ltnS.
by case: (o_maxiter o - _)%N hf => // x; rewrite ltnS.
Qed.

Lemma run_nf x0 : no_fuel_method y m -> not_fuel (run gt le isz div zero zeroX y o m x0).
Proof.
move=> nf; rewrite /run; apply: bindO_nf => [|r0 _]; first exact: (nf_r0 nf).
apply: bindO_nf => [|err _].
  have := nf_err nf; case: (y_errnorm y) => [en|] // hn.
  set x := (if isz _ then _ else _).
  have : no_fuel (m_getx0 m x) := nf_getx0 nf x; case: (m_getx0 m x) => [x'|e] h //=.
  by have := hn en x' erefl; case: (en x').
apply: bindO_nf => [|t Et]; first exact: (nf_start nf).
by apply: loop_nf => //=; rewrite leq_subr.
Qed.

(** Zero right hand side. *)
Lemma run_zero x0 r0 t : isz (y_bnorm y) -> gt zero (o_tol o) = false ->
  m_r0 m x0 = Ok r0 -> m_start m x0 zeroX = Ok t ->
  (forall en, y_errnorm y = Some en -> exists2 x, m_getx0 m zeroX = Ok x & exists e, en x = Ok e) ->
  exists2 s, run gt le isz div zero zeroX y o m x0 = Returns s &
    [/\ s_xk s = Some zeroX, s_x0 s = zeroX & s_res s = [:: zero]].
Proof.
move=> hz hg e0 es he; rewrite /run e0 /= hz.
have [err ->] : exists err, (if y_errnorm y is Some en then
    let! x := m_getx0 m zeroX in let! e := en x in Ok [:: e] else Ok [::]) = Ok err.
  case: (y_errnorm y) he => [en|_]; last by eexists.
  by move=> /(_ en erefl)[x -> [e /= -> /=]]; eexists.
rewrite /= es /=; case: (o_maxiter o) => [|k] /=; rewrite /more /= hg /=; by eexists.
Qed.

(** A sufficiently good initial guess. *)
Lemma run_good_guess x0 r0 t x : isz (y_bnorm y) = false ->
  m_r0 m x0 = Ok r0 -> gt (div r0 (y_bnorm y)) (o_tol o) = false ->
  let x0' := if x0 is Some x then x else zeroX in
  m_start m x0 x0' = Ok t -> m_getx t = Ok x -> y_errnorm y = None ->
  exists2 s, run gt le isz div zero zeroX y o m x0 = Returns s &
    [/\ s_xk s = Some x, s_st s = t & s_res s = [:: div r0 (y_bnorm y)]].
Proof.
move=> hz e0 hg x0' es ex hn; rewrite /run e0 /= hz hn /= es /=.
by case: (o_maxiter o) => [|k] /=; rewrite /more /= hg /= ex /=; eexists.
Qed.
End Skeleton.

Section Restart.
Variables (S X : Type) (gt : S -> S -> bool) (zero : S).
Variables (inner : option X -> res (inner_sol S X)) (tol : S) (max_restarts : nat).

(** Successive runs: the inner solver is called with None, then with the previous
    approximation. *)
Inductive runs : option X -> seq (inner_sol S X) -> Prop :=
| runs0 : runs None [::]
| runsS x l s : runs x l -> inner x = Ok s -> runs (Some (i_xk s)) (rcons l s).

(** Concatenation without the duplicated boundary entries. *)
Definition joined (f : inner_sol S X -> seq S) (l : seq (inner_sol S X)) (s : inner_sol S X) : seq S :=
  flatten (map (fun s => chop (f s)) l) ++ f s.

Lemma chop_cat T (a b : seq T) : b <> [::] -> chop (a ++ b) = a ++ chop b.
Proof.
case: b => // x b _; rewrite /chop size_cat addnS /= -[(size a + size b)%N]/((size a + size b)%N).
by rewrite take_cat ltnNge leq_addr /= addKn.
Qed.

Lemma joined_rcons f l s t : f s <> [::] -> chop (joined f l s) ++ f t = joined f (rcons l s) t.
Proof.
by move=> h; rewrite /joined map_rcons flatten_rcons chop_cat // -!catA.
Qed.

Hypothesis ne : forall x s, inner x = Ok s -> i_res s <> [::].

Definition rpost (out : router S X) : Prop :=
  let good (p : pred nat) s := exists l t,
    [/\ runs (Some (i_xk s)) (rcons l t), p (size l), i_res s = joined (@i_res _ _) l t &
        forall u, List.In u l -> gt (last zero (i_res u)) tol] in
  match out with
  | RReturns s => good (fun n => n <= max_restarts)%N s /\ gt (last zero (i_res s)) tol = false
  | RNoConvergence s => good (fun n => n == max_restarts)%N s /\ gt (last zero (i_res s)) tol
  | RRaises _ => True
  end.

Lemma last_joined l s : i_res s <> [::] -> last zero (joined (@i_res _ _) l s) = last zero (i_res s).
Proof. by case: s => x [|a r] e // _; rewrite /joined last_cat. Qed.

Lemma rloop_spec f n l t es : runs (Some (i_xk t)) (rcons l t) -> size l = n ->
  i_res t <> [::] -> (n <= max_restarts)%N -> (forall u, List.In u l -> gt (last zero (i_res u)) tol) ->
  (max_restarts - n <= f)%N ->
  rpost (rloop gt zero inner tol max_restarts f n.+1 (Some (i_xk t)) (joined (@i_res _ _) l t) es) /\
  (rloop gt zero inner tol max_restarts f n.+1 (Some (i_xk t)) (joined (@i_res _ _) l t) es = RRaises _ _ OutOfFuel ->
   exists x, inner x = Err OutOfFuel).
Proof.
elim: f n l t es => [|f IH] n l t es hr hs nt hn hl hf.
  have e : n = max_restarts by apply/eqP; rewrite eqn_leq hn -subn_eq0 -leqn0.
  rewrite /= e ltnn andbF /= last_joined //; case: ifP => hg /=; split=> //; split=> //.
  - by exists l, t; split=> //; rewrite hs e.
  - by rewrite last_joined.
  - by exists l, t; split=> //; rewrite hs.
  - by rewrite last_joined.
rewrite /= last_joined //; case: ifP => [/andP[hg hm]|hc].
  case E: (inner _) => [s|e]; last by split=> // -[e1]; exists (Some (i_xk t)); rewrite E e1.
  rewrite joined_rcons //; apply: IH => //.
  - exact: runsS hr E.
  - by rewrite size_rcons hs.
  - exact: ne E.
  - by move=> u; rewrite -cats1 => h; case: (List.in_app_or _ _ _ h) => [/hl//|[<-|[]]].
  - by rewrite subnS -ltnS; case: (max_restarts - n)%N hf => // x; rewrite ltnS.
case: ifP => hg /=; split=> //; split=> //.
- exists l, t; split=> //; rewrite hs eqn_leq hn /=.
  by move: hc; rewrite hg /= => /negbT; rewrite -ltnNge ltnS.
- by rewrite last_joined.
- by exists l, t; split=> //; rewrite hs.
- by rewrite last_joined.
Qed.

Lemma restarted_spec inf :
  rpost (restarted gt zero inner tol max_restarts inf) /\
  (restarted gt zero inner tol max_restarts inf = RRaises _ _ OutOfFuel ->
   exists x, inner x = Err OutOfFuel).
Proof.
rewrite /restarted /=; case E: (inner None) => [s|e]; last by split=> // -[e1]; exists None; rewrite E e1.
apply: (@rloop_spec max_restarts 0 [::] s) => //; last by rewrite subn0.
  exact: (runsS runs0 E).
exact: ne E.
Qed.

Lemma runs_in x l u : runs x l -> List.In u l -> exists z, inner z = Ok u.
Proof.
elim=> // x' l' s hr IH E; rewrite -cats1 => h; case: (List.in_app_or _ _ _ h) => [/IH//|[<-|[]]].
by exists x'.
Qed.

Lemma restarted_raises inf e : restarted gt zero inner tol max_restarts inf = RRaises _ _ e ->
  e = OutOfFuel \/ exists x, inner x = Err e.
Proof.
rewrite /restarted /=; case E: (inner None) => [s|e']; last by move=> [<-]; right; exists None.
suff : forall f n x rs es, rloop gt zero inner tol max_restarts f n (Some x) rs es = RRaises _ _ e ->
    e = OutOfFuel \/ exists x, inner x = Err e by apply.
elim=> [|f IH] n x rs es /=; case: ifP => _; try by case: ifP.
  by case=> <-; left.
case E1: (inner _) => [s'|e']; last by move=> [<-]; right; exists (Some x).
exact: IH.
Qed.

Lemma joined_size l s m : (forall u, List.In u (rcons l s) -> (size (i_res u) <= m.+1)%N) ->
  (size (joined (@i_res _ _) l s) <= (size l).+1 * m + 1)%N.
Proof.
move=> h; rewrite /joined size_cat mulSn [(m + _)%N]addnC -addnA addn1; apply: leq_add.
  elim: l h => //= u l IH h; rewrite size_cat mulSn; apply: leq_add.
    by rewrite size_take; have := h u (or_introl erefl); case: (size (i_res u)) => //= k; rewrite ltnS ltnSn.
  by apply: IH => w hw; apply: h; right.
by apply: h; rewrite -cats1; apply: List.in_or_app; right; left.
Qed.
End Restart.
