(** C42, C50: timers, timed operators and timed linear systems. *)
From mathcomp Require Import all_ssreflect all_algebra.
From Verif Require Import Base Model.LinearOperator Model.Timings Proof.Timings.

Set Implicit Arguments.
Unset Strict Implicit.
Unset Printing Implicit Defensive.
Import Order.TTheory GRing.Theory Num.Theory.
Local Open Scope ring_scope.

Section Timings.
Variables (R : realFieldType) (K : eqType) (clock : nat -> R) (C : numClosedFieldType).
Local Notation world := (world R K).
Local Notation tdot := (@tdot R K clock C).
Local Notation tdot_adj := (@tdot_adj R K clock C).

(** The recorded times of a key; none if there is no such timer. *)
Definition times (w : world) k : seq R := if w_tm w k is Some t then t_list t else [::].

Lemma times_entries w k : times w k = entries w k.
Proof. by rewrite /times /entries /timer_of; case: (w_tm w k). Qed.

(** C42.  get returns 0 without recorded times and otherwise their minimum. *)
Theorem C42_get (w : world) k :
  if times w k is [::] then tget (w_tm w) k = 0
  else tget (w_tm w) k \in times w k /\ forall t, t \in times w k -> tget (w_tm w) k <= t.
Proof.
rewrite /tget /times; case: (w_tm w k) => [[t0 [|x s]]|] //=; exact: foldl_min.
Qed.

(** C42.  get_ops is the count-weighted sum. *)
Theorem C42_get_ops (w : world) (ops : seq (K * R)) :
  tget_ops (w_tm w) ops = \sum_(oc <- ops) tget (w_tm w) oc.1 * oc.2.
Proof. exact: tget_opsE. Qed.

(** C42.  A with-block returns the result or the exception of its body and in both cases
    appends one entry, the difference of the clock readings at its end and at its beginning;
    the body may use the clock and other timers. *)
Theorem C42_with_block A k (body : W R K A) (w : world) r w2 :
  body (enter clock k w) = (r, w2) ->
  timer_of (w_tm w2) k = timer_of (w_tm (enter clock k w)) k ->
  exists w3, [/\ with_timer clock k body w = (r, w3),
    times w3 k = rcons (times w k) (clock (w_now w2) - clock (w_now w))
  & forall j, j != k -> w_tm w3 j = w_tm w2 j].
Proof.
by move=> e h; have [w3 [? ? ? _]] := with_timerP e h; exists w3; rewrite !times_entries.
Qed.

(** An untimed call (operator, block, adjoint?), its result, and the calls of a program. *)
Record call := Call { c_key : K; c_op : lop C; c_X : arr C; c_adj : bool }.
Definition untimed (c : call) : res (arr C) :=
  if c_adj c then dot_adj (c_op c) (c_X c) else dot (c_op c) (c_X c).
Definition timed (c : call) : W R K (arr C) :=
  let T := TTimed (c_key c) (TBase K (c_op c)) in
  if c_adj c then tdot_adj T (c_X c) else tdot T (c_X c).
Fixpoint program (cs : seq call) (w : world) : seq (res (arr C)) * world :=
  if cs is c :: cs' then
    let rw := timed c w in let rs := program cs' rw.2 in (rw.1 :: rs.1, rs.2)
  else ([::], w).

(** The i-th call with at least one column uses the clock readings n+2i and n+2i+1; its entry
    is the elapsed time, divided by the number of columns if the operator did not raise. *)
Fixpoint expected (n : nat) (cs : seq call) k : seq R :=
  if cs is c :: cs' then
    if ncol (c_X c) == 0%N then expected n cs' k else
    (if c_key c == k then
       [:: (clock n.+1 - clock n) / (if is_ok (untimed c) then (ncol (c_X c))%:R else 1)]
     else [::]) ++ expected n.+2 cs' k
  else [::].

(** C42.  For every sequence of applications of timed operators (with any number of columns,
    adjoint or not, successful or raising), the results are those of the untimed operators,
    and every timer gets exactly one entry per application to a nonempty block. *)
Theorem C42_history (cs : seq call) (w : world) :
  all (fun c => (0 < ncol (c_X c))%N || ~~ c_adj c) cs ->
  (program cs w).1 = [seq untimed c | c <- cs] /\
  forall k, times (program cs w).2 k = times w k ++ expected (w_now w) cs k.
Proof.
elim: cs w => [|c cs IH] w /=; first by split=> // k; rewrite cats0.
case/andP=> hc hcs.
have [c0|cp] := posnP (ncol (c_X c)).
  rewrite c0 /= in hc; have -> : timed c w = (untimed c, w).
    by rewrite /timed /untimed (negbTE hc) /= c0.
  by have [/= -> e] := IH w hcs; split=> // k; rewrite e c0.
have H : exists w', [/\ timed c w = (untimed c, w'),
    times w' (c_key c) = rcons (times w (c_key c))
      ((clock (w_now w).+1 - clock (w_now w)) / (if is_ok (untimed c) then (ncol (c_X c))%:R else 1)),
    forall j, j != c_key c -> w_tm w' j = w_tm w j
  & w_now w' = (w_now w).+2].
  rewrite /timed /untimed !times_entries; case: (c_adj c).
    by have [w' h] := timed_base_adj clock (c_key c) (c_op c) w cp; exists w'; rewrite times_entries.
  by have [w' h] := timed_base clock (c_key c) (c_op c) w cp; exists w'; rewrite times_entries.
case: H => w' [e1 e2 e3 e4]; rewrite e1 /=.
have [-> e] := IH w' hcs; split=> // k; rewrite e e4.
have [<-|nk] := eqVneq (c_key c) k; first by rewrite e2 -cats1 -catA.
by rewrite /times e3 // eq_sym.
Qed.

(** Non-vacuity: two applications of the 2x2 identity matrix, to 3 and to 0 columns. *)
Example C42_example k (w : world) : w_tm w k = None -> w_now w = 0%N ->
  let A := mkMat (@Arr C 2 2 1%:M) in
  let cs := [:: Call k A (@Arr C 2 3 0) false; Call k A (@Arr C 2 0 0) false;
                Call k A (@Arr C 2 1 0) true] in
  times (program cs w).2 k = [:: (clock 1 - clock 0) / 3%:R; (clock 3 - clock 2) / 1%:R].
Proof.
move=> e n A cs; have [_ ->] := @C42_history cs w isT.
rewrite /times e n /= eqxx /= /untimed /= /dot /dot_adj /= /arr_dot /as_mx /=.
by do 2![case: eqP => //= ?]; case: eqP => //= ?; case: eqP.
Qed.

(** Finding: a timer used inside a block timed by the same timer destroys the outer start
    time: the outer entry is measured from the inner start. *)
Theorem C42_nested_refuted k (w : world) :
  let m := with_timer clock k (with_timer clock k (ret (Ok tt))) in
  let n := w_now w in
  times (m w).2 k = times w k ++ [:: clock n.+2 - clock n.+1; clock n.+3 - clock n.+1].
Proof.
rewrite times_entries /= times_entries /entries; do 4!rewrite /= ?timer_of_set ?eqxx.
by rewrite -!cats1 -catA.
Qed.

(** Finding: dot_adj of a timed operator on an empty block calls dot; for a non-square
    operator this raises although the untimed operator returns an (empty) block. *)
Theorem C42_empty_adjoint_refuted k : exists (A : lop C) (X Y : arr C),
  dot_adj A X = Ok Y /\
  forall w, (tdot_adj (TTimed k (TBase K A)) X w).1 = Err LinearOperatorError.
Proof. by exists (mkMat (@Arr C 2 3 0)), (@Arr C 2 0 0), (@Arr C 2 0 0). Qed.

(** C50: two operators, inner products, systems that give the same results. *)
Definition same_op (T T' : top K C) :=
  [/\ trow T = trow T', tcol T = tcol T', t_is_id T = t_is_id T'
    & forall X w w', (tdot T X w).1 = (tdot T' X w').1].
Definition same_op_adj (T T' : top K C) :=
  forall X w w', (0 < ncol X)%N -> (tdot_adj T X w).1 = (tdot_adj T' X w').1.
Definition same_inner (ip ip' : ipattr R K C) :=
  forall X Y w w', (tinner clock X Y ip w).1 = (tinner clock X Y ip' w').1.

Variable npost : arr C -> res C.
Definition same_results (s s' : tsys R K C) :=
  [/\ forall T, T \in [:: 0; 1; 2; 3; 4]%N ->
        let op t := nth (a_A t) [:: a_A t; a_M t; a_Minv t; a_Ml t; a_Mr t] T in
        same_op (op s) (op s') /\ same_op_adj (op s) (op s'),
      same_op (a_MlAMr s) (a_MlAMr s'), same_inner (a_ip s) (a_ip s'),
      [/\ a_b s = a_b s', a_exact s = a_exact s', a_normal s = a_normal s',
          a_sa s = a_sa s' & a_pd s = a_pd s']
    & [/\ a_Mlb s = a_Mlb s', a_MMlb s = a_MMlb s', a_MMlb_norm s = a_MMlb_norm s'
        & forall z w w', (tresidual clock npost s z w).1 = (tresidual clock npost s' z w').1]].

Lemma agree_results s s' : agree clock s s' -> same_results s s'.
Proof.
move=> ag; have op_same T T' : same T T' -> same_op T T'.
  by case=> *; split=> // X w w'; rewrite !pure_dot.
have op_adj T T' : same_adj T T' -> same_op_adj T T'.
  by move=> h X w w' x0; rewrite !pure_dot_adj h.
have H T T' : same T T' /\ same_adj T T' -> same_op T T' /\ same_op_adj T T'.
  by case=> ? ?; split; [exact: op_same|exact: op_adj].
split.
- move=> i; rewrite !inE => /or4P[/eqP->|/eqP->|/eqP->|/orP[/eqP->|/eqP->]] /=; apply: H.
  + exact: ag_A ag. + exact: ag_M ag. + exact: ag_Minv ag. + exact: ag_Ml ag. + exact: ag_Mr ag.
- exact: op_same (ag_MlAMr ag).
- by case: (ag_ip ag) => g h h' X Y w w'; rewrite h h'.
- exact: ag_data ag.
- by case: (ag_rhs ag) => *; split=> // z w w'; exact: agree_residual.
Qed.

Variables (kA kM kMinv kMl kMr kB : K).

(** A callable inner product is a function of its arguments. *)
Definition pure_ip (i : iparg R K C) : Prop :=
  if i is IFun f then exists g, forall X Y w, (f X Y w).1 = g X Y else True.

(** C50.  TimedLinearSystem accepts the same arguments as LinearSystem and then defines a
    system with the same results. *)
Theorem C50_timed_system (g : sysargs R K C) w w' : pure_ip (g_ip g) ->
  match (sys_init clock npost g w).1, (timed_init clock npost kA kM kMinv kMl kMr kB g w').1 with
  | Ok s, Ok s' => same_results s s'
  | Err _, Err _ => True
  | _, _ => False
  end.
Proof.
move=> hip; have h : iparg_ok (g_ip g) by case: (g_ip g) hip.
have := timed_agree clock npost kA kM kMinv kMl kMr kB h w w'.
case: (_.1) => [s|e]; case: (_.1) => [s'|e'] //=; exact: agree_results.
Qed.

(** C50.  ConvertedTimedLinearSystem never raises and has the results of the given system. *)
Theorem C50_converted_system (g : sysargs R K C) w w' s : pure_ip (g_ip g) ->
  (sys_init clock npost g w).1 = Ok s ->
  exists2 s', (converted_init clock npost kA kM kMinv kMl kMr kB s w').1 = Ok s'
            & same_results s s'.
Proof.
move=> hip e; have h : iparg_ok (g_ip g) by case: (g_ip g) hip.
have [|s' -> ag] := @converted_agree R K clock C npost kA kM kMinv kMl kMr kB s w'.
  by exists g, w.
by exists s' => //; exact: agree_results.
Qed.
End Timings.

Section Example50.
Variables (R : realFieldType) (clock : nat -> R) (C : numClosedFieldType).

(** Non-vacuity: a 2x2 system with a matrix, preconditioner Ml and a callable inner product
    is accepted. *)
Example C50_example (A L : 'M[C]_2) (b : 'cV[C]_2) (w : world R nat_eqType) :
  let g := SysArgs (OArr nat_eqType (Arr A)) (Arr b) (ONone _ C) (ONone _ C) (OArr _ (Arr L)) (ONone _ C)
    (IFun (fun X Y => ret (arr_dot (arr_adj X) Y))) None true false None in
  pure_ip (g_ip g) /\ exists s, (sys_init clock (fun _ => Ok 0) g w).1 = Ok s.
Proof.
split; first by exists (fun X Y => arr_dot (arr_adj X) Y).
rewrite /sys_init /= /get_op /= /t_mul /= /tnorm /bindW /t_mul_arr /= /notimplW /=.
rewrite /ret /dot /= /arr_dot /as_mx /=.
do 2![case: eqP => //= ?]; do 2![case: eqP => //= ?]; by eexists.
Qed.
End Example50.

Print Assumptions C42_get.
Print Assumptions C42_get_ops.
Print Assumptions C42_with_block.
Print Assumptions C42_history.
Print Assumptions C42_nested_refuted.
Print Assumptions C42_empty_adjoint_refuted.
Print Assumptions C50_timed_system.
Print Assumptions C50_converted_system.
