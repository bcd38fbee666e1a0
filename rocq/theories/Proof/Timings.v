(** Proofs about timers and timed operators. *)
From mathcomp Require Import all_ssreflect all_algebra.
From Verif Require Import Base Model.LinearOperator Model.Timings.

Set Implicit Arguments.
Unset Strict Implicit.
Unset Printing Implicit Defensive.
Import Order.TTheory GRing.Theory Num.Theory.
Local Open Scope ring_scope.

Section Proofs.
Variable R : realFieldType.
Variable K : eqType.
Variable clock : nat -> R.
Variable C : numClosedFieldType.
Local Notation W := (@W R K).
Local Notation top := (top K C).
Local Notation tdot := (@tdot R K clock C).
Local Notation tdot_adj := (@tdot_adj R K clock C).

(** The result of a computation does not depend on the world. *)
Definition pureW {A} (m : W A) (r : res A) := forall w, (m w).1 = r.

Lemma pure_ret A (r : res A) : pureW (@ret R K A r) r. Proof. by []. Qed.

Lemma pure_bind A B (m : W A) r (f : A -> W B) g : pureW m r ->
  (forall a, r = Ok a -> pureW (f a) (g a)) -> pureW (bindW m f) (bind r g).
Proof.
move=> hm hf w; rewrite /bindW; have := hm w.
by case: (m w) => [[a|e] w'] /= e'; rewrite -e' //=; apply: hf; rewrite -e'.
Qed.

Lemma pure_bindR A B (r : res A) (f : A -> W B) g :
  (forall a, r = Ok a -> pureW (f a) (g a)) -> pureW (bindR r f) (bind r g).
Proof. by case: r => //= a; apply. Qed.

Lemma pure_apply k c (m : W (arr C)) r : pureW m r -> pureW (timed_apply clock k c m) r.
Proof.
move=> hm w; rewrite /timed_apply /bindW /with_timer hm.
by case: r hm.
Qed.

Fixpoint vdot (T : top) (X : arr C) : res (arr C) :=
  match T with
  | TBase A => dot A X
  | TTimed k A => vdot A X
  | TProd A B =>
    if nrow X != tcol B then Err LinearOperatorError else
    if ncol X == 0%N then Ok (zeros_like X) else
    let! b := vdot B X in vdot A b
  end.
Fixpoint vdot_adj (T : top) (X : arr C) : res (arr C) :=
  match T with
  | TBase A => dot_adj A X
  | TTimed k A => if ncol X == 0%N then vdot A X else vdot_adj A X
  | TProd A B =>
    if nrow X != trow A then Err LinearOperatorError else
    if ncol X == 0%N then Ok (zeros_like X) else
    let! b := vdot_adj A X in vdot_adj B b
  end.

Lemma pure_dot T X : pureW (tdot T X) (vdot T X).
Proof.
elim: T X => [A|k T IH|A IHA B IHB] X //=.
  by case: ifP => _; [exact: IH|exact: pure_apply].
case: ifP => // _; case: ifP => // _; exact: pure_bind.
Qed.

Lemma pure_dot_adj T X : pureW (tdot_adj T X) (vdot_adj T X).
Proof.
elim: T X => [A|k T IH|A IHA B IHB] X //=.
  by case: ifP => _; [exact: pure_dot|exact: pure_apply].
case: ifP => // _; case: ifP => // _; exact: pure_bind.
Qed.

(** Operators without timing differences. *)
Definition same (T T' : top) :=
  [/\ trow T = trow T', tcol T = tcol T', t_is_id T = t_is_id T'
    & forall X, vdot T X = vdot T' X].
Definition same_adj (T T' : top) := forall X, (0 < ncol X)%N -> vdot_adj T X = vdot_adj T' X.

Lemma same_refl T : same T T. Proof. by []. Qed.
Lemma same_trans T T' T'' : same T T' -> same T' T'' -> same T T''.
Proof.
case=> [a1 a2 a3 a4] [b1 b2 b3 b4].
by split=> [|||X]; rewrite ?a1 ?a2 ?a3 ?a4.
Qed.

Lemma same_timed k T : ~~ t_is_id T -> same T (TTimed k T) /\ same_adj T (TTimed k T).
Proof. by move=> /negbTE n; split=> // X h /=; rewrite gtn_eqF. Qed.

Definition rel_res {A B} (P : A -> B -> Prop) (r : res A) (r' : res B) :=
  match r, r' with Ok a, Ok b => P a b | Err _, Err _ => True | _, _ => False end.

(** get_linearoperator with and without timer. *)
Lemma get_op_timed N o k : match get_op N o None, get_op N o (Some k) with
  | Ok T, Ok T' => [/\ same T T', same_adj T T' & trow T = N /\ tcol T = N]
  | Err _, Err _ => True
  | _, _ => False
  end.
Proof.
rewrite /get_op; case: o => [|a|T|] //=.
- by rewrite !eqxx.
- by case: ifP => // /negbT; rewrite negb_or !negbK => /andP[/eqP r1 /eqP r2];
    split=> // X h /=; rewrite gtn_eqF.
- case: (boolP (t_is_id T)) => i /=; case: ifP => // /negbT; rewrite negb_or !negbK => /andP[/eqP r1 /eqP r2].
    by split.
  by case: (same_timed k i).
Qed.

Lemma get_op_again N (T : top) : get_op N (OOp T) None =
  if (trow T != N) || (tcol T != N) then Err LinearOperatorError else Ok T.
Proof. by []. Qed.

Lemma t_mul_same A A' B B' : same A A' -> same B B' ->
  match t_mul A B, t_mul A' B' with
  | Ok T, Ok T' => same T T' | Err e, Err e' => e = e' | _, _ => False end.
Proof.
move=> sA sB; have [a1 a2 a3 a4] := sA; have [b1 b2 b3 b4] := sB.
rewrite /t_mul a2 a3 b1 b3; case: ifP => // _; case: ifP => // _; case: ifP => // _.
split=> //= X; rewrite b2; case: ifP => // _; case: ifP => // _.
by rewrite b4; case: (vdot B' X) => //= Y.
Qed.

Definition vmul (A : top) X : res (arr C) := if t_is_id A then Ok X else notimpl (vdot A X).

Lemma pure_mul A X : pureW (t_mul_arr clock A X) (vmul A X).
Proof.
rewrite /t_mul_arr /vmul; case: ifP => // _ w.
by rewrite /notimplW /= pure_dot.
Qed.

Lemma vmul_same A A' X : same A A' -> vmul A X = vmul A' X.
Proof. by rewrite /vmul; case=> [_ _ -> ->]. Qed.

(** Inner products. *)
Definition ip_pure (ip : ipattr R K C) (g : arr C -> arr C -> res (arr C)) :=
  forall X Y, pureW (tinner clock X Y ip) (g X Y).

Definition vinner (B : top) X Y : res (arr C) :=
  if t_is_id B then arr_dot (arr_adj X) Y else
  if (trow B != nrow X) || (tcol B != nrow X) then Err LinearOperatorError else
  if (ncol Y < ncol X)%N then let! BX := vmul B X in arr_dot (arr_adj BX) Y
  else let! BY := vmul B Y in arr_dot (arr_adj X) BY.

Lemma pure_inner B : ip_pure (AOp R B) (vinner B).
Proof.
move=> X Y; rewrite /tinner /vinner; case: ifP => // _; case: ifP => // _.
by case: ifP => _; apply: pure_bind => //; exact: pure_mul.
Qed.

Lemma vinner_same B B' : same B B' -> forall X Y, vinner B X Y = vinner B' X Y.
Proof.
move=> h X Y; rewrite /vinner !(vmul_same _ h); case: h => [-> -> -> _].
by [].
Qed.

Variables (npost : arr C -> res C) (kA kM kMinv kMl kMr kB : K).
Local Notation sys_init := (sys_init clock npost).
Local Notation timed_init := (timed_init clock npost kA kM kMinv kMl kMr kB).
Local Notation converted_init := (converted_init clock npost kA kM kMinv kMl kMr kB).

Definition same_ip (ip ip' : ipattr R K C) :=
  exists2 g, ip_pure ip g & ip_pure ip' g.

(** Two systems that cannot be distinguished by their results. *)
Record agree (s s' : tsys R K C) : Prop := Agree {
  ag_A : same (a_A s) (a_A s') /\ same_adj (a_A s) (a_A s');
  ag_M : same (a_M s) (a_M s') /\ same_adj (a_M s) (a_M s');
  ag_Minv : same (a_Minv s) (a_Minv s') /\ same_adj (a_Minv s) (a_Minv s');
  ag_Ml : same (a_Ml s) (a_Ml s') /\ same_adj (a_Ml s) (a_Ml s');
  ag_Mr : same (a_Mr s) (a_Mr s') /\ same_adj (a_Mr s) (a_Mr s');
  ag_MlAMr : same (a_MlAMr s) (a_MlAMr s');
  ag_ip : same_ip (a_ip s) (a_ip s');
  ag_data : [/\ a_b s = a_b s', a_exact s = a_exact s', a_normal s = a_normal s',
                a_sa s = a_sa s' & a_pd s = a_pd s'];
  ag_rhs : [/\ a_Mlb s = a_Mlb s', a_MMlb s = a_MMlb s' & a_MMlb_norm s = a_MMlb_norm s'] }.

(** The inner product argument is an operator or a pure callable. *)
Definition iparg_ok (i : iparg R K C) :=
  match i with
  | IFun f => exists g, forall X Y, pureW (f X Y) (g X Y)
  | IOp _ => True
  end.

(** The part of sys_init after the operators are known. *)
Definition rest (g : sysargs R K C) A M Minv Ml Mr MlAMr ip : W (tsys R K C) :=
  let normal := if g_sa g then true else if g_normal g is Some b then b else false in
  bindW (t_mul_arr clock Ml (g_b g)) (fun Mlb =>
  bindW (t_mul_arr clock M Mlb) (fun MMlb =>
  bindW (tnorm clock npost Mlb MMlb ip) (fun n =>
  ret (Ok (TSys A (g_b g) M Minv Ml Mr MlAMr ip normal (g_sa g) (g_pd g) (g_exact g)
                Mlb MMlb n))))).

Lemma pure_rest g A M Minv Ml Mr MlAMr ip vip : ip_pure ip vip ->
  pureW (rest g A M Minv Ml Mr MlAMr ip)
    (let! Mlb := vmul Ml (g_b g) in let! MMlb := vmul M Mlb in
     let! n := (let! m := vip Mlb MMlb in npost m) in
     Ok (TSys A (g_b g) M Minv Ml Mr MlAMr ip
          (if g_sa g then true else if g_normal g is Some b then b else false)
          (g_sa g) (g_pd g) (g_exact g) Mlb MMlb n)).
Proof.
move=> hip; apply: pure_bind => [|Mlb _]; first exact: pure_mul.
apply: pure_bind => [|MMlb _]; first exact: pure_mul.
by apply: pure_bind => //; apply: pure_bind => // a _; exact: pure_ret.
Qed.

Lemma get_op_ok N (T : top) : trow T = N -> tcol T = N -> get_op N (OOp T) None = Ok T.
Proof. by move=> <- e; rewrite get_op_again e !eqxx. Qed.

Lemma timed_agree g : iparg_ok (g_ip g) -> forall w w',
  rel_res agree (sys_init g w).1 (timed_init g w').1.
Proof.
move=> hip w w'; rewrite /timed_init /Timings.sys_init /=; set N := nrow (g_b g).
pose ip1 : res (ipattr R K C) :=
  match g_ip g with IFun f => Ok (AFun f) | IOp o => rmap (@AOp R K C) (get_op N o None) end.
pose ip2 : res (iparg R K C) :=
  match g_ip g with IFun f => Ok (IFun (timed_ip clock kB f))
  | IOp o => rmap (fun T => IOp R (OOp T)) (get_op N o (Some kB)) end.
have hip12 : match ip1, ip2 with
  | Ok i1, Ok i2 => exists2 i2', (match i2 with
         | IFun f => Ok (AFun f)
         | IOp o => rmap (@AOp R K C) (get_op N o None) end = Ok i2') & same_ip i1 i2'
  | Err _, Err _ => True | _, _ => False end.
  rewrite /ip1 /ip2; case: (g_ip g) hip => [o _|f [h hf]] /=; last first.
    eexists; first reflexivity; exists h => X Y /=; first exact: hf.
    by rewrite /timed_ip; case: ifP => _; [exact: hf|apply: pure_apply; exact: hf].
  have := get_op_timed N o kB.
  case: (get_op N o None) => [T|e]; case: (get_op N o (Some kB)) => [T'|e'] //= [hs _ [r c]].
  have [e1 e2 _ _] := hs; exists (AOp R T'); first by rewrite e1 e2 in r c; rewrite (get_op_ok r c).
  by exists (vinner T); [exact: pure_inner|move=> X Y w0; rewrite pure_inner (vinner_same hs)].
rewrite -/ip1 -/ip2.
move: ip1 ip2 hip12 => [i1|e1] [i2|e2] //; last first.
  move=> _ /=; set m := bindR _ _; suff : forall w, if (m w).1 is Err _ then True else False.
    by move/(_ w); case: (m w).1.
  move=> w0; rewrite /m; do 5!(case: (get_op _ _ _) => //= ?).
  by case: (bind _ _).
case=> i2' ei [vi hi1 hi2] /=; have := get_op_timed N (g_A g) kA; have := get_op_timed N (g_M g) kM.
have := get_op_timed N (g_Minv g) kMinv; have := get_op_timed N (g_Ml g) kMl.
have := get_op_timed N (g_Mr g) kMr.
case: (get_op N (g_A g) None) => [A|eA]; case: (get_op N (g_A g) (Some kA)) => [A'|eA'] //=;
case: (get_op N (g_M g) None) => [M|eM]; case: (get_op N (g_M g) (Some kM)) => [M'|eM'] //=;
case: (get_op N (g_Minv g) None) => [I|eI]; case: (get_op N (g_Minv g) (Some kMinv)) => [I'|eI'] //=;
case: (get_op N (g_Ml g) None) => [L|eL]; case: (get_op N (g_Ml g) (Some kMl)) => [L'|eL'] //=;
case: (get_op N (g_Mr g) None) => [P|eP]; case: (get_op N (g_Mr g) (Some kMr)) => [P'|eP'] //=.
move=> [sP aP [rP cP]] [sL aL [rL cL]] [sI aI [rI cI]] [sM aM [rM cM]] [sA aA [rA cA]].
have tr T T' (h : same T T') : trow T = N -> tcol T = N -> get_op N (OOp T') None = Ok T'.
  by case: h => [-> -> _ _]; exact: get_op_ok.
rewrite /Timings.sys_init /= (tr _ _ sA) // (tr _ _ sM) // (tr _ _ sI) // (tr _ _ sL) // (tr _ _ sP) //=.
have := t_mul_same sL sA; case: (t_mul L A) => [LA|e]; case: (t_mul L' A') => [LA'|e'] //= sLA.
have := t_mul_same sLA sP; case: (t_mul LA P) => [LAP|e]; case: (t_mul LA' P') => [LAP'|e'] //= sLAP.
rewrite -/N ei /= -!/(rest _ _ _ _ _ _ _ _).
rewrite (pure_rest _ _ _ _ _ _ _ hi1) (pure_rest _ _ _ _ _ _ _ hi2) (vmul_same _ sL).
case: (vmul L' _) => //= Mlb; rewrite (vmul_same _ sM); case: (vmul M' _) => //= MMlb.
case: (vi _ _) => //= m; case: (npost m) => //= n; split=> //=; by exists vi.
Qed.

Lemma pure_residual s vi z : ip_pure (a_ip s) vi -> pureW (tresidual clock npost s (Some z))
  (let! Az := vmul (a_A s) z in let! r := arr_sub (a_b s) Az in
   let! Mlr := vmul (a_Ml s) r in let! MMlr := vmul (a_M s) Mlr in
   let! n := (let! m := vi Mlr MMlr in npost m) in Ok (MMlr, Mlr, n)).
Proof.
move=> h; apply: pure_bind => [|Az _]; first exact: pure_mul.
apply: pure_bindR => r _; apply: pure_bind => [|Mlr _]; first exact: pure_mul.
apply: pure_bind => [|MMlr _]; first exact: pure_mul.
by apply: pure_bind => //; apply: pure_bind => // a _; exact: pure_ret.
Qed.

Lemma agree_residual s s' z w w' : agree s s' ->
  (tresidual clock npost s z w).1 = (tresidual clock npost s' z w').1.
Proof.
move=> ag; have [vi h1 h2] := ag_ip ag.
have [eb _ _ _ _] := ag_data ag; have [e1 e2 e3] := ag_rhs ag.
case: z => [z|]; last by rewrite /= e1 e2 e3.
rewrite (pure_residual z h1) (pure_residual z h2).
rewrite (vmul_same _ (proj1 (ag_A ag))) eb; case: (vmul _ z) => //= Az.
case: (arr_sub _ _) => //= r; rewrite (vmul_same _ (proj1 (ag_Ml ag))).
case: (vmul _ r) => //= Mlr; rewrite (vmul_same _ (proj1 (ag_M ag))).
by case: (vmul _ _).
Qed.

(** Re-running the constructor on the attributes of a system. *)
Definition args_of (s : tsys R K C) : sysargs R K C :=
  SysArgs (OOp (a_A s)) (a_b s) (OOp (a_M s)) (OOp (a_Minv s)) (OOp (a_Ml s))
    (OOp (a_Mr s)) (match a_ip s with AOp T => IOp R (OOp T) | AFun f => IFun f end)
    (Some (a_normal s)) (a_sa s) (a_pd s) (a_exact s).

(** A system that the constructor has built. *)
Definition built (s : tsys R K C) := exists g w, iparg_ok (g_ip g) /\ (sys_init g w).1 = Ok s.

Lemma get_op_shape N o k (T : top) : get_op N o k = Ok T -> trow T = N /\ tcol T = N.
Proof.
rewrite /get_op; case: (match o with ONone => _ | OArr _ => _ | OOp _ => _ | OOther => _ end) => //= r.
by case: ifP => // /negbT; rewrite negb_or !negbK => /andP[/eqP a /eqP b] [<-].
Qed.

Lemma fst_bindR A B (r : res A) (f : A -> W B) w b : (bindR r f w).1 = Ok b ->
  exists2 a, r = Ok a & (f a w).1 = Ok b.
Proof. by case: r => //= a h; exists a. Qed.

Lemma reinit s w : built s -> iparg_ok (g_ip (args_of s)) /\ (sys_init (args_of s) w).1 = Ok s.
Proof.
case=> g [w0 [hip]]; rewrite /Timings.sys_init; set N := nrow _.
move=> E; have [A hA {}E] := fst_bindR E; have [M hM {}E] := fst_bindR E.
have [I hI {}E] := fst_bindR E; have [L hL {}E] := fst_bindR E; have [P hP {}E] := fst_bindR E.
have [LAP hLAP {}E] := fst_bindR E; have [ip hip' {}E] := fst_bindR E.
move: E; rewrite -/(rest g A M I L P LAP ip) => E.
have [[rA cA] [rM cM]] := (get_op_shape hA, get_op_shape hM).
have [[rI cI] [rL cL]] := (get_op_shape hI, get_op_shape hL).
have [rP cP] := get_op_shape hP.
have hipa : exists2 vi, ip_pure ip vi & match ip with AOp T => trow T = N /\ tcol T = N | AFun f => True end.
  move: hip hip'; case: (g_ip g) => [o _|f [vi hf] [<-]]; last by exists vi.
  case E1: (get_op N o None) => [T|] //= [<-]; exists (vinner T); first exact: pure_inner.
  exact: get_op_shape E1.
case: hipa => vi hvi hsh.
move: E; rewrite (pure_rest _ _ _ _ _ _ _ hvi).
case E1: (vmul L (g_b g)) => [Mlb|] //=; case E2: (vmul M Mlb) => [MMlb|] //=.
case E3: (vi Mlb MMlb) => [m|] //=; case E4: (npost m) => [n|] //= [es].
set s0 := TSys _ _ _ _ _ _ _ _ _ _ _ _ _ _ _ in es.
split; first by rewrite -es /=; case: (ip) hvi => //= f hf; exists vi.
rewrite -es /= -/N !get_op_ok //= hLAP /=.
have -> : match (match ip with AOp T => IOp R (OOp T) | AFun f => IFun f end) with
          | IOp o => rmap (@AOp R K C) (get_op N o None) | IFun f => Ok (AFun f) end = Ok ip.
  by case: (ip) hsh => [T [r c]|f _] //; rewrite get_op_ok.
rewrite /= -/(rest (args_of s0) A M I L P LAP ip) (pure_rest _ _ _ _ _ _ _ hvi) /= E1 /= E2 /= E3 /= E4 /=.
by rewrite /s0; case: (g_sa g).
Qed.

Lemma converted_agree s w : built s -> exists2 s', (converted_init s w).1 = Ok s' & agree s s'.
Proof.
move=> b; have [hip e] := reinit w b.
have := timed_agree hip w w; rewrite e.
by rewrite /Timings.converted_init -/(args_of s); case: (timed_init _ w).1 => // s'; exists s'.
Qed.

(** Bookkeeping. *)
Lemma timer_of_set (tm : timings R K) k t j :
  timer_of (set_timer tm k t) j = if j == k then t else timer_of tm j.
Proof. by rewrite /timer_of /set_timer; case: eqP. Qed.

Definition entries (w : world R K) k : seq R := t_list (timer_of (w_tm w) k).

Lemma with_timerP A k (body : W A) (w : world R K) (r : res A) w2 :
  body (enter clock k w) = (r, w2) ->
  timer_of (w_tm w2) k = timer_of (w_tm (enter clock k w)) k ->
  exists w3, [/\ with_timer clock k body w = (r, w3),
    entries w3 k = rcons (entries w k) (clock (w_now w2) - clock (w_now w)),
    forall j, j != k -> w_tm w3 j = w_tm w2 j
  & w_now w3 = (w_now w2).+1].
Proof.
move=> e ht; exists (exit clock k w2); split=> //; first by rewrite /with_timer e.
- rewrite /entries /exit /= timer_of_set eqxx /= ht /= timer_of_set eqxx //=.
- by move=> j /negbTE n; rewrite /exit /set_timer /= n.
Qed.

Lemma set_last_rcons (s : seq R) x y : set_last (rcons s x) y = rcons s y.
Proof. by rewrite /set_last size_rcons /= -[rcons s x]cats1 take_size_cat. Qed.

Lemma timed_base k A X w : (0 < ncol X)%N ->
  exists w', [/\ tdot (TTimed k (TBase K A)) X w = (dot A X, w'),
    entries w' k = rcons (entries w k)
      ((clock (w_now w).+1 - clock (w_now w)) / (if is_ok (dot A X) then (ncol X)%:R else 1)),
    forall j, j != k -> w_tm w' j = w_tm w j
  & w_now w' = (w_now w).+2].
Proof.
move=> h; rewrite /= gtn_eqF // /timed_apply /bindW /with_timer /ret /=.
case: (dot A X) => [Y|e] /=.
  eexists; split; first reflexivity.
  - rewrite /entries; do 4!rewrite /= ?timer_of_set ?eqxx.
    by rewrite last_rcons set_last_rcons.
  - by move=> j /negbTE n; rewrite /= /set_timer n.
  - by [].
eexists; split; first reflexivity.
- by rewrite /entries; do 4!rewrite /= ?timer_of_set ?eqxx; rewrite divr1.
- by move=> j /negbTE n; rewrite /= /set_timer n.
- by [].
Qed.

Lemma timed_base_adj k A X w : (0 < ncol X)%N ->
  exists w', [/\ tdot_adj (TTimed k (TBase K A)) X w = (dot_adj A X, w'),
    entries w' k = rcons (entries w k)
      ((clock (w_now w).+1 - clock (w_now w)) / (if is_ok (dot_adj A X) then (ncol X)%:R else 1)),
    forall j, j != k -> w_tm w' j = w_tm w j
  & w_now w' = (w_now w).+2].
Proof.
move=> h; rewrite /= gtn_eqF // /timed_apply /bindW /with_timer /ret /=.
case: (dot_adj A X) => [Y|e] /=.
  eexists; split; first reflexivity.
  - rewrite /entries; do 4!rewrite /= ?timer_of_set ?eqxx.
    by rewrite last_rcons set_last_rcons.
  - by move=> j /negbTE n; rewrite /= /set_timer n.
  - by [].
eexists; split; first reflexivity.
- by rewrite /entries; do 4!rewrite /= ?timer_of_set ?eqxx; rewrite divr1.
- by move=> j /negbTE n; rewrite /= /set_timer n.
- by [].
Qed.

Lemma foldl_min (x : R) s : foldl Num.min x s \in x :: s /\ forall y, y \in x :: s -> foldl Num.min x s <= y.
Proof.
elim: s x => [|z s IH] x /=; first by split=> [|y]; rewrite ?inE ?eqxx // => /eqP->.
have [h1 h2] := IH (Num.min x z); split.
  move: h1; rewrite !inE => /orP[/eqP->|->]; last by rewrite !orbT.
  by rewrite minEle; case: ifP; rewrite eqxx ?orbT.
move=> y; rewrite !inE => /or3P[/eqP->|/eqP->|ys].
- by apply: le_trans (h2 (Num.min x z) _) _; rewrite ?inE ?eqxx // le_minl lexx.
- by apply: le_trans (h2 (Num.min x z) _) _; rewrite ?inE ?eqxx // le_minl lexx orbT.
- by apply: h2; rewrite inE ys orbT.
Qed.

Lemma tget_opsE tm (ops : seq (K * R)) : tget_ops tm ops = \sum_(oc <- ops) tget tm oc.1 * oc.2.
Proof.
rewrite /tget_ops; set f := fun _ _ => _.
suff h a : foldl f a ops = a + \sum_(oc <- ops) tget tm oc.1 * oc.2 by rewrite h add0r.
elim: ops a => [|oc ops IH] a /=; first by rewrite big_nil addr0.
by rewrite IH big_cons addrA.
Qed.
End Proofs.
