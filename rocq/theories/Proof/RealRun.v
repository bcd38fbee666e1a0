(** Runs of the solvers with real data. *)
From mathcomp Require Import all_ssreflect all_algebra.
From Verif Require Import Base Spec.LinAlg Spec.Dtype Model.LinearOperator Model.Dtype Proof.Dtype.
From Verif Require Import Model.Inner Model.Arnoldi Model.Solver Model.LinearSystem Model.Krylov.

Set Implicit Arguments.
Unset Strict Implicit.
Unset Printing Implicit Defensive.
Import Order.TTheory GRing.Theory Num.Theory.
Local Open Scope ring_scope.
Local Arguments bind {A B} m f : simpl never.
Local Arguments has_dtype {C} d x : simpl never.
Local Arguments norm {C N} x y B : simpl never.
Local Arguments forn {S} n body s : simpl never.

Section Real.
Variable C : numClosedFieldType.
Local Notation rl := (has_dtype DFloat).
Local Notation rv := (mx_dtype DFloat).

Lemma rlV (x : C) : rl x -> rl x^-1. Proof. by rewrite /has_dtype => h; rewrite rpredV. Qed.
Lemma rlB (x y : C) : rl x -> rl y -> rl (x - y). Proof. by move=> hx hy; apply: hdD => //; apply: hdN. Qed.
Lemma rl_norm (x : C) : rl `|x|. Proof. exact: normr_real. Qed.
Lemma rl_ge0 (x : C) : 0 <= x -> rl x. Proof. exact: ger0_real. Qed.
Lemma rl_sqrt (x : C) : 0 <= x -> rl (sqrtC x). Proof. by move=> h; apply: rl_ge0; rewrite sqrtC_ge0. Qed.
Lemma rl_sq (x : C) : rl x -> 0 <= x ^+ 2. Proof. by move=> h; rewrite real_exprn_even_ge0. Qed.
Lemma rlX (x : C) n : rl x -> rl (x ^+ n). Proof. by rewrite /has_dtype => h; rewrite rpredX. Qed.
Lemma rl_Re (x : C) : rl ('Re x). Proof. exact: Creal_Re. Qed.
Lemma rl_nat n : rl (n%:R : C). Proof. exact: realn. Qed.

Lemma rvB m n (X Y : 'M[C]_(m, n)) : rv X -> rv Y -> rv (X - Y).
Proof. by move=> hX hY i j; rewrite !mxE; apply: rlB. Qed.
Lemma rv_tconj m n (X : 'M[C]_(m, n)) : rv X -> rv (tconj X).
Proof. by move=> h i j; rewrite !mxE; apply: hdJ. Qed.

Lemma norm_rl N (x : 'cV[C]_N) y B r : norm x y B = Ok r -> rl r.
Proof.
rewrite /norm; case: y => [y|]; case: B => [|B|f]; try (case: ifP => // _); move=> [<-]; apply: rl_sqrt; rewrite ?normr_ge0 //.
by apply: sumr_ge0 => i _; rewrite exprn_ge0.
Qed.

Lemma norm2_rl N (x : 'cV[C]_N) : rl (norm2 x).
Proof. by apply: rl_sqrt; apply: sumr_ge0 => i _; rewrite exprn_ge0. Qed.

Definition hr n (h : house C n) : Prop := [/\ rv (hv h), rl (halpha h) & rl (hbeta h)].

Lemma set0_rv n (x : 'cV[C]_n.+1) a : rv x -> rl a -> rv (set0 x a).
Proof. by move=> hx ha i j; rewrite mxE; case: ifP => // _; apply: hx. Qed.

Lemma mk_house_rl n (x : 'cV[C]_n.+1) : rv x -> hr (mk_house x).
Proof.
move=> hx; have h1 := hd1 C DFloat; have g := hx 0 0; have v1 := set0_rv hx h1; have n2 := rl_nat 2; have z := hd0 C DFloat.
have q : rl (x 0 0 / `|x 0 0|) by apply: hdM => //; apply: rlV; apply: rl_norm.
have xn s : rl s -> rl (sqrtC (`|x 0 0| ^+ 2 + s ^+ 2)).
  by move=> hs; apply: rl_sqrt; apply: addr_ge0; apply: rl_sq => //; apply: rl_norm.
have inv v s : rl s -> rv v -> rv ((sqrtC (`|v 0 0 : C| ^+ 2 + s ^+ 2))^-1 *: (v : 'cV[C]_n.+1)).
  move=> hs hv; apply: mdZ => //; apply: rlV; apply: rl_sqrt; by apply: addr_ge0; apply: rl_sq => //; apply: rl_norm.
have sg : rl (sqrtC (\sum_(i | i != 0) `|(set0 x 1) i 0| ^+ 2)).
  by apply: rl_sqrt; apply: sumr_ge0 => i _; rewrite exprn_ge0.
rewrite /mk_house; case: ifP => _; first by split=> //=; [exact: inv|case: ifP].
case: ifP => _; first by split=> //=; [exact: inv|case: ifP].
case: ifP => _.
  by split=> //=; apply: inv => //; apply: set0_rv => //; apply: hdN.
split=> //=; last by rewrite mulNr; exact: (hdN (d := DFloat) q).
by apply: inv => //; apply: set0_rv => //; apply: hdD => //; apply: hdM => //; apply: xn.
Qed.

Lemma house_apply_rl n (h : house C n) k (X : 'M[C]_(n, k)) : hr h -> rv X -> rv (house_apply h X).
Proof.
case=> h1 h2 h3 hX; rewrite /house_apply; case: ifP => // _; apply: rvB => //; apply: mdZ => //.
by apply: mdM => //; apply: mdM => //; apply: rv_tconj.
Qed.

Definition gl (g : givens C) : Prop := [/\ rl (gc g), rl (gs g) & rl (gr g)].

Lemma mk_givens_rl a b : rl a -> rl b -> gl (mk_givens a b).
Proof.
move=> ha hb; rewrite /mk_givens; have -> : (a \is Num.real) && (b \is Num.real) by rewrite (ha : _ \is _).
rewrite /drotg; case: ifP => _.
  by split=> /=; [exact: hd1|exact: hd0|rewrite mul1r mul0r addr0].
set r := _ * (_ * _); have hr : rl r.
  have n0 : rl (`|a| + `|b|) by apply: hdD; apply: rl_norm.
  have q z : rl z -> 0 <= (z / (`|a| + `|b|)) ^+ 2 by move=> hz; rewrite real_exprn_even_ge0 //; apply: hdM hz (rlV n0).
  apply: hdM; first by rewrite /sgnz; case: ifP => _; [apply: hdN|]; exact: hd1.
  by apply: hdM => //; apply: rl_sqrt; rewrite addr_ge0 ?q.
have h1 : rl (a / r) by apply: hdM => //; apply: rlV.
have h2 : rl (b / r) by apply: hdM => //; apply: rlV.
by split=> //=; apply: hdD; apply: hdM.
Qed.

Lemma givens_apply_rl g u w : gl g -> rl u -> rl w -> rl (givens_apply g u w).1 /\ rl (givens_apply g u w).2.
Proof.
case=> h1 h2 h3 hu hw; split=> /=; apply: hdD; apply: hdM => //; by apply: hdN; apply: hdJ.
Qed.

Lemma rot_rl g i (f : nat -> C) : gl g -> (forall k, rl (f k)) -> forall k, rl (rot g i f k).
Proof.
move=> hg hf k; have [h1 h2] := givens_apply_rl hg (hf i) (hf i.+1).
by rewrite /rot; case: givens_apply h1 h2 => u w /= h1 h2; rewrite /upd; case: ifP => // _; case: ifP.
Qed.

Lemma forn_inv S (P : S -> Prop) n (f : nat -> S -> S) s : P s -> (forall i s, P s -> P (f i s)) -> P (forn n f s).
Proof. by move=> h0 h; elim: n => // n IH; rewrite fornS; apply: h. Qed.

Section Arnoldi.
Variable N : nat.
Local Notation vec := 'cV[C]_N.
Variable snorm : nat -> nat -> (nat -> nat -> C) -> C.
Variable c : acfg C N.
Definition fl (f : vec -> vec) : Prop := forall x, rv x -> rv (f x).
Definition ofl (f : option (vec -> vec)) : Prop := if f is Some f then fl f else True.
Definition bl (B : ipB C N) : Prop := forall x y, rv x -> rv y -> rl (ip1 B x y).
Hypothesis hA : fl (cA c).
Hypothesis hM : ofl (cM c).
Hypothesis hB : bl (cB c).

Record ar (a : arn C N) : Prop := Ar {
  ar_V : forall j, rv (a_V a j);
  ar_P : forall j, rv (a_P a j);
  ar_H : forall i j, rl (a_H a i j);
  ar_n : rl (a_vnorm a);
  ar_h : forall h, List.In h (a_houses a) -> hr h }.

Lemma slice_rv j (x : vec) : rv x -> rv (slice j x).
Proof. by move=> h i k; rewrite mxE /ent; case: insub => [o|]; [apply: h|apply: hd0]. Qed.
Lemma ent_rl n (x : 'cV[C]_n) i : rv x -> rl (ent x i).
Proof. by move=> h; rewrite /ent; case: insub => [o|]; [apply: h|apply: hd0]. Qed.
Lemma house_at_rl j (x : vec) : rv x -> hr (house_at j x).
Proof.
move=> hx; have [h1 h2 h3] := mk_house_rl (@slice_rv j x hx); split=> //= i k; rewrite mxE.
by case: ifP => _; [apply: ent_rl|apply: hd0].
Qed.

Lemma arn_init_rl v Mv nr a : rv v -> (if Mv is Some w then rv w else True) -> (if nr is Some r then rl r else True) ->
  arn_init c v Mv nr = Ok a -> ar a.
Proof.
move=> hv hMv hnr; have z := @md0 C DFloat N 1; have z0 := hd0 C DFloat.
have fin w b : rv w -> ar b -> ar (if 0 < a_vnorm b
      then Arn 0 (upd (a_V b) 0 ((a_vnorm b)^-1 *: w)) (a_P b) (a_H b) false (a_vnorm b) (a_houses b)
      else Arn 0 (a_V b) (a_P b) (a_H b) true (a_vnorm b) (a_houses b)).
  move=> hw [b1 b2 b3 b4 b5]; case: ifP => _; split=> //= j; rewrite /upd; case: ifP => // _.
  by apply: mdZ => //; apply: rlV.
have gs E : init_gs c v Mv nr = Ok E -> rv E.1 /\ ar E.2.
  rewrite /init_gs; move: hM; case: (cM c) => [M|] hM' E0.
    have {E0} [r Er [<-]] := bind_ok E0.
    have rr : rl r by move: Er hnr; case: (nr) => [r'|]; [move=> [<-]|move=> /norm_rl].
    have rw : rv (if Mv is Some w then w else M v) by move: hMv; case: (Mv) => // _; apply: hM'.
    split=> //=; case: ifP => _; split=> //= j; rewrite /upd; case: ifP => // _.
    by apply: mdZ => //; apply: rlV.
  have {E0} [r Er [<-]] := bind_ok E0.
  have rr : rl r by move: Er hnr; case: (nr) => [r'|]; [move=> [<-]|move=> /norm_rl].
  by [].
have hs E : init_house c v = Ok E -> rv E.1 /\ ar E.2.
  have q T (u w e : T) : (if N is 0 then u else w) = e -> e = u \/ e = w by case: (N) => [|?] <-; [left|right].
  rewrite /init_house; case: (cM c) => //; case: (cB c) => // E0; case: (q _ _ _ _ E0) => // -[->]; split=> //; split=> //=; first exact: norm2_rl.
  by move=> h [<-|//]; apply: house_at_rl.
rewrite /arn_init => E0; have {E0} [[w b] Ew [<-]] := bind_ok E0.
suff [h1 h2] : rv w /\ ar b by apply: fin.
by move: Ew; case: (cortho c) => // E0; [exact: gs _ E0|exact: gs _ E0|exact: gs _ E0|exact: hs _ E0].
Qed.

Lemma sub_basis_rv V P j : (forall j, rv (V j)) -> (forall j, rv (P j)) -> rv (sub_basis c V P j).
Proof. by rewrite /sub_basis => hV hP; case: (cM c). Qed.

Definition st_rl (s : (nat -> nat -> C) * vec) : Prop := (forall i j, rl (s.1 i j)) /\ rv s.2.

Lemma upd2_rl (H : nat -> nat -> C) i j a : (forall i j, rl (H i j)) -> rl a -> forall k l, rl (upd2 H i j a k l).
Proof. by move=> hH ha k l; rewrite /upd2; case: ifP. Qed.
Lemma upd_rv (V : nat -> vec) i a : (forall j, rv (V j)) -> rv a -> forall j, rv (upd V i a j).
Proof. by move=> hV ha j; rewrite /upd; case: ifP. Qed.

Lemma orth_body_rl V P k j s : (forall j, rv (V j)) -> (forall j, rv (P j)) -> st_rl s -> st_rl (orth_body c V P k j s).
Proof.
move=> hV hP; case: s => H Av [/= h1 h2]; set al := if is_lanczos _ then _ else _.
have ha : rl al by rewrite /al; case: ifP => _; [exact: rl_Re|exact: hB].
split=> /=; first by apply: upd2_rl => //; apply: hdD.
by apply: rvB => //; apply: mdZ => //; apply: sub_basis_rv.
Qed.

Lemma advance_gs_rl a a' : ar a -> advance_gs snorm c a = Ok a' -> ar a'.
Proof.
move=> [h1 h2 h3 h4 h5]; rewrite /advance_gs.
set p0 := (if is_lanczos _ && _ then _ else _); have s0 : st_rl p0.
  rewrite /p0; case: ifP => _; last by split=> //=; apply: hA.
  split=> /=; first exact: upd2_rl.
  apply: rvB; first exact: hA.
  by apply: mdZ; [exact: upd2_rl|exact: sub_basis_rv].
case: p0 s0 => H0 Av0 s0; set q := forn _ _ _; have sq : st_rl q.
  by apply: forn_inv => // i s hs; apply: forn_inv => // i' s' hs'; apply: orth_body_rl.
case: q sq => H Av [/= g1 g2] E0; have {E0} [nr En E0] := bind_ok E0.
have hn : rl nr by move: En; case: (cM c) => [M|] E1; exact: norm_rl E1.
have hMA : rv (if cM c is Some M then M Av else Av) by move: hM; case: (cM c) => // M; apply.
have {E0} [b Eb] := bind_ok E0; have u := upd2_rl a.(a_iter).+1 (a_iter a) g1 hn.
case: b Eb => Eb; first by move=> [<-].
case: ifP => // _ [<-]; split=> //=.
  by apply: upd_rv => //; apply: mdZ => //; apply: rlV.
by case: (cM c) => // M; apply: upd_rv => //; apply: mdZ => //; apply: rlV.
Qed.

Lemma nth_hr (hs : seq (house C N)) j : (forall h, List.In h hs -> hr h) -> hr (nth (house0 C N) hs j).
Proof.
elim: hs j => [|h hs IH] [|j] /= hh; try by split=> /=; [exact: md0|exact: hd1|exact: hd0].
  by apply: hh; left.
by apply: IH => g hg; apply: hh; right.
Qed.

Lemma last_hr (hs : seq (house C N)) : (forall h, List.In h hs -> hr h) -> hr (last (house0 C N) hs).
Proof. by move=> h; rewrite -nth_last; apply: nth_hr. Qed.

Lemma advance_house_rl a a' : ar a -> advance_house snorm c a = Ok a' -> ar a'.
Proof.
move=> [h1 h2 h3 h4 h5]; rewrite /advance_house; set Av := forn _ _ _.
have sc j al x : rl al -> rv x -> rv (scale_at j al (x : vec)).
  by move=> ha hx i k; rewrite mxE; case: ifP => _ //; apply: hdM.
have sf j al x : rl al -> rv x -> rv (scale_from j al (x : vec)).
  by move=> ha hx i k; rewrite mxE; case: ifP => _ //; apply: hdM.
have hAv : rv Av.
  apply: forn_inv => [|i x hx]; first exact: hA.
  have hh := nth_hr i h5; apply: sc; first by case: hh => ? hh2 ?; exact: hdJ hh2.
  exact: house_apply_rl.
set tr := (if (_ < _)%N then _ else _); have htr : (forall h, List.In h tr.1.1 -> hr h) /\ rv tr.1.2.
  rewrite /tr; case: ifP => _ //=; have hh := @house_at_rl (a_iter a).+1 Av hAv; split.
    by move=> h; rewrite -cats1 => hi; case: (List.in_app_or _ _ _ hi) => [|[<-|[]]] //; apply: h5.
  apply: sf; first by case: hh => ? hh2 ?; exact: hdJ hh2.
  exact: house_apply_rl.
case: tr htr => -[hs Aw] rows /= [g1 g2].
set H := fun i j => if _ then _ else _; have hH i j : rl (H i j) by rewrite /H; case: ifP => // _; apply: ent_rl.
have u := upd2_rl a.(a_iter).+1 (a_iter a) hH (rl_norm (H (a_iter a).+1 (a_iter a))).
move=> E0; have {E0} [b Eb] := bind_ok E0; case: b Eb => Eb; first by move=> [<-].
case: ifP => // _ [<-]; split=> //=; apply: upd_rv => //; apply: mdZ; first by case: (last_hr g1).
apply: forn_inv => [i j|i x hx]; last by apply: house_apply_rl => //; apply: nth_hr.
by rewrite mxE; case: ifP => _; [exact: hd1|exact: hd0].
Qed.

Lemma advance_rl a a' : ar a -> advance snorm c a = Ok a' -> ar a'.
Proof.
move=> ha; rewrite /advance; case: ifP => // _; case: ifP => // _.
by case: (cortho c); [| | |exact: advance_house_rl|]; exact: advance_gs_rl.
Qed.

Lemma arnoldi_rl v Mv nr a : rv v -> (if Mv is Some w then rv w else True) -> (if nr is Some r then rl r else True) ->
  arnoldi snorm c v Mv nr = Ok a -> ar a.
Proof.
move=> hv hMv hnr E0; have {E0} [a0 Ea] := bind_ok E0; have := arn_init_rl hv hMv hnr Ea.
elim: (cmaxiter c) a0 {Ea} => [|n IH] b hb /=; case: ifP => _ //; try by move=> [<-].
by move=> E0; have {E0} [b' Eb] := bind_ok E0; apply: IH; apply: advance_rl Eb.
Qed.
End Arnoldi.

(** The solvers *)
Section Solvers.
Variable N : nat.
Local Notation vec := 'cV[C]_N.
Variable snorm : nat -> nat -> (nat -> nat -> C) -> C.
Variables (d : kdata C N) (maxiter : nat).
Hypothesis hA : fl (k_A d).
Hypothesis hM : ofl (k_M d).
Hypothesis hB : bl (k_B d).
Hypothesis hMr : fl (k_Mr d).
Hypothesis hfix : forall x y, rv x -> k_fix d x = Ok y -> rv y.
Hypothesis hres : forall x0 t, (if x0 is Some x then rv x else True) -> k_res0 d x0 = Ok t -> [/\ rv t.1.1, rv t.1.2 & rl t.2].

Lemma backsub_rl R b k n : (forall i j, rl (R i j)) -> (forall i, rl (b i)) -> forall i, rl (backsub (R : nat -> nat -> C) b k n i).
Proof.
move=> hR hb; elim: n => [|n IH] i /=; first exact: hd0.
rewrite /upd; case: ifP => // _; apply: hdM; last exact: rlV.
by apply: rlB => //; apply: hd_sum => j _; apply: hdM.
Qed.

Section Ortho.
Variable ortho : ortho_t.

Lemma k_arn_rl x0 p : (if x0 is Some x then rv x else True) -> k_arn d maxiter ortho x0 = Ok p -> ar p.1 /\ rl p.2.
Proof.
move=> hx E0; have {E0} [[[r z] nr] Er E0] := bind_ok E0; have [/= h1 h2 h3] := hres hx Er.
have {E0} [a Ea [<-]] := bind_ok E0; split=> //=.
by apply: arn_init_rl Ea.
Qed.

Record gmr (t : gmst C N) : Prop := Gmr {
  gmr_x : rv (gm_x0 t); gmr_a : ar (gm_a t); gmr_G : forall i, gl (nth (givens0 C) (gm_G t) i);
  gmr_R : forall i j, rl (gm_R t i j); gmr_y : forall i, rl (gm_y t i) }.

Lemma gmres_start_rl x0 x t : (if x0 is Some x then rv x else True) -> rv x -> gmres_start d maxiter ortho x0 x = Ok t -> gmr t.
Proof.
move=> h0 hx E0; have {E0} [[a nr] Ea [<-]] := bind_ok E0; have [/= h1 h2] := k_arn_rl h0 Ea.
split=> //= [i|i j|i]; last by rewrite /upd; case: ifP => _ //; apply: hd0.
  by rewrite nth_nil; split=> /=; [exact: hd1|exact: hd0|exact: hd0].
exact: hd0.
Qed.

Lemma gmres_step_rl t p : gmr t -> gmres_step snorm d maxiter ortho t = Ok p -> gmr p.1.
Proof.
move=> [h1 h2 h3 h4 h5] E0; have {E0} [a Ea] := bind_ok E0.
have ha : ar a by apply: advance_rl Ea.
cbv zeta; set c0 := forn _ _ _; have hc : forall i, rl (c0 i).
  apply: (@forn_inv _ (fun f => forall i, rl (f i))) => [i|i f hf]; first by case: ifP => _ //; exact: (ar_H ha).
  exact: rot_rl.
move=> [<-] /=; have hg := mk_givens_rl (hc (a_iter (gm_a t))) (hc (a_iter (gm_a t)).+1).
split=> //= [i|i j|i].
- rewrite nth_rcons; case: ifP => _ //; case: ifP => _ //; by split=> /=; [exact: hd1|exact: hd0|exact: hd0].
- by case: ifP => _ //; apply: rot_rl.
exact: rot_rl.
Qed.

Lemma gmres_getx_rl t x : gmr t -> gmres_getx d t = Ok x -> rv x.
Proof.
move=> [h1 h2 h3 h4 h5]; rewrite /gmres_getx; case: ifP => _; last exact: hfix.
move=> E0; have {E0} [yy Ey] := bind_ok E0; apply: hfix; apply: mdD => //; apply: hMr.
have hy i : rl (yy i) by move: Ey; rewrite /solve_tri; case: ifP => // _ [<-]; exact: backsub_rl.
elim/big_rec: _ => [|i x' _ hx]; first exact: md0.
by apply: mdD => //; apply: mdZ => //; apply: (ar_V h2).
Qed.

Record mrr (t : mrst C N) : Prop := Mrr {
  mrr_x : rv (mr_x0 t); mrr_a : ar (mr_a t); mrr_W0 : rv (mr_W0 t); mrr_W1 : rv (mr_W1 t); mrr_y : rl (mr_y t);
  mrr_G1 : if mr_G1 t is Some g then gl g else True; mrr_G2 : if mr_G2 t is Some g then gl g else True; mrr_yk : rv (mr_yk t) }.

Lemma minres_start_rl x0 x t : (if x0 is Some x then rv x else True) -> rv x -> minres_start d maxiter ortho x0 x = Ok t -> mrr t.
Proof.
move=> h0 hx E0; have {E0} [[a nr] Ea [<-]] := bind_ok E0; have [/= h1 h2] := k_arn_rl h0 Ea.
by split=> //=; exact: md0.
Qed.

Lemma ogl (g : option (givens C)) u w : (if g is Some g then gl g else True) -> rl u -> rl w ->
  let p := if g is Some g then givens_apply g u w else (u, w) in rl p.1 /\ rl p.2.
Proof. by case: g => [g|] hg hu hw //=; apply: givens_apply_rl. Qed.

Lemma minres_step_rl t p : mrr t -> minres_step snorm d maxiter ortho t = Ok p -> mrr p.1.
Proof.
move=> [h1 h2 h3 h4 h5 h6 h7 h8] E0; have {E0} [a Ea] := bind_ok E0.
have ha : ar a by apply: advance_rl Ea.
cbv zeta; set r1 := 'Re _; have [] := ogl h6 (hd0 C DFloat) (rl_Re _ : rl r1).
case: (if mr_G1 t is Some g then _ else _) => R0 R1 /= q0 q1.
set r2 := 'Re (a_H a _ _); set r3 := 'Re (a_H a _.+1 _); have [] := ogl h7 q1 (rl_Re _ : rl r2).
case: (if mr_G2 t is Some g then _ else _) => S1 R2 /= q2 q3.
have hg := mk_givens_rl q3 (rl_Re _ : rl r3); set g := mk_givens _ _ in hg *.
have [y0r y1r] := givens_apply_rl hg h5 (hd0 C DFloat).
case: ifP => // _ [<-] /=.
have hz : rv ((gr g)^-1 *: (a_V a (a_iter (mr_a t)) - R0 *: mr_W0 t - S1 *: mr_W1 t)).
  apply: mdZ; first by case: hg => _ _ /rlV.
  by apply: rvB; [apply: rvB|]; [exact: (ar_V ha)|apply: mdZ|apply: mdZ].
split=> //=.
by apply: mdD => //; apply: mdZ => //; exact: y0r.
Qed.

Lemma minres_getx_rl t x : mrr t -> minres_getx d t = Ok x -> rv x.
Proof. by case=> h1 _ _ _ _ _ _ h2; apply: hfix; apply: mdD => //; apply: hMr. Qed.
End Ortho.

Section Cg.
Variable store : bool.
Record cgr (t : cgst C N) : Prop := Cgr {
  cgr_x : rv (cg_x0 t); cgr_yk : rv (cg_yk t); cgr_Mlr : rv (cg_Mlr t); cgr_MMlr : rv (cg_MMlr t); cgr_p : rv (cg_p t);
  cgr_rhos : forall i, 0 <= nth 0 (cg_rhos t) i; cgr_V : forall j, rv (cg_V t j); cgr_P : forall j, rv (cg_P t j);
  cgr_H : forall i j, rl (cg_H t i j); cgr_al : rl (cg_alpha t) }.

Lemma cg_start_rl x0 x t : (if x0 is Some x then rv x else True) -> rv x -> cg_start d store x0 x = Ok t -> cgr t.
Proof.
move=> h0 hx E0; have {E0} [[[r z] nr] Er [<-]] := bind_ok E0; have [/= h1 h2 h3] := hres h0 Er.
have z0 := @md0 C DFloat N 1; have ri := rlV h3.
split=> //=; try exact: md0; try (by move=> *; exact: hd0); try exact: hd0.
- by move=> [|i] /=; [exact: rl_sq|rewrite nth_nil].
- by move=> j; case: ifP => _ //; apply: upd_rv => //; apply: mdZ.
by move=> j; case: ifP => _ //; apply: upd_rv => //; apply: mdZ.
Qed.

Lemma divE_rl x y z : rl x -> rl y -> divE x y = Ok z -> rl (z : C).
Proof. by move=> hx hy; rewrite /divE; case: ifP => // _ [<-]; apply: hdM => //; apply: rlV. Qed.

Lemma cg_step_rl t p : cgr t -> cg_step d store t = Ok p -> cgr p.1.
Proof.
move=> [h1 h2 h3 h4 h5 h6 h7 h8 h9 h10] E0; have {E0} [om Eo] := bind_ok E0.
have ho : rl om by move: Eo; case: ifP => _; [apply: divE_rl; apply: rl_ge0|move=> [<-]; exact: hd0].
set pp := if _ then _ else _; have hp : rv pp by rewrite /pp; case: ifP => _ //; apply: mdD => //; apply: mdZ.
move=> E0; have {E0} [al Eal] := bind_ok E0; have hal : rl al by apply: divE_rl Eal; [apply: rl_ge0|apply: hB => //; apply: hA].
have ha' := rl_Re al; move=> E0; have {E0} [H EH] := bind_ok E0.
have o1 := hd1 C DFloat.
have hH i j : rl (H i j).
  move: EH; case: ifP => _; last by move=> [<-].
  case: ifP => _ E0.
    have {E0} [q Eq E0] := bind_ok E0; have {E0} [r Er [<-]] := bind_ok E0.
    have hq : rl q by apply: divE_rl Eq => //; apply: hdM.
    apply: upd2_rl; last by apply: divE_rl Er => //; apply: hdD.
    exact: upd2_rl.
  by have {E0} [r Er [<-]] := bind_ok E0; apply: upd2_rl => //; apply: divE_rl Er.
set Mlr := _ - _; have hMlr : rv Mlr by apply: rvB => //; apply: mdZ => //; apply: hA.
have hMM : rv (k_Mop d Mlr) by rewrite /k_Mop; move: hM; case: (k_M d) => // M; apply.
move=> E0; have {E0} [nr En] := bind_ok E0; have hn := norm_rl En.
move=> E0; have {E0} [[[V P] H'] EV [<-]] := bind_ok E0.
have hr i : 0 <= nth 0 (nr ^+ 2 :: cg_rhos t) i by case: i => [|i] /=; [exact: rl_sq|exact: h6].
suff [g1 g2 g3] : [/\ forall j, rv (V j), forall j, rv (P j) & forall i j, rl (H' i j)].
  by split=> //=; apply: mdD => //; apply: mdZ.
move: EV; case: ifP => _; last by move=> [<- <- <-].
case: ifP => // _ E0; have {E0} [q Eq E0] := bind_ok E0; have {E0} [h Eh [<- <- <-]] := bind_ok E0.
have sg : rl ((-1) ^+ (cg_it t).+1 / nr) by apply: hdM; [apply: rlX; apply: hdN|apply: rlV].
split; first by apply: upd_rv => //; apply: mdZ.
  by case: (k_M d) => // M; apply: upd_rv => //; apply: mdZ.
apply: upd2_rl => //; apply: divE_rl Eh => //; apply: rl_sqrt.
move: Eq; rewrite /divE; case: ifP => // _ [<-].
by rewrite divr_ge0 // ?(hr 0%N) ?(hr 1%N).
Qed.

Lemma cg_feed_rl t r : rl r -> cgr t -> cgr (cg_feed t r).
Proof.
move=> hr [h1 h2 h3 h4 h5 h6 h7 h8 h9 h10]; split=> //=.
by move=> [|i] /=; [exact: rl_sq|rewrite nth_behead].
Qed.

Lemma cg_getx_rl t x : cgr t -> cg_getx d t = Ok x -> rv x.
Proof. by case=> h1 h2 *; apply: hfix; last (by eassumption); apply: mdD => //; apply: hMr. Qed.
End Cg.
End Solvers.

(** An invariant of the state of a method holds at the end of a run. *)
Section Run.
Variable N : nat.
Local Notation vec := 'cV[C]_N.
Variables (y : sys C vec) (o : opts C) (m : method C vec).
Variables (Inv : m_st m -> Prop) (Xp : vec -> Prop) (Rp : C -> Prop).
Hypothesis Xp0 : Xp 0.
Hypothesis hstart : forall x0 x t, (if x0 is Some x then Xp x else True) -> Xp x -> m_start m x0 x = Ok t -> Inv t.
Hypothesis hstep : forall t p, Inv t -> m_step t = Ok p -> Inv p.1.
Hypothesis hfeed : forall t r, Rp r -> Inv t -> Inv (m_feed t r).
Hypothesis hgetx : forall t x, Inv t -> m_getx t = Ok x -> Xp x.
Hypothesis hres : forall x r, y_resnorm y x = Ok r -> Rp r.

Definition orl (oo : outcome C vec (m_st m)) : Prop :=
  match oo with
  | Returns s | NoConvergence s => Inv (s_st s) /\ exists2 x, s_xk s = Some x & Xp x
  | Raises _ => True
  end.

Definition srl (s : sol C vec (m_st m)) : Prop := Inv (s_st s) /\ (if s_xk s is Some x then Xp x else True).

Lemma krun_inv x0 : (if x0 is Some x then Xp x else True) -> orl (krun y o m x0).
Proof.
move=> h0; rewrite /krun /run; case: (m_r0 m x0) => // r0; rewrite [bindO _ _]/=.
set xx := if _ == 0 then _ else _; have hxx : Xp xx.
  by rewrite /xx; case: ifP => _; first exact: Xp0; move: h0; case: (x0) => // _; exact: Xp0.
case: (if y_errnorm y is Some en then _ else _) => // err; rewrite [bindO _ _]/=.
case Et: (m_start m x0 xx) => [t|//]; rewrite [bindO _ _]/=; have ht := hstart h0 hxx Et.
set s0 := Sol _ _ _ _ _ _; have : srl s0.
  by split=> //=; case: ifP => _ //; exact: Xp0.
elim: (o_maxiter o) s0 => [|f IH] s [hs hx] /=; (case: ifP => _; last first).
- case Ex: (s_xk s) hx => [x|] hx; first by split=> //; exists x.
  by case Eg: (m_getx _) => [x|//]; split=> //=; exists x => //; apply: hgetx Eg.
- by [].
- case Ex: (s_xk s) hx => [x|] hx; first by split=> //; exists x.
  by case Eg: (m_getx _) => [x|//]; split=> //=; exists x => //; apply: hgetx Eg.
rewrite /body; case Es: (m_step _) => [[t1 rn]|//]; rewrite [bindO _ _]/=; have ht1 := hstep hs Es.
rewrite /finalize_iteration; set e := if y_errnorm y is Some en then _ else _.
have he : if e is Ok (Some x, _) then Xp x else True.
  rewrite /e /bind; case: (y_errnorm y) => [en|//].
  case Eg: (m_getx _) => [x|//] /=; case: (en x) => // z /=; exact: (hgetx ht1 Eg).
case: e he => // -[xk err'] he; rewrite [bindO _ _]/=; case: ifP => _; last by apply: IH; split=> //=; case: xk he.
case Ex: (if xk is Some x then Ok x else _) => [x|//]; rewrite [bindO _ _]/=.
have hxr : Xp x by case: xk he Ex => [z hz [<-]|_ Ex] //; apply: hgetx Ex.
case Er: (y_resnorm y x) => [rk|//]; rewrite [bindO _ _]/=; case: ifP => _; first by split=> //=; exists x.
by apply: IH; split=> //=; apply: hfeed => //; apply: hres Er.
Qed.
End Run.

(** The linear system *)
Section Lsys.
Variable N : nat.
Local Notation vec := 'cV[C]_N.
Variable l : lsys C N.
Hypothesis hA : fl (lA l).
Hypothesis hb : rv (lb l).
Hypothesis hM : ofl (lM l).
Hypothesis hMl : fl (lMl l).
Hypothesis hMr : fl (lMr l).
Hypothesis hB : bl (lB l).

Lemma lMop_rl x : rv x -> rv (lMop l x).
Proof. by rewrite /lMop; move: hM; case: (lM l) => // M; apply. Qed.

Lemma lMlAMr_rl : fl (lMlAMr l).
Proof. by move=> x hx; apply: hMl; apply: hA; apply: hMr. Qed.

Lemma get_residual_rl bn z t : rl bn -> (if z is Some x then rv x else True) -> get_residual l bn z = Ok t -> [/\ rv t.1.1, rv t.1.2 & rl t.2].
Proof.
have h1 := hMl hb; have h2 := lMop_rl h1.
move=> hbn; case: z => [z|] hz /=; last by move=> [<-].
move=> E0; have {E0} [n En [<-]] := bind_ok E0.
have h3 : rv (lMl l (lb l - lA l z)) by apply: hMl; apply: rvB => //; apply: hA.
by split=> //=; [exact: lMop_rl|exact: norm_rl En].
Qed.

Lemma resnorm_rl bn x r : y_resnorm (lsys_sys l bn) x = Ok r -> rl r.
Proof. by move=> E0; have {E0} [t Et [<-]] := bind_ok E0; have [n En [<-]] := bind_ok Et; exact: norm_rl En. Qed.

Variables (o : opts C) (x0 : option vec).
Hypothesis h0 : if x0 is Some x then rv x else True.
Variable snorm : nat -> nat -> (nat -> nat -> C) -> C.

Lemma gmres_rl ortho : match gmres_solve snorm l o ortho x0 with
  | Returns s | NoConvergence s => gmr (s_st s) /\ exists2 x, s_xk s = Some x & rv x
  | Raises _ => True end.
Proof.
rewrite /gmres_solve; case Eb: (lMMlb_norm l) => [bn|//]; have hbn := norm_rl Eb.
have ha := lMlAMr_rl; have hr z t := @get_residual_rl bn z t hbn.
apply: (@krun_inv _ (lsys_sys l bn) o (gmres snorm (kdata_lsys l bn) (o_maxiter o) ortho) (@gmr N) (fun x => rv x) (fun r => rl r)) => //=.
- exact: md0.
- by move=> x x' t hx hx'; apply: gmres_start_rl.
- by move=> t p; apply: gmres_step_rl.
- by move=> t x; apply: gmres_getx_rl => // z z' hz [<-].
exact: resnorm_rl.
Qed.

Lemma minres_rl ortho : match minres_solve snorm l o ortho x0 with
  | Returns s | NoConvergence s => mrr (s_st s) /\ exists2 x, s_xk s = Some x & rv x
  | Raises _ => True end.
Proof.
rewrite /minres_solve; case Eb: (lMMlb_norm l) => [bn|//]; have hbn := norm_rl Eb.
have ha := lMlAMr_rl; have hr z t := @get_residual_rl bn z t hbn.
apply: (@krun_inv _ (lsys_sys l bn) o (minres snorm (kdata_lsys l bn) (o_maxiter o) ortho) (@mrr N) (fun x => rv x) (fun r => rl r)) => //=.
- exact: md0.
- by move=> x x' t hx hx'; apply: minres_start_rl.
- by move=> t p; apply: minres_step_rl.
- by move=> t x ht E; apply: (@minres_getx_rl _ (kdata_lsys l bn) _ _ t x ht E) => // z z' hz [<-].
exact: resnorm_rl.
Qed.

Lemma cg_rl store : match cg_solve l o store x0 with
  | Returns s | NoConvergence s => cgr (s_st s) /\ exists2 x, s_xk s = Some x & rv x
  | Raises _ => True end.
Proof.
rewrite /cg_solve; case Eb: (lMMlb_norm l) => [bn|//]; have hbn := norm_rl Eb.
have ha := lMlAMr_rl; have hr z t := @get_residual_rl bn z t hbn.
apply: (@krun_inv _ (lsys_sys l bn) o (cg (kdata_lsys l bn) store) (@cgr N) (fun x => rv x) (fun r => rl r)) => //=.
- exact: md0.
- by move=> x x' t hx hx'; apply: cg_start_rl.
- by move=> t p; apply: cg_step_rl.
- by move=> t r hr'; apply: cg_feed_rl.
- by move=> t x ht E; apply: (@cg_getx_rl _ (kdata_lsys l bn) _ _ t x ht E) => // z z' hz [<-].
exact: resnorm_rl.
Qed.
End Lsys.
End Real.
