(** All orthogonalisation variants together: reachable states and totality. *)
From mathcomp Require Import all_ssreflect all_algebra.
From Verif Require Import Base Spec.LinAlg Proof.Algebra Model.Inner Spec.Inner Proof.Inner
  Proof.IpTheory Model.Arnoldi Spec.Arnoldi Proof.ArnoldiRel Proof.Arnoldi Proof.HouseArnoldi.

Set Implicit Arguments.
Unset Strict Implicit.
Unset Printing Implicit Defensive.
Import Order.TTheory GRing.Theory Num.Theory.
Local Open Scope ring_scope.

Section All.
Variable C : numClosedFieldType.
Variable N : nat.
Local Notation vec := 'cV[C]_N.
Variable snorm : nat -> nat -> (nat -> nat -> C) -> C.
Implicit Types (c : acfg C N) (v : vec) (a : arn C N).

(** Admissible arguments: mgs/dmgs, or lanczos with self-adjoint A, or house. *)
Definition arn_cfg c : Prop := gs_cfg c \/ (house_cfg c /\ (0 < N)%N).

Definition arn_st c v a : Prop :=
  arn_ok c v a /\ (house_cfg c -> a_inv a = false -> house_st a).

Lemma cfg_ip c : arn_cfg c -> is_ip (cip c).
Proof. by case=> [h|[h _]]; [apply: valid_is_ip; apply: gs_B|apply: hip_ok]. Qed.
Lemma cfg_A c : arn_cfg c -> is_linear (cA c).
Proof. by case=> [h|[h _]]; [apply: gs_A|apply: hc_A]. Qed.
Lemma cfg_M c : arn_cfg c -> is_linear (Mop c).
Proof. by case=> [h|[h _]]; [apply: gs_M|apply: hMlin]. Qed.
Lemma cfg_Msa c : arn_cfg c -> self_adjoint (cip c) (Mop c).
Proof. by case=> [h|[h _]]; [apply: gs_Msa|apply: hMsa]. Qed.
Lemma cfg_Mpd c : arn_cfg c -> pos_def (cip c) (Mop c).
Proof. by case=> [h|[h _]]; [apply: gs_Mpd|apply: hMpd]. Qed.
Lemma cfg_mip c : arn_cfg c -> is_ip (cmip c).
Proof. by move=> h; apply: hmp; [apply: cfg_ip|apply: cfg_M|apply: cfg_Msa|apply: cfg_Mpd]. Qed.

Lemma gs_not_house c : gs_cfg c -> ~ house_cfg c.
Proof. by move=> h h'; have := gs_o h; rewrite (hc_o h'). Qed.

Lemma st_gs c v a : gs_cfg c -> arn_ok c v a -> arn_st c v a.
Proof. by move=> h ha; split=> // /(gs_not_house h). Qed.
Lemma st_house c v a : house_cfg c -> house_ok c v a -> arn_st c v a.
Proof. by move=> h [h1 h2]; split. Qed.

Lemma arn_init_ok c v Mv nv : arn_cfg c -> init_args c v Mv nv ->
  exists a, [/\ arn_init c v Mv nv = Ok a, arn_st c v a, a_iter a = 0%N,
                a_inv a = (v == 0) & a_vnorm a = ipnorm (cmip c) v].
Proof.
case=> [h|[h hN]] hi.
  by have [a [h1 h2 h3 h4 h5]] := init_ok h hi; exists a; split=> //; apply: st_gs.
by have [a [h1 h2 h3 h4 h5]] := init_house_ok h v Mv nv hN; exists a; split=> //; apply: st_house.
Qed.

Lemma arn_step c v a a' : arn_cfg c -> arn_st c v a -> advance snorm c a = Ok a' ->
  [/\ arn_st c v a', a_inv a = false, (a_iter a < cmaxiter c)%N, a_iter a' = (a_iter a).+1
    & a_vnorm a' = a_vnorm a /\
      a_inv a' = (a_H a' (a_iter a).+1 (a_iter a) / snorm (a_iter a).+2 (a_iter a).+1 (a_H a') <= eps14 C)].
Proof.
case=> [h|[h hN]] [ha hh].
  rewrite (advanceE _ h); case: ifP => // /norP[]; rewrite -ltnNge => hm /negbTE hinv.
  move=> /(advance_gs_ok h ha hinv) [h1 h2 h3 h4]; split=> //; exact: st_gs.
move=> E; have [h1 h2 h3 h4 h5] := house_step h (conj ha (hh h)) E.
by split=> //; apply: st_house.
Qed.

Lemma arn_total c v a : arn_cfg c -> arn_st c v a -> bounds_entries snorm ->
  v != 0 -> cA c (Mop c v) != 0 -> ~~ a_inv a -> (a_iter a < cmaxiter c)%N ->
  exists a', advance snorm c a = Ok a'.
Proof.
case=> [h|[h hN]] [ha hh] hb v0 Av0; first by move=> h1 h2; apply: (advance_total h hb ha v0 Av0).
by apply: (house_total h hb (conj ha (hh h)) v0); rewrite (hMop h) in Av0.
Qed.

(** States reachable by calls of advance. *)
Lemma arn_reach c v Mv nv n a0 a : arn_cfg c -> init_args c v Mv nv ->
  arn_init c v Mv nv = Ok a0 -> arn_advance_n snorm c n a0 = Ok a ->
  [/\ arn_st c v a, a_iter a = n, a_vnorm a = ipnorm (cmip c) v,
     (n <= cmaxiter c)%N \/ n = 0%N &
     a_inv a = if n is k.+1 then a_H a k.+1 k / snorm k.+2 k.+1 (a_H a) <= eps14 C else v == 0].
Proof.
move=> h hi e0; have [a1 [e1 h1 h2 h3 h4]] := arn_init_ok h hi; move: e0; rewrite e1 => -[<-] {a0}.
elim: n a => [|n IH] a /=; first by case=> <-; split=> //; right.
move=> E; have [b Eb E1] := bind_ok E.
have [g1 g2 g3 g4 _] := IH b Eb; have [k1 k2 k3 k4 [k5 k6]] := arn_step h g1 E1.
split=> //; rewrite ?k4 ?k5 ?g2 //; first by left; rewrite -g2.
by rewrite k6 g2.
Qed.

Lemma arn_loop_ok c v a fuel a' : arn_cfg c -> arn_st c v a -> (cmaxiter c - a_iter a <= fuel)%N ->
  arn_loop snorm c fuel a = Ok a' -> arn_st c v a' /\
  ((cmaxiter c <= a_iter a')%N || a_inv a').
Proof.
move=> h; elim: fuel a => [|f IH] a ha hf /=.
  by case: ifP => // /negbT; rewrite negb_and negbK -leqNgt => h' [<-].
case: ifP => [/andP[h1 /negbTE h2]|/negbT]; last by rewrite negb_and negbK -leqNgt => h' [<-].
move=> E; have [b Eb E1] := bind_ok E.
have [g1 _ _ g2 _] := arn_step h ha Eb; apply: (IH b) => //.
by rewrite g2 subnS -ltnS; case: (cmaxiter c - a_iter a)%N hf => // x; rewrite ltnS.
Qed.

(** The loop is a sequence of advance calls. *)
Lemma arn_loop_reach c a fuel a' : arn_loop snorm c fuel a = Ok a' ->
  exists n, arn_advance_n snorm c n a = Ok a'.
Proof.
elim: fuel a => [|f IH] a /=; first by case: ifP => // _ [<-]; exists 0%N.
case: ifP => [_ E|_ [<-]]; last by exists 0%N.
have [b Eb E1] := bind_ok E; have [n En] := IH b E1; exists n.+1.
elim: n {IH E E1} a' En => [|n IHn] a' /= En.
  by case: En => <-.
have [d Ed E2] := bind_ok En; by rewrite -[X in bind X _]/(arn_advance_n snorm c n.+1 a) (IHn _ Ed).
Qed.

(** Without any hypothesis: what advance can do. *)
Lemma norm_errs x (y : option vec) (B : ipB C N) e : norm x y B = Err e -> e = InnerProductError.
Proof.
by rewrite /norm; case: y => [y|]; case: B => [|B|f] //; case: ifP => // _ [<-].
Qed.

Lemma advance_gs_cases c a : match advance_gs snorm c a with
  | Ok a' => a_iter a' = (a_iter a).+1
  | Err e => e = InnerProductError \/ e = DivZero end.
Proof.
rewrite /advance_gs; case: ifP => _; case: (forn _ _ _) => H Av;
  (case E: (if cM c is Some _ then _ else _) => [r|e] /=; last
     by left; move: E; case: (cM c) => [M|] /norm_errs);
  rewrite /invariant_test; case: eqP => _ /=; (try by right);
  case: ifP => _ //=; case: ifP => _ //=; by right.
Qed.

Lemma advance_house_cases c a : match advance_house snorm c a with
  | Ok a' => a_iter a' = (a_iter a).+1
  | Err e => e = IndexError \/ e = DivZero end.
Proof.
rewrite /advance_house; case: ifP => _ /=; rewrite /invariant_test; case: eqP => _ /=; try by right.
  by case: ifP.
by case: ifP => // _; left.
Qed.

Lemma advance_cases c a : match advance snorm c a with
  | Ok a' => a_iter a' = (a_iter a).+1
  | Err e => [\/ e = ArgumentError /\ (cmaxiter c <= a_iter a)%N || a_inv a,
                e = InnerProductError, e = DivZero | e = IndexError] end.
Proof.
rewrite /advance; case: leqP => hm /=; first by apply: Or41.
case: (a_inv a); first by apply: Or41.
have := advance_gs_cases c a; have := advance_house_cases c a.
case: (cortho c); case: (advance_gs _ _ _) => [a1|e1]; case: (advance_house _ _ _) => [a2|e2] //.
all: try by [move=> _ [->|->]; constructor | move=> [->|->] _; constructor].
Qed.

(** Basis vectors are never overwritten. *)
Lemma advance_V c a a' i : advance snorm c a = Ok a' -> (i <= a_iter a)%N -> a_V a' i = a_V a i.
Proof.
rewrite /advance; case: (cmaxiter c <= a_iter a)%N => //; case: (a_inv a) => // E hi.
have ne : (i == (a_iter a).+1) = false by rewrite ltn_eqF.
have gs : advance_gs snorm c a = Ok a' -> a_V a' i = a_V a i.
  rewrite /advance_gs; case: (if _ && _ then _ else _) => H Av; case: (forn _ _ _) => {H Av} H Av.
  case: (if cM c is Some _ then norm _ _ _ else _) => [nrm|//] /=.
  case: (invariant_test _ _ _) => [[]|//] /=; first by move=> [<-].
  by case: ifP => // _ [<-] /=; rewrite /upd ne.
case: (cortho c) E => //; rewrite /advance_house.
case: (if _ then (_, _, _) else _) => -[hs Av] rows /=.
case: (invariant_test _ _ _) => [[]|//] /=; first by move=> [<-].
by case: ifP => // _ [<-] /=; rewrite /upd ne.
Qed.

Lemma loop_fuel c a fuel : (cmaxiter c - a_iter a <= fuel)%N ->
  arn_loop snorm c fuel a <> Err OutOfFuel.
Proof.
elim: fuel a => [|f IH] a hf /=.
  by case: ifP => // /andP[h _]; move: hf; rewrite leqn0 subn_eq0 leqNgt h.
case: ifP => // /andP[h _]; have := advance_cases c a.
case: (advance _ _ _) => [a'|e] /=; last by case=> [[-> _]|->|->|->].
move=> e; apply: IH; rewrite e subnS -ltnS.
by case: (cmaxiter c - a_iter a)%N hf => // x; rewrite ltnS.
Qed.

Lemma loop_iter c a fuel a' : arn_loop snorm c fuel a = Ok a' ->
  (a_iter a' <= maxn (a_iter a) (cmaxiter c))%N /\ ((cmaxiter c <= a_iter a')%N || a_inv a').
Proof.
elim: fuel a => [|f IH] a /=; case: ifP => [h|/negbT].
- by [].
- by rewrite negb_and negbK -leqNgt => h [<-]; rewrite leq_maxl.
- move=> E; have [b Eb E1] := bind_ok E; have := advance_cases c a; rewrite Eb => e.
  have [h1 h2] := IH b E1; split=> //; apply: leq_trans h1 _; rewrite e geq_max leq_maxr andbT.
  by case/andP: h => h _; rewrite (leq_trans h) // leq_maxr.
- by rewrite negb_and negbK -leqNgt => h [<-]; rewrite leq_maxl.
Qed.

(** Totality of the loop. *)
Lemma arn_loop_total c v a fuel : arn_cfg c -> arn_st c v a -> bounds_entries snorm ->
  v != 0 -> cA c (Mop c v) != 0 -> (cmaxiter c - a_iter a <= fuel)%N ->
  exists a', arn_loop snorm c fuel a = Ok a'.
Proof.
move=> hc + hb v0 Av0; elim: fuel a => [|f IH] a ha hf /=.
  case: ifP => [/andP[h1 h2]|_]; last by eexists.
  by move: hf; rewrite leqn0 subn_eq0 leqNgt h1.
case: ifP => [/andP[h1 h2]|_]; last by eexists.
have [b Eb] := arn_total hc ha hb v0 Av0 h2 h1; rewrite Eb /=.
have [g1 _ _ g2 _] := arn_step hc ha Eb.
by apply: IH => //; rewrite g2 subnS -ltnS; case: (cmaxiter c - a_iter a)%N hf => // x; rewrite ltnS.
Qed.

Lemma arnoldi_total c v Mv nv : arn_cfg c -> init_args c v Mv nv -> bounds_entries snorm ->
  (v != 0 -> cA c (Mop c v) != 0) -> exists a, arnoldi snorm c v Mv nv = Ok a.
Proof.
move=> hc hi hb Av0; have [a [E h1 h2 h3 h4]] := arn_init_ok hc hi; rewrite /arnoldi E /=.
case: (eqVneq v 0) => [e|v0].
  by exists a; case: (cmaxiter c) => [|k] /=; rewrite h3 e eqxx andbF.
by apply: (arn_loop_total hc h1 hb v0 (Av0 v0)); rewrite h2 subn0.
Qed.

(** The Frobenius norm bounds the entries. *)
Definition frob (r c : nat) (H : nat -> nat -> C) : C :=
  sqrtC (\sum_(i < r) \sum_(j < c) `|H i j| ^+ 2).

Lemma frob_bounds : bounds_entries frob.
Proof.
move=> r c H i j hi hj; rewrite -(@ler_pexpn2r _ 2) ?nnegrE // ?sqrtC_ge0; last first.
  by apply: sumr_ge0 => i' _; apply: sumr_ge0 => j' _; rewrite exprn_ge0.
rewrite sqrtCK (bigD1 (Ordinal hi)) //= (bigD1 (Ordinal hj)) //= -addrA ler_addl addr_ge0 //.
  by apply: sumr_ge0 => j' _; rewrite exprn_ge0.
by apply: sumr_ge0 => i' _; apply: sumr_ge0 => j' _; rewrite exprn_ge0.
Qed.

(** advance succeeds only if the norm of the new H is nonzero. *)
Lemma advance_nz c a a' : advance snorm c a = Ok a' ->
  snorm (a_iter a).+2 (a_iter a).+1 (a_H a') != 0.
Proof.
rewrite /advance; case: leqP => // _; case: (a_inv a) => //.
have gs : advance_gs snorm c a = Ok a' -> snorm (a_iter a).+2 (a_iter a).+1 (a_H a') != 0.
  rewrite /advance_gs; case: ifP => _; case: (forn _ _ _) => H Av;
  case: (if cM c is Some _ then _ else _) => [r|e] //=;
  rewrite /invariant_test; case: eqP => //= /eqP nz; case: ifP => _; [by case=> <-| |by case=> <-|];
  by case: ifP => // _ [<-].
case: (cortho c) => //.
rewrite /advance_house; case: ifP => _ /=; rewrite /invariant_test; case: eqP => //= /eqP nz;
  by case: ifP => // _ [<-].
Qed.

(** A v = 0 (v nonzero): the first step divides by the norm of a zero matrix. *)
Lemma zero_av_divides c v Mv nv a : arn_cfg c -> init_args c v Mv nv ->
  (forall r k H, (forall i j, H i j = 0) -> snorm r k H = 0) ->
  v != 0 -> cA c (Mop c v) = 0 ->
  arn_init c v Mv nv = Ok a -> forall a', advance snorm c a <> Ok a'.
Proof.
move=> hc hi hs v0 Av0 E a' E'; have [a1 [E1 h1 h2 h3 h4]] := arn_init_ok hc hi.
move: E; rewrite E1 => -[e1]; rewrite {}e1 in E1 h1 h2 h3 h4 *.
have [[g1 _] g2 g3 g4 _] := arn_step hc h1 E'.
have /eqP := advance_nz E'; apply; apply: hs => i j; rewrite h2 in g4.
have R := g1; rewrite /arn_ok in R.
have [hip hmpp] := (cfg_ip hc, cfg_mip hc).
have [[[hM hMs] hMp] hA] := (cfg_M hc, cfg_Msa hc, cfg_Mpd hc, cfg_A hc).
have n0 : (0 < ncols a')%N by rewrite /ncols g4.
have it : (0 < a_iter a')%N by rewrite g4.
have AV0 : cA c (a_V a' 0%N) = 0.
  have nz : ipnorm (cmip c) v != 0 by rewrite (ipnorm_eq0 hmpp).
  have e := ar_first R n0; rewrite -/(cmip c) in e.
  have : cA c (Mop c v) = ipnorm (cmip c) v *: cA c (a_V a' 0%N).
    by rewrite (ar_V R n0) -(linZ hA) -(linZ hM) -e.
  by rewrite Av0 => /esym/eqP; rewrite scaler_eq0 (negbTE nz) /= => /eqP.
case: j => [|j]; last by rewrite (ar_hess R) // g4 orbT.
case: i => [|[|i]]; last by rewrite (ar_hess R).
  by rewrite (rel_entry hip hM hMs hMp R) // AV0 (ipr0 hip).
have [w [w1 w2 w3 _]] := ar_step R it; rewrite w3 -/(cmip c).
move: w1; rewrite AV0 big_ord1 (rel_entry hip hM hMs hMp R) // AV0 (ipr0 hip) scale0r add0r => <-.
by rewrite (ipnorm0 hmpp).
Qed.
End All.
