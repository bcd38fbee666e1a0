(** C51: the projected Arnoldi relation. *)
From mathcomp Require Import all_ssreflect all_algebra.
From Verif Require Import Base Spec.LinAlg Spec.Ritz Proof.Algebra Proof.IpTheory Model.Inner Spec.Inner Proof.Inner
  Model.Arnoldi Spec.Arnoldi Proof.ArnoldiRel Proof.Arnoldi Proof.HouseArnoldi Proof.ArnoldiAll Proof.ArnoldiExample Model.ArnoldiProjected Proof.ArnoldiProjected.

Set Implicit Arguments.
Unset Strict Implicit.
Unset Printing Implicit Defensive.
Import Order.TTheory GRing.Theory Num.Theory.
Local Open Scope ring_scope.

Section C51.
Variable C : numClosedFieldType.
Variable snorm : nat -> nat -> (nat -> nat -> C) -> C.
Variable n : nat.
Local Notation vec := 'cV[C]_n.
Variables (n_ : nat) (H : nat -> nat -> C) (P : vec -> vec) (k : nat) (ortho : ortho_t).
Hypothesis hP : is_linear P.
Hypothesis n0 : (0 < n)%N.
Let lastn : 'I_n := Ordinal (etrans (ltn_predL n) n0).
Let Hn : 'M[C]_n := \matrix_(i, j) H i j.
Let e1 : vec := \col_i (i == 0%N :> nat)%:R.
(** ortho is mgs, dmgs or house; or lanczos, and then P H is self-adjoint *)
Definition ortho_fits : Prop :=
  match ortho with
  | Lanczos => self_adjoint (@ipE C n) (fun x => P (Hn *m x))
  | OrthoOther => False
  | _ => True
  end.
Hypothesis ho : ortho_fits.
(** the corner entry of H, 0 if H is square *)
Let hlast : C := if n_ == n then 0 else H n n.-1.
Local Notation run := (arnoldi_projected snorm n_ H P k ortho).
Let PH (x : vec) : vec := P (Hn *m x).
Let cfg : acfg C n := ACfg (fun x => P (Hop H x)) None IpNone ortho (n.+1 - k).

Let HopE x : Hop H x = Hn *m x.
Proof. by apply/colP => i; rewrite !mxE; apply: eq_bigr => j _; rewrite mxE. Qed.

Let PH_lin : is_linear (fun x => P (Hop H x)).
Proof. by move=> a x y; rewrite !HopE mulmxDr -scalemxAr hP. Qed.

Let ipN x y : ip1 (@IpNone C n) x y = ipE x y.
Proof. by []. Qed.

Let cfg_ok : arn_cfg cfg.
Proof.
have ip0 : is_ip (ip1 (@IpNone C n)) by apply: valid_is_ip.
move: ho; rewrite /ortho_fits /cfg; case: ortho => // h;
  try by (left; split=> //=; move=> x x0; apply: (ip_pos ip0)).
- left; split=> //= [x x0|x y]; first exact: (ip_pos ip0).
  by rewrite !HopE; exact: h.
- by right; split=> //; split.
Qed.

Let args : init_args cfg (P e1) None None. Proof. by []. Qed.

Let reach out : run = Ok out -> exists m a0 a F,
  [/\ arn_init cfg (P e1) None None = Ok a0, arn_advance_n snorm cfg m a0 = Ok a,
     out = (let '(vc, hr, hc) := arn_get a in ApOut vc (a_V a) hr hc (a_H a) (a_iter a) F) &
     (forall j, (j < a_iter a)%N -> F j = hlast * ent (a_V a j) n.-1) /\
     ((a_iter a <= n.+1 - k)%N /\ ((n.+1 - k <= a_iter a)%N || a_inv a))].
Proof.
rewrite /arnoldi_projected; case: ifP => // /negPn hs; case: ifP => // _ E.
have [a0 E0 {}E] := bind_ok E; have [[a F] E1 {E}] := bind_ok E.
have it0 : a_iter a0 = 0%N by have [a1 [e1' _ h _]] := arn_init_ok cfg_ok args; move: E0; rewrite e1' => -[<-].
have El := loop_erase_ok E1; have [m Em] := loop_adv El.
rewrite /arn_get => E; exists m, a0, a, F; split=> //.
  by move: E; rewrite /arn_get; case: (a_inv a) => -[<-].
split.
  move=> j hj; rewrite (loop_F E1) // ?it0 //; congr (_ * _); rewrite /hlast; case/orP: hs => /eqP->; rewrite ?eqxx //.
have [h1 h2] := loop_iter El; split=> //; by move: h1; rewrite it0 max0n.
Qed.

(** U is orthonormal, F has one entry for every step and G one column, U starts with
    P e_1 normalised, F is the last row of U times the corner entry of H; at most n + 1 - k
    steps are made. *)
Theorem C51_shapes out : run = Ok out ->
  [/\ orthonormal (@ipE C n) (ap_U out) (ap_ucols out),
      (ap_ucols out = 0%N -> P e1 = 0) /\
      ((0 < ap_ucols out)%N -> P e1 = ipnorm (@ipE C n) (P e1) *: ap_U out 0%N),
      [/\ ap_fcols out = ap_gcols out, ap_grows out = ap_ucols out, (ap_gcols out <= n.+1 - k)%N &
         ap_ucols out = (ap_gcols out).+1 \/ ap_ucols out = ap_gcols out],
      (forall j (hj : (j < ap_gcols out)%N), ap_F out j = hlast * ap_U out j lastn 0) &
      (ap_gcols out < n.+1 - k)%N -> ap_ucols out = ap_gcols out].
Proof.
move=> E; have [m [a0 [a [F [h0 h1 -> [hF [hm hi]]]]]]] := reach E.
have [[R _] it _ _ iv] := arn_reach cfg_ok args h0 h1; rewrite /arn_ok in R.
have VP j : (j < ncols a)%N -> a_V a j = Pb cfg a j by move=> hj; rewrite (ar_V R).
have nc : ncols a = (if a_inv a then a_iter a else (a_iter a).+1).
  by rewrite /ncols; case: (a_inv a); rewrite ?addn0 ?addn1.
have oV : orthonormal (@ipE C n) (a_V a) (ncols a).
  by move=> i j hi' hj; rewrite VP // VP // -(ar_orth R).
have fV : (0 < ncols a)%N -> P e1 = ipnorm (@ipE C n) (P e1) *: a_V a 0%N.
  by move=> h; rewrite VP // {1}(ar_first R h).
have eF j : (j < a_iter a)%N -> F j = hlast * a_V a j lastn 0.
  by move=> hj; rewrite hF // /ent insubT ?ltn_predL // => h; congr (_ * a_V a j _ 0); apply/val_inj.
have zV : ncols a = 0%N -> P e1 = 0.
  move=> h; move: h iv; rewrite nc; case: (a_inv a) => // h; rewrite -it h => /esym/eqP //.
rewrite nc in oV fV zV.
rewrite /arn_get; move: oV fV zV hi; case: (a_inv a) => oV fV zV hi; split=> //=; try (by split=> //; right); try (by split=> //; left).
by rewrite ltnNge; move: hi; rewrite orbF => ->.
Qed.

(** The relation P H U_i = U_(i+1) G_i; if an invariant subspace was found, the last column
    is only approximated: the error has the norm of the next subdiagonal entry, which is
    at most 1e-14 times the norm of G. *)
Theorem C51_relation out : run = Ok out ->
  (ap_ucols out = (ap_gcols out).+1 ->
   forall j, (j < ap_gcols out)%N -> P (Hn *m ap_U out j) = \sum_(i < ap_grows out) ap_G out i j *: ap_U out i) /\
  (forall m, ap_ucols out = m.+1 -> ap_gcols out = m.+1 ->
   (forall j, (j < m)%N -> P (Hn *m ap_U out j) = \sum_(i < ap_grows out) ap_G out i j *: ap_U out i) /\
   (exists w, [/\ P (Hn *m ap_U out m) = \sum_(i < ap_grows out) ap_G out i m *: ap_U out i + w,
      forall i, (i <= m)%N -> ipE (ap_U out i) w = 0 &
      ipnorm (@ipE C n) w / snorm m.+2 m.+1 (ap_G out) <= (10%:R ^+ 14)^-1])) /\
  (forall i j, (j.+1 < i)%N -> ap_G out i j = 0).
Proof.
move=> E; have [m [a0 [a [F [h0 h1 -> _]]]]] := reach E.
have [[R _] it _ _ hi] := arn_reach cfg_ok args h0 h1; rewrite /arn_ok in R.
have VP j : (j < ncols a)%N -> a_V a j = Pb cfg a j by move=> hj; rewrite (ar_V R).
move: R VP; rewrite /arn_get /ncols; case ei: (a_inv a) => /=; rewrite ?addn0 ?addn1 => R VP; split.
- by move=> e; have := ltnSn (a_iter a); rewrite {1}e ltnn.
- split; last by move=> i j h; rewrite (ar_hess R) ?h.
  move=> q e _; move: R VP; rewrite e => R VP; have [t1 [w [t2 t3 t4]]] := rel_trunc R; split.
    move=> j hj; rewrite -HopE t1 //; apply: eq_bigr => i _; by rewrite VP.
  exists w; split; first by rewrite -HopE t2; congr (_ + _); apply: eq_bigr => i _; rewrite VP.
    by move=> i hi'; exact: t4.
  have := hi; rewrite ei -it e; move/esym.
  by rewrite -[ipnorm _ w]/(ipnorm (mip (cip cfg) (Mop cfg)) w) t3.
- move=> _ j hj; rewrite -HopE; have /= -> := rel_fullsum R (k := (a_iter a).+1) hj hj hj; apply: eq_bigr => i _; by rewrite VP.
- split=> [q [e] e2|i j h]; last by rewrite (ar_hess R) ?h.
  by move: e2; rewrite e => /eqP; rewrite (ltn_eqF (ltnSn q)).
Qed.

(** The loop ends. *)
Theorem C51_terminates : run <> Err OutOfFuel.
Proof.
rewrite /arnoldi_projected; case: ifP => // _; case: ifP => // hk.
have [a0 [E0 _ it _ _]] := arn_init_ok cfg_ok args; rewrite E0 /=.
case E1: (ap_loop _ _ _ _ _ _) => [[a F]|e] //=; first by case: (arn_get a) => -[].
have := loop_erase_err E1 => El [ee]; rewrite ee in El.
by case: (loop_fuel _ El); rewrite it subn0.
Qed.

(** It succeeds if P e_1 is 0 or is not mapped to 0. *)
Theorem C51_total : bounds_entries snorm -> n_ = n \/ n_ = n.+1 -> (k <= n.+1)%N ->
  (P e1 != 0 -> P (Hn *m P e1) != 0) -> exists out, run = Ok out.
Proof.
move=> hb hs hk hv; rewrite /arnoldi_projected.
have -> : (n_ == n) || (n_ == n.+1) by case: hs => ->; rewrite eqxx ?orbT.
rewrite /= ltnNge hk /=.
have [a0 [E0 st it inv _]] := arn_init_ok cfg_ok args; rewrite E0 /=.
have [a' El] : exists a', arn_loop snorm cfg (n.+1 - k) a0 = Ok a'.
  case: (eqVneq (P e1) 0) => [e|v0].
    by exists a0; case: (n.+1 - k)%N => [|q] /=; rewrite inv e eqxx andbF.
  apply: (arn_loop_total cfg_ok st hb v0); last by rewrite it subn0.
  by rewrite /= HopE; exact: hv.
case E1: (ap_loop _ _ _ _ _ _) => [[a F]|e] /=.
  by case: (arn_get a) => -[vc hr] hc; eexists.
by have := loop_erase_err E1; rewrite El.
Qed.

(** Wrong shapes: *)
Theorem C51_rejected : n_ <> n -> n_ <> n.+1 -> run = Err LinearOperatorError.
Proof. by rewrite /arnoldi_projected => /eqP/negbTE-> /eqP/negbTE->. Qed.

(** The meaning for an Arnoldi relation A V_n = V_(n+1) H and a projection Pt of C^N with
    Pt V_(n+1) = [V_n P, v_(n+1)]: with W = V_n U,
    Pt A W_i = W_(i+1) G_i + v_(n+1) F_i. *)
Section Big.
Variable N : nat.
Variables (ip : 'cV[C]_N -> 'cV[C]_N -> C) (A Pt : 'cV[C]_N -> 'cV[C]_N) (V : nat -> 'cV[C]_N).
Hypotheses (hip : is_ip ip) (hA : is_linear A) (hPt : is_linear Pt).
Hypothesis hr : hess_rel ip A n_ n V H.
Local Notation Vc x := (\sum_(i < n) (x : vec) i 0 *: V i).
Hypothesis hPV : forall x : vec, Pt (Vc x) = Vc (P x).
Hypothesis hPl : n_ = n.+1 -> Pt (V n) = V n.

Let VcD (x y : vec) (a : C) : Vc (a *: x + y) = a *: Vc x + Vc y.
Proof.
rewrite scaler_sumr -big_split; apply: eq_bigr => i _ /=; by rewrite !mxE scalerDl scalerA.
Qed.

Let Vc_sum m (x : nat -> vec) (g : nat -> C) : Vc (\sum_(i < m) g i *: x i) = \sum_(i < m) g i *: Vc (x i).
Proof.
elim: m => [|m IH]; first by rewrite !big_ord0 big1 // => i _; rewrite mxE scale0r.
by rewrite !big_ord_recr /= [X in Vc X]addrC VcD IH addrC.
Qed.

Let A_Vc (x : vec) : A (Vc x) = Vc (Hn *m x) + (hlast * x lastn 0) *: V n.
Proof.
rewrite (lin_sum hA); under eq_bigr => j _ do rewrite (linZ hA) (hr_rel hr) //.
have e0 : \sum_(j < n) x j 0 *: (\sum_(i < n) H i j *: V i) = Vc (Hn *m x).
  under eq_bigr => j _ do rewrite scaler_sumr.
  rewrite exchange_big; apply: eq_bigr => i _; rewrite mxE scaler_suml.
  by apply: eq_bigr => j _; rewrite mxE scalerA mulrC.
rewrite /hlast; case: (hr_size hr) => en; move: (hr_hess hr); rewrite en ?eqxx.
  by rewrite e0 mul0r scale0r addr0.
move=> hh; rewrite (gtn_eqF (ltnSn n)).
under eq_bigr => j _ do rewrite big_ord_recr /= scalerDr.
rewrite big_split /= e0; congr (_ + _).
rewrite (bigD1 lastn) //= big1 ?addr0 ?scalerA ?[x _ _ * _]mulrC //.
move=> j ne; rewrite hh ?scale0r ?scaler0 //.
rewrite ltn_neqAle ltn_ord andbT; apply: contra ne => /eqP e; apply/eqP/val_inj.
exact: (congr1 predn e).
Qed.

Theorem C51_perturbed out : run = Ok out -> ap_ucols out = (ap_gcols out).+1 ->
  let W j := \sum_(i < n) ap_U out j i 0 *: V i in
  orthonormal ip W (ap_ucols out) /\
  forall j, (j < ap_gcols out)%N ->
    Pt (A (W j)) = \sum_(i < ap_grows out) ap_G out i j *: W i + ap_F out j *: V n.
Proof.
move=> E eu W; have [oU _ [_ _ _ _] eF _] := C51_shapes E; have [rel _] := C51_relation E; split.
  move=> i j hi hj; rewrite -oU //.
  have ee (q : nat) : W q = \sum_(l < n) ent (ap_U out q) l *: V l.
    by apply: eq_bigr => l _; rewrite /ent valK.
  rewrite !ee (ortho_ip hip (ent _) (ent _) (k := n)); last first.
    by apply: ortho_sub (hr_orth hr); case: (hr_size hr) => ->.
  rewrite /ipE mxE; apply: eq_bigr => l _; by rewrite ctrE /ent valK.
move=> j hj; rewrite /W A_Vc (linD hPt) hPV (rel eu) // (Vc_sum _ (ap_U out) (fun i => ap_G out i j)).
congr (_ + _); rewrite (linZ hPt) eF //.
have [en|en] := hr_size hr; last by rewrite hPl.
by rewrite /hlast en eqxx !mul0r !scale0r.
Qed.
End Big.
End C51.

(** A concrete run: n = 2, H = [[0,1],[1,0],[0,1]], P = 1, one step. *)
Section Example.
Variable C : numClosedFieldType.
Let H3 (i j : nat) : C := ((i == j.+1 :> nat) || (j == i.+1 :> nat))%:R.
Example C51_example : exists out,
  [/\ arnoldi_projected (@frob C) (n := 2) 3 H3 (fun x => x) 2 Mgs = Ok out,
     ap_ucols out = 2%N, ap_gcols out = 1%N & @ortho_fits C 2 H3 (fun x => x) Mgs].
Proof.
have hE : (fun x => Hop H3 x) =1 @swap_op C.
  move=> x; apply/colP => i; rewrite !mxE; apply: eq_bigr => j _; rewrite mxE; congr (_%:R * _).
  by case: i j => -[|[|i]] // hi [[|[|j]]].
have [a0 [a [E0 E1 hinv]]] := f_run hE (o := Mgs) (m := 1) (fun e => match e with end) isT.
have cok := f_cfg_ok hE 1 (o := Mgs) (fun e => match e with end).
have [a1 [e1' s1 s2 s3 _]] := arn_init_ok cok (f_args (fun x => Hop H3 x) Mgs 1).
move: E0; rewrite e1' => -[ea]; subst a1.
have E1' : advance (@frob C) (f_cfg (fun x => Hop H3 x) Mgs 1) a0 = Ok a by [].
have [_ _ _ t4 _] := arn_step cok s1 E1'.
rewrite /arnoldi_projected (_ : ~~ _ = false) // (_ : (3 < 2)%N = false) // (_ : (3 - 2)%N = 1%N) //.
have -> : \col_i (i == 0%N :> nat)%:R = e0 C by apply/colP => i; rewrite !mxE.
rewrite [arn_init _ _ _ _]e1' /= s2 /= /arn_get_last s3 (negbTE (e0_nz C)) /=.
rewrite [advance _ _ _]E1' /= t4 s2 /= /arn_get hinv t4 s2 /=.
by eexists; split.
Qed.
End Example.
