From mathcomp Require Import all_ssreflect all_algebra.
From mathcomp Require Import ring.
From Verif Require Import Base Spec.LinAlg Proof.Algebra Model.Inner Spec.Inner Proof.Inner.
From Verif Require Import Proof.IpTheory Model.Arnoldi Spec.Arnoldi.

Set Implicit Arguments.
Unset Strict Implicit.
Unset Printing Implicit Defensive.
Import Order.TTheory GRing.Theory Num.Theory.
Local Open Scope ring_scope.

Local Arguments norm : simpl never.
Local Arguments upd2 : simpl never.

Section Gs.
Variable C : numClosedFieldType.
Variable N : nat.
Local Notation vec := 'cV[C]_N.
Variable snorm : nat -> nat -> (nat -> nat -> C) -> C.
Implicit Types (c : acfg C N) (a : arn C N).

Definition Mop c : vec -> vec := if cM c is Some M then M else id.
Definition Pb c a : nat -> vec := sub_basis c (a_V a) (a_P a).
Definition cip c : vec -> vec -> C := ip1 (cB c).
Definition cmip c := mip (cip c) (Mop c).

(** Admissible configurations for the Gram-Schmidt variants. *)
Record gs_cfg c : Prop := GsCfg {
  gs_B : valid_ip (cB c);
  gs_A : is_linear (cA c);
  gs_M : is_linear (Mop c);
  gs_Msa : self_adjoint (cip c) (Mop c);
  gs_Mpd : pos_def (cip c) (Mop c);
  gs_o : match cortho c with
         | Mgs | Dmgs => True | Lanczos => self_adjoint (cip c) (cA c) | _ => False end }.

Definition ncols a : nat := (a_iter a + ~~ a_inv a)%N.

Definition arn_ok c v a : Prop :=
  arnoldi_rel (cip c) (cA c) (Mop c) v (a_iter a) (ncols a) (a_V a) (Pb c a) (a_H a).

Lemma mip_is_ip (ip : vec -> vec -> C) M : is_ip ip -> is_linear M ->
  self_adjoint ip M -> pos_def ip M -> is_ip (mip ip M).
Proof.
move=> hip hM hs hp; split=> [x a y z|x y|x x0].
- by rewrite /mip hM (ip_linr hip).
- by rewrite /mip -(ipC hip) hs.
- exact: hp.
Qed.

Section Cfg.
Variable c : acfg C N.
Hypothesis hc : gs_cfg c.
Let hip : is_ip (cip c). Proof. exact: valid_is_ip (gs_B hc). Qed.
Let hmip : is_ip (cmip c).
Proof. exact: mip_is_ip hip (gs_M hc) (gs_Msa hc) (gs_Mpd hc). Qed.

Lemma ipV_mip p x : cip c (Mop c p) x = cmip c p x.
Proof. by rewrite /cmip /mip (gs_Msa hc). Qed.

Lemma norm_mip x : (if cM c is Some M then norm x (Some (M x)) (cB c) else norm x None (cB c))
  = Ok (ipnorm (cmip c) x).
Proof.
have := ip_ge0' hmip x; rewrite /ipnorm /cmip /mip /Mop /cip.
case: (cM c) => [M|] h.
  by rewrite (@norm_real_nonneg _ _ x (Some (M x)) (cB c) h).
by rewrite (@norm_real_nonneg _ _ x None (cB c) h).
Qed.

(** One modified Gram-Schmidt sweep. *)
Section Sweep.
Variables (V P : nat -> vec) (k : nat) (D : vec) (H0 : nat -> nat -> C).
Let Q := sub_basis c V P.
Hypothesis hV : forall j, (j < k.+1)%N -> V j = Mop c (Q j).
Hypothesis hQ : orthonormal (cmip c) Q k.+1.

Definition sweep_inv (s : (nat -> nat -> C) * vec) : Prop :=
  [/\ D = \sum_(i < k.+1) s.1 i k *: Q i + s.2,
      forall i j, j != k -> s.1 i j = H0 i j &
      forall i, (k < i)%N -> s.1 i k = 0].

Lemma ip_VQ j x : (j < k.+1)%N -> ip1 (cB c) (V j) x = cmip c (Q j) x.
Proof. by move=> hj; rewrite hV // -/(cip c) ipV_mip. Qed.

(** Adding alpha to H[j,k] and subtracting alpha Q_j keeps the sum. *)
Lemma sweep_step s j alpha : (j < k.+1)%N -> sweep_inv s ->
  sweep_inv (upd2 s.1 j k (s.1 j k + alpha), s.2 - alpha *: Q j).
Proof.
move=> hj [h1 h2 h3]; split=> /= [|i j' ne|i hi].
- rewrite h1 (bigD1 (Ordinal hj)) //= [in RHS](bigD1 (Ordinal hj)) //= /upd2 !eqxx /=.
  have -> : \sum_(i < k.+1 | i != Ordinal hj)
      (if (i == j :> nat) && true then s.1 j k + alpha else s.1 i k) *: Q i
    = \sum_(i < k.+1 | i != Ordinal hj) s.1 i k *: Q i.
    apply: eq_bigr => i ne; rewrite (_ : (i == j :> nat) = false) //=.
    by apply/negbTE; apply: contra ne => /eqP e; apply/eqP/val_inj.
  by rewrite scalerDl -!addrA; congr (_ + _); rewrite addrCA; congr (_ + _); rewrite addrC subrK.
- by rewrite /upd2 (negbTE ne) andbF h2.
- by rewrite /upd2 gtn_eqF ?(leq_ltn_trans _ hi) //= h3.
Qed.

Lemma orth_bodyE s j : (j < k.+1)%N -> orth_body c V P k j s =
  let al := cmip c (Q j) s.2 in let al := if is_lanczos (cortho c) then 'Re al else al in
  (upd2 s.1 j k (s.1 j k + al), s.2 - al *: Q j).
Proof. by case: s => H Av hj; rewrite /= ip_VQ. Qed.

Lemma mgs_sweep s n : is_lanczos (cortho c) = false -> (n <= k.+1)%N -> sweep_inv s ->
  let s' := forn n (fun i => orth_body c V P k (0 + i)) s in
  sweep_inv s' /\ forall i, (i < n)%N -> cmip c (Q i) s'.2 = 0.
Proof.
move=> ho; elim: n => [//|n IH] hn hs; have [h1 h2] := IH (ltnW hn) hs.
set s1 := forn n _ s in h1 h2; rewrite [forn n.+1 _ _]/= -/s1 add0n orth_bodyE // ho /=.
split; first exact: (sweep_step _ hn h1).
move=> i hi; rewrite (ipBr hmip) (ipZr hmip) hQ ?(leq_trans hi) //.
move: hi; rewrite ltnS leq_eqVlt => /orP[/eqP->|hi]; first by rewrite eqxx mulr1 subrr.
by rewrite h2 // ltn_eqF // mulr0 subr0.
Qed.

Lemma gs_sweeps s r : is_lanczos (cortho c) = false -> sweep_inv s ->
  let s' := forn r.+1 (fun _ s => forrange 0 (k.+1 - 0) (orth_body c V P k) s) s in
  sweep_inv s' /\ forall i, (i < k.+1)%N -> cmip c (Q i) s'.2 = 0.
Proof.
move=> ho hs; elim: r => [|r [IH1 IH2]].
  by rewrite /forrange subn0; apply: mgs_sweep.
set s' := forn r.+1 _ s in IH1 IH2.
by rewrite [forn r.+2 _ _]/= -/s' /forrange subn0; apply: mgs_sweep.
Qed.
End Sweep.

(** The pair (H, Av) after the orthogonalisation in advance. *)
Definition gs_pair (a : arn C N) : (nat -> nat -> C) * vec :=
  let k := a_iter a in let V := a_V a in let P := a_P a in
  let s := if is_lanczos (cortho c) && (0 < k)%N then
      (upd2 (a_H a) k.-1 k (a_H a k k.-1), cA c (V k) - a_H a k k.-1 *: sub_basis c V P k.-1)
    else (a_H a, cA c (V k)) in
  let start := if is_lanczos (cortho c) then k else 0%N in
  forn (reorthos (cortho c)).+1
     (fun _ s => forrange start (k.+1 - start) (orth_body c V P k) s) s.

Lemma upd2_other (H : nat -> nat -> C) i j x i' j' : (i' != i) || (j' != j) -> upd2 H i j x i' j' = H i' j'.
Proof. by rewrite /upd2 -negb_and => /negbTE->. Qed.
Lemma upd2_same (H : nat -> nat -> C) i j x : upd2 H i j x i j = x.
Proof. by rewrite /upd2 !eqxx. Qed.

Lemma advance_gsE a : advance_gs snorm c a =
  let k := a_iter a in
  let Av := (gs_pair a).2 in
  let H := upd2 (gs_pair a).1 k.+1 k (ipnorm (cmip c) Av) in
  let! inv := invariant_test snorm H k in
  if inv then Ok (Arn k.+1 (a_V a) (a_P a) H true (a_vnorm a) (a_houses a))
  else if H k.+1 k == 0 then Err DivZero
  else Ok (Arn k.+1 (upd (a_V a) k.+1 ((H k.+1 k)^-1 *: Mop c Av))
             (if cM c is Some _ then upd (a_P a) k.+1 ((H k.+1 k)^-1 *: Av) else a_P a)
             H false (a_vnorm a) (a_houses a)).
Proof.
rewrite /advance_gs /gs_pair /=.
set k := a_iter a.
have -> : (if is_lanczos (cortho c) && (0 < k)%N then
      (upd2 (a_H a) k.-1 k (a_H a k k.-1),
       cA c (a_V a k) - upd2 (a_H a) k.-1 k (a_H a k k.-1) k k.-1 *: sub_basis c (a_V a) (a_P a) k.-1)
      else (a_H a, cA c (a_V a k))) = (if is_lanczos (cortho c) && (0 < k)%N then
      (upd2 (a_H a) k.-1 k (a_H a k k.-1), cA c (a_V a k) - a_H a k k.-1 *: sub_basis c (a_V a) (a_P a) k.-1)
    else (a_H a, cA c (a_V a k))).
  case: ifP => // /andP[_ k0]; rewrite upd2_other //.
  by rewrite gtn_eqF // prednK.
set s0 := (if is_lanczos _ && _ then _ else _).
case: s0 => H1 Av1; set fr := forrange _ _ _ _; case: fr => H Av /=.
have := norm_mip Av; rewrite /Mop.
by case: (cM c) => [M|] -> /=.
Qed.

Section Step.
Variables (v : vec) (a : arn C N).
Hypothesis ha : arn_ok c v a.
Hypothesis hi : a_inv a = false.
Local Notation k := (a_iter a).
Local Notation Q := (Pb c a).

Lemma ncols_a : ncols a = k.+1.
Proof. by rewrite /ncols hi addn1. Qed.

Lemma a_hV j : (j < k.+1)%N -> a_V a j = Mop c (Q j).
Proof. by move=> hj; apply: (ar_V ha); rewrite ncols_a. Qed.
Lemma a_hQ : orthonormal (cmip c) Q k.+1.
Proof. by have := ar_orth ha; rewrite ncols_a. Qed.

Lemma rel_full j : (j < k)%N -> cA c (a_V a j) = \sum_(i < j.+2) a_H a i j *: Q i.
Proof.
move=> hj; have [w [h1 _ _ h4]] := ar_step ha hj.
by rewrite big_ord_recr /= h1; have [|-> _] := h4; rewrite ?ncols_a.
Qed.

Lemma sub_pos j : (j < k)%N -> 0 < a_H a j.+1 j.
Proof. by move=> hj; have [w [_ _ _ h]] := ar_step ha hj; have [|] := h; rewrite ?ncols_a. Qed.

Lemma sweep_init : sweep_inv (a_V a) (a_P a) k (cA c (a_V a k)) (a_H a) (a_H a, cA c (a_V a k)).
Proof.
split=> //= [|i _]; last by rewrite (ar_hess ha) // leqnn orbT.
by rewrite big1 ?add0r // => i _; rewrite (ar_hess ha) ?scale0r // leqnn orbT.
Qed.

Lemma sa_mip x y : self_adjoint (cip c) (cA c) ->
  cmip c x (cA c (Mop c y)) = cmip c (cA c (Mop c x)) y.
Proof. by move=> hs; rewrite /cmip /mip -(gs_Msa hc) hs. Qed.

Lemma lanczos_low i : self_adjoint (cip c) (cA c) -> (i < k)%N ->
  cmip c (Q i) (cA c (a_V a k)) = if i.+1 == k then a_H a k k.-1 else 0.
Proof.
move=> hs hik; rewrite a_hV // sa_mip // -a_hV ?(ltn_trans hik) // rel_full //.
rewrite (ip_suml hmip); under eq_bigr => l _ do
  rewrite (ipZl hmip) a_hQ ?(leq_trans (ltn_ord l)) //.
case: eqP => [e|/eqP ne].
  have e2 : i.+1 == k by apply/eqP.
  rewrite big_ord_recr /= e2 mulr1 big1 ?add0r.
    by rewrite -[in RHS]e /=; apply: CrealP; rewrite ger0_real // ltW // sub_pos.
  by move=> l _; rewrite ltn_eqF ?mulr0 // -[X in (_ < X)%N]e; exact: ltn_ord.
rewrite big1 // => l _; rewrite (_ : (_ == _) = false) ?mulr0 //.
apply: ltn_eqF; apply: leq_trans (ltn_ord l) _; rewrite ltn_neqAle ne hik //.
Qed.

Lemma gs_pair_ok :
  sweep_inv (a_V a) (a_P a) k (cA c (a_V a k)) (a_H a) (gs_pair a) /\
  forall i, (i < k.+1)%N -> cmip c (Q i) (gs_pair a).2 = 0.
Proof.
have := gs_o hc; rewrite /gs_pair; case E: (cortho c) => hs //=.
- have := @gs_sweeps (a_V a) (a_P a) k (cA c (a_V a k)) (a_H a) a_hV a_hQ _ 0 _ sweep_init.
  by rewrite E; apply.
- have := @gs_sweeps (a_V a) (a_P a) k (cA c (a_V a k)) (a_H a) a_hV a_hQ _ 1 _ sweep_init.
  by rewrite E; apply.
rewrite /forrange subSnn /= addn0.
set s0 := if (0 < k)%N then _ else _.
have s0inv : sweep_inv (a_V a) (a_P a) k (cA c (a_V a k)) (a_H a) s0.
  rewrite /s0; case: posnP => [_|k0]; first exact: sweep_init.
  have := @sweep_step (a_V a) (a_P a) k (cA c (a_V a k)) (a_H a) (a_H a, cA c (a_V a k)) k.-1
     (a_H a k k.-1) _ sweep_init.
  rewrite /= ltnS leq_pred => /(_ isT); rewrite -/(Pb c a).
  by rewrite [a_H a k.-1 k](ar_hess ha) ?add0r // leqnn orbT.
have s0orth i : (i < k)%N -> cmip c (Q i) s0.2 = 0.
  move=> hik; have k0 : (0 < k)%N by apply: leq_ltn_trans hik.
  rewrite /s0 k0 /= (ipBr hmip) (ipZr hmip) lanczos_low // a_hQ ?(ltn_trans hik) //; last first.
    by rewrite ltnS leq_pred.
  rewrite (_ : (i.+1 == k) = (i == k.-1)); last by rewrite -[in LHS](prednK k0) eqSS.
  by case: eqP; rewrite ?mulr1 ?mulr0 subrr.
have al_real : 'Re (cmip c (Q k) s0.2) = cmip c (Q k) s0.2.
  apply/Creal_ReP; have -> : cmip c (Q k) s0.2 = cmip c (Q k) (cA c (a_V a k)).
    rewrite /s0; case: posnP => //= k0.
    rewrite (ipBr hmip) (ipZr hmip) a_hQ // ?ltnS ?leq_pred // gtn_eqF ?mulr0 ?subr0 //.
    by rewrite prednK.
  apply/CrealP; rewrite -(ipC hmip) a_hV // sa_mip //.
rewrite orth_bodyE //; try exact: a_hV; try exact: a_hQ.
rewrite E /= al_real -/(Pb c a); split.
  exact: (@sweep_step (a_V a) (a_P a) k _ _ s0 k _ (leqnn _) s0inv).
move=> i hik; rewrite (ipBr hmip) (ipZr hmip) a_hQ //.
move: hik; rewrite ltnS leq_eqVlt => /orP[/eqP->|hik]; first by rewrite eqxx mulr1 subrr.
by rewrite s0orth // ltn_eqF // mulr0 subr0.
Qed.

(** The new column of H and the candidate for the next vector. *)
Lemma new_column (V' P' : nat -> vec) (m : nat) :
  let Av := (gs_pair a).2 in
  let H := upd2 (gs_pair a).1 k.+1 k (ipnorm (cmip c) Av) in
  (forall j, (j < k.+1)%N -> V' j = a_V a j) ->
  (forall j, (j < k.+1)%N -> P' j = Q j) ->
  ((k.+1 < m)%N -> [/\ m = k.+2, ipnorm (cmip c) Av != 0,
      P' k.+1 = (ipnorm (cmip c) Av)^-1 *: Av & V' k.+1 = Mop c (P' k.+1)]) ->
  ((m <= k.+1)%N -> m = k.+1) ->
  arnoldi_rel (cip c) (cA c) (Mop c) v k.+1 m V' P' H.
Proof.
move=> Av H eV eP hm hm'; have [[s1 s2 s3] s4] := gs_pair_ok.
have HE i j : (j != k) || (i != k.+1) -> H i j = (gs_pair a).1 i j.
  by move=> h; apply: upd2_other; rewrite orbC.
have Hk : H k.+1 k = ipnorm (cmip c) Av by apply: upd2_same.
have Hlow i j : (j < k)%N -> H i j = a_H a i j.
  by move=> hj; rewrite HE ?s2 // ltn_eqF.
have orthk : orthonormal (cmip c) P' k.+1.
  by apply: ortho_ext a_hQ => j hj; rewrite eP.
have mge : (k.+1 <= m)%N by case: (ltnP k.+1 m) => [/ltnW //|/hm'->].
split.
- move=> j hj; case: (ltnP j k.+1) => [hj'|hj']; first by rewrite eV // eP // a_hV.
  have hm1 : (k.+1 < m)%N by apply: leq_ltn_trans hj.
  have [e _ _ h] := hm hm1; suff -> : j = k.+1 by [].
  by apply/eqP; rewrite eqn_leq hj' andbT -ltnS -e.
- case: (ltnP k.+1 m) => [hm1|/hm'->//].
  have [-> nz eP1 _] := hm hm1; apply: (orthoS hmip orthk).
    rewrite eP1 (ipZl hmip) (ipZr hmip) -(ipnorm_sq (cmip c)).
    have -> : ((ipnorm (cmip c) Av)^-1)^* = (ipnorm (cmip c) Av)^-1.
      by apply: CrealP; rewrite rpredV ger0_real // ipnorm_ge0.
    by rewrite expr2 mulKf // mulVf.
  by move=> j hj; rewrite eP1 (ipZr hmip) eP // s4 // mulr0.
- by move=> _; rewrite eP //; apply: (ar_first ha); rewrite ncols_a.
- move=> j; rewrite ltnS leq_eqVlt => /orP[/eqP->|hj]; last first.
    have [w [h1 h2 h3 h4]] := ar_step ha hj; exists w; split.
    + rewrite eV ?(ltn_trans hj) // h1; congr (_ + _); apply: eq_bigr => i _.
      by rewrite Hlow // eP // ltnS (leq_trans (ltnW (ltn_ord i))) // ltnW.
    + by move=> i hij; rewrite eV ?h2 // ltnS (leq_trans hij) // ltnW.
    + by rewrite Hlow.
    + by move=> _; rewrite Hlow // eP //; apply: h4; rewrite ncols_a.
  exists Av; split.
  + rewrite eV // s1 -/Q; congr (_ + _); apply: eq_bigr => i _.
    by rewrite HE ?eP // [X in _ || X]neq_ltn ltn_ord orbT.
  + by move=> i hik; rewrite eV // a_hV // ipV_mip s4.
  + by rewrite Hk.
  + move=> hm1; have [_ nz e _] := hm hm1; rewrite Hk e scalerA mulfV // scale1r.
    by split=> //; rewrite lt_def nz ipnorm_ge0.
- move=> i j h; rewrite HE; last first.
    case/orP: h => h; last by rewrite neq_ltn h orbT.
    by case: eqP h => //= -> h; rewrite neq_ltn h orbT.
  case: (eqVneq j k) h => [->|ne] h.
    rewrite s3 //; move: h; rewrite ltnn orbF; exact: ltn_trans.
  rewrite s2 // (ar_hess ha) //; case/orP: h => [->//|h].
  by rewrite (ltnW h) orbT.
Qed.

Lemma Pb_upd x V' P' H' b vn hs : a_V a k.+1 = a_V a k.+1 ->
  V' = upd (a_V a) k.+1 (Mop c x) ->
  P' = (if cM c is Some _ then upd (a_P a) k.+1 x else a_P a) ->
  forall j, Pb c (Arn k.+1 V' P' H' b vn hs) j = upd Q k.+1 x j.
Proof.
move=> _ -> -> j; rewrite /Pb /sub_basis /Mop /=; case: (cM c) => [M|] //.
Qed.

Lemma advance_gs_ok a' : advance_gs snorm c a = Ok a' ->
  [/\ arn_ok c v a', a_iter a' = k.+1, a_vnorm a' = a_vnorm a &
     a_inv a' = (a_H a' k.+1 k / snorm k.+2 k.+1 (a_H a') <= eps14 C)].
Proof.
rewrite advance_gsE /=; set Av := (gs_pair a).2; set H := upd2 _ _ _ _.
rewrite /invariant_test; case: eqP => //= _.
case: ifP => hinv.
  case=> <-; split=> //=; rewrite /arn_ok /ncols /= addn0.
  by apply: new_column => //; rewrite ltnn.
have Hk : H k.+1 k = ipnorm (cmip c) Av by apply: upd2_same.
rewrite Hk; case: eqP => // /eqP nz [<-]; split=> //=; rewrite /arn_ok /ncols /= addn1.
have e j := @Pb_upd ((ipnorm (cmip c) Av)^-1 *: Av) _ _ H false (a_vnorm a) (a_houses a)
   erefl erefl erefl j.
rewrite -(linZ (gs_M hc)).
apply: new_column => [j hj|j hj|_|]; rewrite ?ltnn //.
- by rewrite /= updN // ltn_eqF.
- by rewrite e updN // ltn_eqF.
- by rewrite e updE; split=> //; rewrite updE.
Qed.

Lemma advance_gs_total : bounds_entries snorm ->
  (k = 0%N -> cA c (a_V a 0) != 0) -> exists a', advance_gs snorm c a = Ok a'.
Proof.
move=> hb h0; rewrite advance_gsE /=; set Av := (gs_pair a).2; set H := upd2 _ _ _ _.
have [[s1 s2 s3] s4] := gs_pair_ok.
have Hk : H k.+1 k = ipnorm (cmip c) Av by apply: upd2_same.
have s_ge0 : 0 <= snorm k.+2 k.+1 H by apply: le_trans (hb _ _ _ 0%N 0%N _ _).
rewrite /invariant_test; case: eqP => [s0|/eqP s0] /=.
  have z i j : (i < k.+2)%N -> (j < k.+1)%N -> H i j = 0.
    by move=> hi' hj; apply/eqP; rewrite -normr_le0 -s0 hb.
  exfalso; case E: k => [|k'].
    have e : Av = 0.
      by apply/eqP; rewrite -(ipnorm_eq0 hmip) -Hk z.
    have e00 : (gs_pair a).1 0%N k = 0.
      by have := z 0%N k isT (ltnSn _); rewrite /H upd2_other.
    move: s1; rewrite -/Av e addr0 big1 => [e1|i _].
      by move: (h0 E); rewrite -[X in a_V a X]E e1 eqxx.
    have -> : i = 0%N :> nat by have := ltn_ord i; rewrite [X in (_ < X.+1)%N]E ltnS leqn0 => /eqP.
    by rewrite e00 scale0r.
  have hk' : (k' < k)%N by rewrite E.
  have := sub_pos hk'; rewrite -[a_H a _ _]s2 ?ltn_eqF //.
  rewrite (_ : (gs_pair a).1 k'.+1 k' = H k'.+1 k').
    by rewrite z ?ltxx // E ?ltnS.
  by rewrite /H upd2_other // [k' == _]ltn_eqF // orbT.
case: ifP => hinv; first by eexists.
case: eqP => [e|_]; last by eexists.
by move: hinv; rewrite e mul0r ltW // invr_gt0 exprn_gt0 // ltr0n.
Qed.
End Step.

(** Consistent optional arguments of the constructor. *)
Definition init_args (v : vec) (Mv : option vec) (nv : option C) : Prop :=
  (if Mv is Some w then w = Mop c v else True) /\
  (if nv is Some r then r = ipnorm (cmip c) v else True).

Lemma init_gsE v Mv nv : init_args v Mv nv ->
  init_gs c v Mv nv = Ok (Mop c v,
    Arn 0 (fun _ => 0) (if cM c is Some _ then if v == 0 then fun _ => 0
                        else upd (fun _ => 0) 0 ((ipnorm (cmip c) v)^-1 *: v) else fun _ => 0)
      (fun _ _ => 0) false (ipnorm (cmip c) v) [::]).
Proof.
move=> [hMv hnv]; have nrm := norm_mip v.
have gt0 : (0 < ipnorm (cmip c) v) = (v != 0) by rewrite (ipnorm_gt0 hmip).
move: hMv nrm gt0; rewrite /init_gs /Mop; case EM: (cM c) => [M|] hMv nrm gt0.
- have -> : (if Mv is Some w then w else M v) = M v by case: Mv hMv.
  have -> : (if nv is Some r then Ok r else norm v (Some (M v)) (cB c)) = Ok (ipnorm (cmip c) v).
    by case: nv hnv => [r ->//|_].
  by rewrite /= gt0; case: (eqVneq v 0).
- have -> : (if nv is Some r then Ok r else norm v None (cB c)) = Ok (ipnorm (cmip c) v).
    by case: nv hnv => [r ->//|_].
  by [].
Qed.

Lemma init_ok v Mv nv : init_args v Mv nv ->
  exists a, [/\ arn_init c v Mv nv = Ok a, arn_ok c v a, a_iter a = 0%N,
                a_inv a = (v == 0) & a_vnorm a = ipnorm (cmip c) v].
Proof.
move=> h; have gt0 : (0 < ipnorm (cmip c) v) = (v != 0) by rewrite (ipnorm_gt0 hmip).
have := init_gsE h; set pa := (_, _) => e.
exists (if v != 0
      then Arn 0 (upd (a_V pa.2) 0 ((ipnorm (cmip c) v)^-1 *: Mop c v)) (a_P pa.2) (a_H pa.2) false (ipnorm (cmip c) v) [::]
      else Arn 0 (a_V pa.2) (a_P pa.2) (a_H pa.2) true (ipnorm (cmip c) v) [::]).
have -> : arn_init c v Mv nv = (let! (v, a) := init_gs c v Mv nv in
  Ok (if 0 < a_vnorm a
      then Arn 0 (upd (a_V a) 0 ((a_vnorm a)^-1 *: v)) (a_P a) (a_H a) false (a_vnorm a) (a_houses a)
      else Arn 0 (a_V a) (a_P a) (a_H a) true (a_vnorm a) (a_houses a))).
  by rewrite /arn_init; have := gs_o hc; case: (cortho c).
rewrite e /pa /= gt0; case: (eqVneq v 0) => [v0|v0] /=; split=> //; rewrite /arn_ok /ncols /=.
have nz : ipnorm (cmip c) v != 0 by rewrite (ipnorm_eq0 hmip).
have eP : Pb c (Arn 0 (upd (fun=> 0) 0 ((ipnorm (cmip c) v)^-1 *: Mop c v))
    (if cM c is Some _ then upd (fun=> 0) 0 ((ipnorm (cmip c) v)^-1 *: v) else fun=> 0)
    (fun _ _ => 0) false (ipnorm (cmip c) v) [::]) 0%N = (ipnorm (cmip c) v)^-1 *: v.
  by rewrite /Pb /sub_basis /Mop /=; case: (cM c) => [M|]; rewrite /= updE.
split=> //.
- by case=> // _; rewrite eP updE (linZ (gs_M hc)).
- case=> // -[] // _ _; rewrite -/(cmip c) eP (ipZl hmip) (ipZr hmip) -(ipnorm_sq (cmip c)) /=.
  rewrite (_ : ((ipnorm (cmip c) v)^-1)^* = (ipnorm (cmip c) v)^-1) ?expr2 ?mulKf ?mulVf //.
  by apply: CrealP; rewrite rpredV ger0_real // ipnorm_ge0.
- by rewrite eP scalerA mulfV // scale1r.
Qed.

Lemma advanceE a : advance snorm c a =
  if (cmaxiter c <= a_iter a)%N || a_inv a then Err ArgumentError else advance_gs snorm c a.
Proof.
rewrite /advance; case: leqP => //= _; case: (a_inv a) => //.
by have := gs_o hc; case: (cortho c).
Qed.

(** States reachable by calls of advance. *)
Lemma reach_ok v Mv nv n a0 a : init_args v Mv nv -> arn_init c v Mv nv = Ok a0 ->
  arn_advance_n snorm c n a0 = Ok a ->
  [/\ arn_ok c v a, a_iter a = n, a_vnorm a = ipnorm (cmip c) v & (n <= cmaxiter c)%N \/ n = 0%N].
Proof.
move=> hi e0; have [a1 [e1 h1 h2 h3 h4]] := init_ok hi; move: e0; rewrite e1 => -[<-] {a0}.
elim: n a => [|n IH] a /=; first by case=> <-; split=> //; right.
move=> E; have [b Eb E1] := bind_ok E.
have [g1 g2 g3 g4] := IH b Eb; move: E1; rewrite advanceE; case: ifP => // /norP[].
rewrite -ltnNge => hm /negbTE hinv /(advance_gs_ok g1 hinv) [k1 k2 k3 _].
by split=> //; rewrite ?k2 ?k3 ?g2 //; left; rewrite -g2.
Qed.

Lemma loop_ok v a fuel a' : arn_ok c v a -> (cmaxiter c - a_iter a <= fuel)%N ->
  arn_loop snorm c fuel a = Ok a' -> arn_ok c v a' /\
  ((cmaxiter c <= a_iter a')%N || a_inv a').
Proof.
elim: fuel a => [|f IH] a ha hf /=.
  by case: ifP => // /negbT; rewrite negb_and negbK -leqNgt => h [<-].
case: ifP => [/andP[h1 /negbTE h2]|/negbT]; last by rewrite negb_and negbK -leqNgt => h [<-].
move=> E; have [b Eb E1] := bind_ok E; move: Eb; rewrite advanceE h2 leqNgt h1 /=.
move=> /(advance_gs_ok ha h2) [g1 g2 _ _]; apply: (IH b) => //.
by rewrite g2 subnS -ltnS; case: (cmaxiter c - a_iter a)%N hf => // x; rewrite ltnS.
Qed.

(** With a matrix norm that bounds the entries, a nonzero A v suffices for the
    calls of advance to succeed. *)
Lemma advance_total v a : bounds_entries snorm -> arn_ok c v a ->
  v != 0 -> cA c (Mop c v) != 0 -> ~~ a_inv a -> (a_iter a < cmaxiter c)%N ->
  exists a', advance snorm c a = Ok a'.
Proof.
move=> hb ha v0 Av0 hinv hm; rewrite advanceE leqNgt hm (negbTE hinv) /=.
apply: (advance_gs_total ha (negbTE hinv) hb) => _.
have h0 : (0 < ncols a)%N by rewrite /ncols hinv addn1.
apply: contra Av0 => /eqP e0; have e := ar_first ha h0; rewrite e (linZ (gs_M hc)) -(ar_V ha) //.
by rewrite (linZ (gs_A hc)) e0 scaler0.
Qed.

Lemma loop_total v a fuel : bounds_entries snorm -> arn_ok c v a ->
  v != 0 -> cA c (Mop c v) != 0 -> (cmaxiter c - a_iter a <= fuel)%N ->
  exists a', arn_loop snorm c fuel a = Ok a'.
Proof.
move=> hb + v0 Av0; elim: fuel a => [|f IH] a ha hf /=.
  case: ifP => [/andP[h1 h2]|_]; last by eexists.
  by move: hf; rewrite leqn0 subn_eq0 leqNgt h1.
case: ifP => [/andP[h1 h2]|_]; last by eexists.
have [b Eb] := advance_total hb ha v0 Av0 h2 h1; rewrite Eb /=.
move: Eb; rewrite advanceE leqNgt h1 (negbTE h2) /= => /(advance_gs_ok ha (negbTE h2)) [g1 g2 _ _].
by apply: IH => //; rewrite g2 subnS -ltnS; case: (cmaxiter c - a_iter a)%N hf => // x; rewrite ltnS.
Qed.
End Cfg.
End Gs.
