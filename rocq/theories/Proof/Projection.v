(** Proofs about Projection. *)
From mathcomp Require Import all_ssreflect all_algebra ring.
From Verif Require Import Base Spec.LinAlg Proof.Algebra Model.Inner Spec.Inner Proof.Inner Proof.IpTheory.
From Verif Require Import Model.Projection Spec.Projection Proof.Qr.

Set Implicit Arguments.
Unset Strict Implicit.
Unset Printing Implicit Defensive.
Import Order.TTheory GRing.Theory Num.Theory.
Local Open Scope ring_scope.

Lemma inv_mul (C : numClosedFieldType) k (Q R : 'M[C]_k) : Q \in unitmx -> R \in unitmx ->
  invmx (Q *m R) = invmx R *m invmx Q.
Proof.
move=> uQ uR; have u : Q *m R \in unitmx by rewrite unitmx_mul uQ.
by rewrite -[RHS](mulmxK u) -!mulmxA (mulKmx uQ) (mulKmx uR).
Qed.

Section Alg.
Variable C : numClosedFieldType.
Variable N k : nat.
Variable B : ipB C N.
Hypothesis hB : valid_ip B.
Variables (X Y V W : 'M[C]_(N, k)) (F S : 'M[C]_k).
Hypothesis uF : F \in unitmx.
Hypothesis uS : S \in unitmx.
Hypothesis eX : X = V *m F.
Hypothesis eY : Y = W *m S.
Hypothesis u : inner B Y X \in unitmx.

Lemma WV_unit0 : inner B W V \in unitmx.
Proof.
by move: u; rewrite eX eY innerMr // innerMl // !unitmx_mul => /andP[/andP[_ ->] _].
Qed.

Lemma proj_alg m (a : 'M[C]_(N, m)) :
  V *m (invmx (inner B W V) *m inner B W a) = X *m invmx (inner B Y X) *m inner B Y a.
Proof.
have uM := WV_unit0; have uSh : S^h \in unitmx by rewrite unitmx_ctr.
have -> : invmx (inner B Y X) = invmx F *m invmx (inner B W V) *m invmx (S^h).
  have e : inner B Y X = S^h *m (inner B W V *m F) by rewrite eX eY innerMr // innerMl // -mulmxA.
  have v : invmx F *m invmx (inner B W V) *m invmx (S^h) *m inner B Y X = 1%:M.
    by rewrite e -!mulmxA (mulKmx uSh) (mulKmx uM) mulVmx.
  by rewrite -[LHS]mul1mx -v mulmxK.
rewrite eX eY innerMl // -!mulmxA (mulmxA F) mulmxV // mul1mx.
by rewrite (mulmxA (invmx (S^h))) mulVmx // mul1mx.
Qed.
End Alg.

Section Proj.
Variable C : numClosedFieldType.
Variable sqr : forall n k, 'M[C]_(n, k) -> 'M[C]_(n, k) * 'M[C]_k.
Hypothesis hsqr : qr_spec sqr.
Variable N k : nat.
Variable B : option (ipB C N).
Hypothesis hB : valid_ip (ip_arg B).
Variables (X : 'M[C]_(N, k)) (Yo : option 'M[C]_(N, k)) (orth : bool) (its : nat).
Local Notation Y := (if Yo is Some Y then Y else X).
Local Notation ip := (inner (ip_arg B)).
Lemma mk_proj_total : its != 0%N -> exists p, mk_proj sqr X Yo B orth its = Ok p.
Proof.
rewrite /mk_proj => /negbTE->; case: ifP => _; first by eexists.
case: orth; rewrite ?andbF ?andbT /=; last by eexists.
have [Q [R [e _ _ _]]] := qr_thm hsqr X 1 hB; rewrite e /=.
case: Yo => [Y'|] /=; last by eexists.
by have [Q' [R' [-> _ _ _]]] := qr_thm hsqr Y' 1 hB; eexists.
Qed.

(** With ip_B=None, scipy's qr is used. *)
Hypothesis hk : orth -> B = None -> (k <= N)%N.

Variable p : proj C N k.
Hypothesis hp : mk_proj sqr X Yo B orth its = Ok p.

(** The bases: X = V F and Y = W S. *)
Record proj_ok : Prop := ProjOk {
  po_B : pB p = B;
  po_its : pits p = its /\ its != 0%N;
  po_X : exists2 F, F \in unitmx & X = pV p *m F;
  po_Y : exists2 S, S \in unitmx & Y = pW p *m S;
  po_VR : orth -> qr_hyp B X -> exists2 VR, pVR p = Some VR & X = pV p *m VR;
  po_WR : orth -> qr_hyp B Y -> exists2 WR, pWR p = Some WR & Y = pW p *m WR;
  po_none : ~~ orth -> [/\ pVR p = None, pWR p = None, pV p = X & pW p = Y];
  po_VRu : forall VR, pVR p = Some VR -> upper_tri VR;
  po_same : p_same p = ~~ (orth && isSome Yo);
  po_WV : orth -> Yo = None -> pW p = pV p;
  po_QR : match pQR p with
          | Some (Q, R) => [/\ ip (pW p) (pV p) = Q *m R, Q^h *m Q = 1%:M & upper_tri R]
          | None => ip (pW p) (pV p) = 1%:M /\ orth /\ Yo = None
          end }.

Hypothesis u : ip Y X \in unitmx.

Lemma proj_okP : (0 < k)%N -> (orth -> Yo = None -> qr_hyp B X) -> proj_ok.
Proof.
move=> k0 hq; move: hp; rewrite /mk_proj; case: eqVneq => // its0.
rewrite gtn_eqF //.
have [frX frY] := full_rank_unit hB u.
case E: orth hk hq => hk' hq; rewrite ?andbF ?andbT /=; last first.
  move=> [ep]; split; rewrite -?ep //=; try (by exists 1%:M; rewrite ?unitmx1 ?mulmx1); try by rewrite E.
  have [h1 h2 h3] := hsqr (inner (ip_arg B) Y X) (leqnn k).
  by case: (sqr _) h1 h2 h3 => Q R /= h1 h2 h3; split.
have [V [VR [e1 e2 e3 e4]]] := qr_thm hsqr X 1 hB; rewrite e1 /=.
have hk2 : B = None -> (k <= N)%N by apply: hk'.
case EY: Yo frY u hq => [Y'|] /= frY uY hq; last first.
  move=> [ep]; have [f1 f2] := e3 (hq isT erefl); split; rewrite -?ep ?EY ?E //=; try exact: (e4 hk2 frX).
  - by move=> _ _; exists VR.
  - by move=> _ _; exists VR.
  - by move=> VR' [<-]; apply: e2.
have [W [WR [d1 d2 d3 d4]]] := qr_thm hsqr Y' 1 hB; rewrite d1 /=.
move=> [ep]; split; rewrite -?ep ?EY ?E //=; try exact: (e4 hk2 frX); try exact: (d4 hk2 frY).
- by move=> _ /e3[? _]; exists VR.
- by move=> _ /d3[? _]; exists WR.
- by move=> VR' [<-]; apply: e2.
- have [h1 h2 h3] := hsqr (ip W V) (leqnn k).
  by case: (sqr _) h1 h2 h3 => Q R /= h1 h2 h3; split.
Qed.

Section Ok.
Hypothesis po : proj_ok.
Hypothesis k0 : (0 < k)%N.
Let W := pW p.
Let V := pV p.

Lemma WV_unit : ip W V \in unitmx.
Proof.
by have [F uF eX] := po_X po; have [S uS eY] := po_Y po; apply: (WV_unit0 hB eX eY u).
Qed.

Lemma p_solveE m (c : 'M[C]_(k, m)) : p_solve p c = Ok (invmx (ip W V) *m c).
Proof.
rewrite /p_solve; have := WV_unit; have := po_QR po; rewrite -/W -/V.
case: (pQR p) => [[Q R]|[-> _] _]; last by rewrite invmx1 mul1mx.
move=> [e h1 h2]; rewrite e unitmx_mul => /andP[uQ uR].
rewrite solve_upperE // uR; congr (Ok _); rewrite tconjE mulmxA; congr (_ *m _).
have [_ <-] := unitary_inv h1.
by rewrite inv_mul.
Qed.

Definition Pmx m (a : 'M[C]_(N, m)) : 'M[C]_(N, m) := X *m invmx (ip Y X) *m ip Y a.

Lemma apply1E m (a : 'M[C]_(N, m)) : p_apply1 p a = Ok (Pmx a).
Proof.
rewrite /p_apply1 gtn_eqF // po_B // p_solveE /= /Pmx -/V; congr (Ok _).
have [F uF eX] := po_X po; have [S uS eY] := po_Y po; exact: (proj_alg hB uF uS eX eY u).
Qed.

Definition PAmx m (a : 'M[C]_(N, m)) : 'M[C]_(N, m) := Y *m invmx (ip X Y) *m ip X a.

Lemma uXY : ip X Y \in unitmx. Proof. by rewrite innerC // unitmx_ctr. Qed.

Lemma apply_adj1E m (a : 'M[C]_(N, m)) : p_apply_adj1 p a = Ok (PAmx a).
Proof.
rewrite /p_apply_adj1 gtn_eqF // po_B // -/V -/W.
have [F uF eX] := po_X po; have [S uS eY] := po_Y po.
rewrite /PAmx -(proj_alg hB uS uF eY eX uXY).
have : ip V W = (ip W V)^h by apply: innerC.
have := WV_unit; have := po_QR po; rewrite -/W -/V.
case: (pQR p) => [[Q R]|[-> _] _ -> /=]; last by rewrite ctr1 invmx1 mul1mx.
move=> [-> h1 h2]; rewrite unitmx_mul => /andP[uQ uR] ->; rewrite solve_lowerE // uR /=.
have [_ eQ] := unitary_inv h1.
by rewrite ctrM inv_mul ?unitmx_ctr // -!invmx_ctr eQ ctrK !mulmxA.
Qed.

Lemma p_YaE m (a : 'M[C]_(N, m)) : (orth -> qr_hyp B Y) -> p_Ya p a = ip Y a.
Proof.
rewrite /p_Ya po_B //; move=> h; case E: orth.
  by have [WR -> e] := po_WR po E (h E); rewrite e tconjE innerMl.
by have [|_ -> _ ->] := po_none po; rewrite ?E.
Qed.
End Ok.

Lemma PmxK m (a : 'M[C]_(N, m)) : ip Y (a - Pmx a) = 0.
Proof. by rewrite innerBr // /Pmx -mulmxA innerMr // mulmxA mulmxV // mul1mx subrr. Qed.

Lemma PAmxK m (a : 'M[C]_(N, m)) : ip X (a - PAmx a) = 0.
Proof. by rewrite innerBr // /PAmx -mulmxA innerMr // mulmxA mulmxV ?uXY // mul1mx subrr. Qed.

Lemma iterE m (f : 'M[C]_(N, m) -> res 'M[C]_(N, m)) P a :
  (forall b, f b = Ok (P b)) -> P (a - P a) = 0 ->
  p_iter p f a = Ok (P a) /\ p_iterc p f a = Ok (a - P a).
Proof.
move=> hf h; rewrite /p_iter /p_iterc hf /=; split.
  by elim: (pits p).-1 => //= n ->; rewrite /= hf h /= addr0.
by elim: (pits p).-1 => //= n ->; rewrite /= hf h /= subr0.
Qed.

(** No assumption on k. *)
Hypothesis hq : orth -> Yo = None -> qr_hyp B X.

Lemma Pmx_idem m (a : 'M[C]_(N, m)) : Pmx (a - Pmx a) = 0.
Proof. by rewrite {1}/Pmx PmxK mulmx0. Qed.
Lemma PAmx_idem m (a : 'M[C]_(N, m)) : PAmx (a - PAmx a) = 0.
Proof. by rewrite {1}/PAmx PAmxK mulmx0. Qed.

Lemma Pmx0 m (a : 'M[C]_(N, m)) : k == 0%N -> Pmx a = 0 /\ PAmx a = 0.
Proof.
move=> /eqP e; split; apply/matrixP => i j; rewrite /Pmx /PAmx -mulmxA !mxE big1 // => -[l hl].
  by exfalso; rewrite e in hl.
by exfalso; rewrite e in hl.
Qed.

Lemma applyE m (a : 'M[C]_(N, m)) : p_apply p a = Ok (Pmx a).
Proof.
rewrite /p_apply; case: eqVneq => [/eqP k0|k0]; first by have [->] := Pmx0 a k0.
have k1 : (0 < k)%N by rewrite lt0n.
by have [] := @iterE m _ (@Pmx m) a (apply1E (proj_okP k1 hq) k1 (m := m)) (Pmx_idem a).
Qed.

Lemma complE m (a : 'M[C]_(N, m)) : p_compl p a = Ok (a - Pmx a).
Proof.
rewrite /p_compl; case: eqVneq => [/eqP k0|k0]; first by have [-> _] := Pmx0 a k0; rewrite subr0.
have k1 : (0 < k)%N by rewrite lt0n.
by have [] := @iterE m _ (@Pmx m) a (apply1E (proj_okP k1 hq) k1 (m := m)) (Pmx_idem a).
Qed.

Lemma apply_adjE m (a : 'M[C]_(N, m)) : p_apply_adj p a = Ok (PAmx a).
Proof.
rewrite /p_apply_adj; case: eqVneq => [/eqP k0|k0]; first by have [_ ->] := Pmx0 a k0.
have k1 : (0 < k)%N by rewrite lt0n.
by have [] := @iterE m _ (@PAmx m) a (apply_adj1E (proj_okP k1 hq) k1 (m := m)) (PAmx_idem a).
Qed.

Lemma compl_adjE m (a : 'M[C]_(N, m)) : p_compl_adj p a = Ok (a - PAmx a).
Proof.
rewrite /p_compl_adj; case: eqVneq => [/eqP k0|k0]; first by have [_ ->] := Pmx0 a k0; rewrite subr0.
have k1 : (0 < k)%N by rewrite lt0n.
by have [] := @iterE m _ (@PAmx m) a (apply_adj1E (proj_okP k1 hq) k1 (m := m)) (PAmx_idem a).
Qed.

Lemma mx_k0 m (c d : 'M[C]_(k, m)) : k == 0%N -> c = d.
Proof. by move=> /eqP e; apply/matrixP => -[i hi]; exfalso; rewrite e in hi. Qed.

Lemma apply_YaE m (a : 'M[C]_(N, m)) : (orth -> qr_hyp B Y) -> p_apply_Ya p a = Ok (Pmx a, ip Y a).
Proof.
move=> hY; have := applyE a; rewrite /p_apply /p_apply_Ya; case: eqVneq => [/eqP k0|k0].
  by case=> <-; congr (Ok (_, _)); apply: mx_k0.
have k1 : (0 < k)%N by rewrite lt0n.
by move=> -> /=; rewrite (p_YaE (proj_okP k1 hq)).
Qed.

Lemma compl_YaE m (a : 'M[C]_(N, m)) : (orth -> qr_hyp B Y) -> p_compl_Ya p a = Ok (a - Pmx a, ip Y a).
Proof.
move=> hY; have := complE a; rewrite /p_compl /p_compl_Ya; case: eqVneq => [/eqP k0|k0].
  by case=> <-; congr (Ok (_, _)); apply: mx_k0.
have k1 : (0 < k)%N by rewrite lt0n.
by move=> -> /=; rewrite (p_YaE (proj_okP k1 hq)).
Qed.

Lemma adjointE m n (a : 'M[C]_(N, m)) (b : 'M[C]_(N, n)) : ip (Pmx a) b = ip a (PAmx b).
Proof.
rewrite /Pmx /PAmx; set Z := Y; have e : ip X Z = (ip Z X)^h by apply: innerC.
rewrite -!mulmxA innerMl // innerMr // e -invmx_ctr.
by rewrite ctrM -mulmxA -(innerC hB).
Qed.
End Proj.

Section Sing.
Variable C : numClosedFieldType.
Variable sqr : forall n k, 'M[C]_(n, k) -> 'M[C]_(n, k) * 'M[C]_k.
Hypothesis hsqr : qr_spec sqr.
Variable N k : nat.
Variable B : option (ipB C N).
Variable X : 'M[C]_(N, k).
Variable Yo : option 'M[C]_(N, k).
Variable orth : bool.
Variable its : nat.
Variable p : proj C N k.
Hypothesis hp : mk_proj sqr X Yo B orth its = Ok p.
Local Notation ip := (inner (ip_arg B)).

Lemma apply_singular Y' m (a : 'M[C]_(N, m)) : valid_ip (ip_arg B) -> Yo = Some Y' -> (0 < k)%N ->
  (orth -> B <> None) -> ip Y' X \notin unitmx -> p_apply p a = Err LinAlgError.
Proof.
move=> hB eY k0 ho nu; move: hp; rewrite /mk_proj eY; case: (its == 0%N) => //; rewrite gtn_eqF //=.
have orthE (Z : 'M[C]_(N, k)) : exists V VR, [/\
    (if orth then let! (Q, R) := qr sqr B Z 1 in Ok (Q, Some R) else Ok (Z, None)) = Ok (V, VR)
  & exists2 F, F \in unitmx & Z = V *m F].
  case: orth ho => [/(_ isT)|_]; last first.
    by exists Z, None; split=> //; exists 1%:M; rewrite ?unitmx1 ?mulmx1.
  case: (B) hB => // B' hB' _; have [Q [R [e _ [F [_ f2 f3]] _ _]]] := mgs_thm Z 1 hB'.
  by exists Q, (Some R); rewrite /= e; split=> //; exists F.
have [V [VR [-> [F uF eX]]]] := orthE X; have [W [WR [-> [S uS eW]]]] := orthE Y'.
move=> /= -[ep]; rewrite -ep /p_apply gtn_eqF // /p_iter /p_apply1 gtn_eqF //= /p_solve /=.
have [h1 h2 h3] := hsqr (ip W V) (leqnn k).
case: (sqr _) h1 h2 h3 => Q R /= h1 h2 h3.
rewrite solve_upperE //; case: ifP => // uR; exfalso; move/negP: nu; apply.
have [uQ _] := unitary_inv h2.
by rewrite eX eW innerMr // innerMl // !unitmx_mul uF unitmx_ctr uS h1 unitmx_mul uQ uR.
Qed.
End Sing.

Section Small.
Variable C : numClosedFieldType.
Variable sqr : forall n k, 'M[C]_(n, k) -> 'M[C]_(n, k) * 'M[C]_k.
Let e : C := eps15 C / 2%:R.
Let e0 : 0 < e. Proof. by rewrite divr_gt0 ?eps15_gt0 ?ltr0n. Qed.
Let e1 : e < 1.
Proof.
rewrite /e ltr_pdivr_mulr ?ltr0n // mul1r /eps15 (@le_lt_trans _ _ 1) ?ltr1n //.
by rewrite invf_le1 ?exprn_ege1 ?ler1n ?exprn_gt0 ?ltr0n.
Qed.

Lemma mgs_small n : mgs IpNone (e%:M : 'M[C]_1) n = Ok (e%:M, e%:M).
Proof.
rewrite /mgs /= /mgs_col.
have -> : forall s : (nat -> 'cV[C]_1) * (nat -> nat -> C),
    forn n.+1 (fun _ => forn 0 (mgs_orth IpNone 0)) s = s.
  by elim: n.+1 => //= n' IH s; rewrite IH.
have nE : norm (ncol (e%:M : 'M[C]_1) 0) None IpNone = Ok e.
  rewrite norm_ip // /ipnorm; congr Ok.
  have -> : ncol (e%:M : 'M[C]_1) 0 = e%:M.
    by rewrite (ncolE _ 0); apply/matrixP => i j; rewrite !ord1 !mxE.
  by rewrite /ip1 /= tconjE !mxE big_ord1 ctrE !mxE eqxx mulr1n geC0_conj ?ltW // -expr2 sqrCK // ltW.
rewrite nE /= real_leNgt ?ger0_real ?ltW ?eps15_gt0 //.
have -> /= : e < eps15 C by rewrite /e ltr_pdivr_mulr ?ltr0n // ltr_pmulr ?eps15_gt0 // ltr1n.
congr (Ok (_, _)); apply/matrixP => i j; rewrite !ord1 !mxE /=.
  by rewrite (ncolE _ 0) !mxE.
by [].
Qed.

Lemma qr_small : exists (X Q R : 'M[C]_1), qr sqr (Some IpNone) X 0 = Ok (Q, R) /\ X <> Q *m R.
Proof.
exists e%:M, e%:M, e%:M; split; first exact: mgs_small.
move=> /matrixP/(_ 0 0)/eqP; rewrite -scalar_mxM !mxE eqxx !mulr1n -{1}[e]mulr1.
by rewrite (inj_eq (mulfI (lt0r_neq0 e0))) gt_eqF.
Qed.

Lemma proj_small : exists (X : 'M[C]_1) (p : proj C 1 1),
  [/\ mk_proj sqr X None (Some IpNone) true 2 = Ok p, inner IpNone X X \in unitmx &
      p_apply p X <> Ok X].
Proof.
have ce : e^* = e by rewrite geC0_conj // ltW.
have ee : (e%:M : 'M[C]_1)^h = e%:M by apply/matrixP => i j; rewrite ctrE !ord1 !mxE eqxx !mulr1n ce.
exists e%:M; eexists; split; first by rewrite /mk_proj /qr (mgs_small 1).
  rewrite /= tconjE ee -scalar_mxM unitmxE det_scalar1 unitfE mulf_neq0 // lt0r_neq0 //.
rewrite /p_apply /p_iter /p_apply1 /= !tconjE !ee => -[] /matrixP/(_ 0 0)/eqP; apply/negP.
rewrite -!scalar_mxM !mxE !big_ord1 !mxE !big_ord1 !mxE eqxx !mulr1n -subr_eq0.
set q := e * e; have q1 : q < 1 by rewrite mulr_ilt1 ?ltW.
have -> : e * q + e * (e * (e - e * q)) - e = - e * (1 - q) ^+ 2 by rewrite /q; ring.
by rewrite mulf_neq0 ?oppr_eq0 ?lt0r_neq0 // exprn_gt0 // subr_gt0.
Qed.
End Small.
