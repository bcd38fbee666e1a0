From mathcomp Require Import all_ssreflect all_algebra.
From Verif Require Import Base Spec.LinAlg Proof.Algebra Model.LinearOperator Spec.OperatorExpr.

Set Implicit Arguments.
Unset Strict Implicit.
Unset Printing Implicit Defensive.
Import Order.TTheory GRing.Theory Num.Theory.
Local Open Scope ring_scope.

Section Proof.
Variable C : numClosedFieldType.
Implicit Types (e : expr C) (op : lop C).

Lemma as_mx_id m n (X : 'M[C]_(m, n)) : as_mx m n (Arr X) = Some X.
Proof.
rewrite /as_mx /=; case: eqP => // e1; case: eqP => // e2.
by congr Some; rewrite castmx_id.
Qed.

Lemma as_mx_some m n X (Y : 'M[C]_(m, n)) : as_mx m n X = Some Y -> X = Arr Y.
Proof.
case: X => m' n' X; rewrite /as_mx /=; case: eqP => // e1; case: eqP => // e2 [<-].
by case: _ / e1; case: _ / e2; rewrite castmx_id.
Qed.

Lemma arr_addE m n (X Y : 'M[C]_(m, n)) : arr_add (Arr X) (Arr Y) = Ok (Arr (X + Y)).
Proof. by rewrite /arr_add /= as_mx_id. Qed.

Lemma arr_dotE m l n (A : 'M[C]_(m, l)) (X : 'M[C]_(l, n)) :
  arr_dot (Arr A) (Arr X) = Ok (Arr (A *m X)).
Proof. by rewrite /arr_dot /= as_mx_id. Qed.

(** The operator [op] acts like the matrix [A]. *)
Definition acts op m n (A : 'M[C]_(m, n)) : Prop :=
  [/\ lrow op = m, lcol op = n,
      forall k (X : 'M[C]_(n, k)), (0 < k)%N ->
        if raw_dot op is Some f then f (Arr X) = Ok (Arr (A *m X)) else False,
      forall k (X : 'M[C]_(m, k)), (0 < k)%N ->
        if raw_adj op is Some f then f (Arr X) = Ok (Arr (A^h *m X)) else False
    & is_id op -> exists e : m = n, A = castmx (erefl, e) 1%:M].

Lemma acts_dot op m n (A : 'M[C]_(m, n)) : acts op A ->
  forall k (X : 'M[C]_(n, k)), (0 < k)%N -> dot op (Arr X) = Ok (Arr (A *m X)).
Proof.
case: op => m' n' d da i [/= em en Hd Hda Hi] k X k0.
rewrite /dot /= en eqxx /=; case: d Hd => [f|] Hd; last by case: (Hd k X k0).
by rewrite gtn_eqF //; apply: Hd.
Qed.

Lemma acts_adj op m n (A : 'M[C]_(m, n)) : acts op A ->
  forall k (X : 'M[C]_(m, k)), (0 < k)%N -> dot_adj op (Arr X) = Ok (Arr (A^h *m X)).
Proof.
case: op => m' n' d da i [/= em en Hd Hda Hi] k X k0.
rewrite /dot_adj /= em eqxx /=; case: da Hda => [f|] Hda; last by case: (Hda k X k0).
by rewrite gtn_eqF //; apply: Hda.
Qed.

Lemma acts_raw op m n (A : 'M[C]_(m, n)) : acts op A ->
  (exists f, raw_dot op = Some f) /\ (exists f, raw_adj op = Some f).
Proof.
case: op => m' n' d da i [/= em en Hd Hda Hi].
split; first by case: d Hd => [f|Hd]; [exists f|case: (Hd 1%N 0 isT)].
by case: da Hda => [f|Hda]; [exists f|case: (Hda 1%N 0 isT)].
Qed.

Lemma notimpl_ok T (r : res T) x : r = Ok x -> notimpl r = Ok x.
Proof. by move->. Qed.

Lemma acts_scaled op m n (A : 'M[C]_(m, n)) c : acts op A ->
  exists2 op', mkScaled op c = Ok op' & acts op' (c *: A).
Proof.
move=> H; have [em en _ _ _] := H; eexists; first by [].
split=> //= k X k0.
  by rewrite (acts_dot H) //= /arr_scale /= scalemxAl.
by rewrite (acts_adj H) //= /arr_scale /= ctrZ scalemxAl.
Qed.

Lemma acts_sum op op' m n (A B : 'M[C]_(m, n)) : acts op A -> acts op' B ->
  exists2 o, mkSum op op' = Ok o & acts o (A + B).
Proof.
move=> H H'; have [em en _ _ _] := H; have [em' en' _ _ _] := H'.
rewrite /mkSum em en em' en' !eqxx /=; eexists; first by [].
split=> //= k X k0.
  by rewrite (acts_dot H) //= (acts_dot H') //= arr_addE mulmxDl.
by rewrite (acts_adj H) //= (acts_adj H') //= arr_addE ctrD mulmxDl.
Qed.

Lemma acts_prod op op' m l n (A : 'M[C]_(m, l)) (B : 'M[C]_(l, n)) :
  acts op A -> acts op' B -> exists2 o, mkProd op op' = Ok o & acts o (A *m B).
Proof.
move=> H H'; have [em en _ _ _] := H; have [em' en' _ _ _] := H'.
rewrite /mkProd em en em' en' !eqxx /=; eexists; first by [].
split=> //= k X k0.
  by rewrite (acts_dot H') //= (acts_dot H) //= mulmxA.
by rewrite (acts_adj H) //= (acts_adj H') //= ctrM mulmxA.
Qed.

Lemma acts_mul op op' m l n (A : 'M[C]_(m, l)) (B : 'M[C]_(l, n)) :
  acts op A -> acts op' B -> exists2 o, op_mul op op' = Ok o & acts o (A *m B).
Proof.
move=> H H'; rewrite /op_mul.
case i': (is_id op').
  have [_ _ _ _ /(_ i') [e eB]] := H'.
  exists op => //; move: B eB H'; case: _ / e => B -> _.
  by rewrite castmx_id mulmx1.
case i: (is_id op).
  have [_ _ _ _ /(_ i) [e eA]] := H.
  exists op' => //; clear i i'; subst l; rewrite castmx_id in eA.
  by rewrite eA mul1mx.
by have [o -> Ho] := acts_prod H H'; exists o.
Qed.

Lemma power_loop (f : arr C -> res (arr C)) n (A : 'M[C]_n) p k (X : 'M[C]_(n, k)) :
  (forall k (X : 'M[C]_(n, k)), (0 < k)%N -> f (Arr X) = Ok (Arr (A *m X))) -> (0 < k)%N ->
  fornE p (fun _ r => f r) (Arr X) = Ok (Arr (mxpow A p *m X)).
Proof.
move=> Hf k0; elim: p => [|p IH] /=; first by rewrite mul1mx.
by rewrite IH /= Hf // mulmxA.
Qed.

Lemma mxpow_comm n (A : 'M[C]_n) p : A *m mxpow A p = mxpow A p *m A.
Proof. by elim: p => [|p IH] /=; rewrite ?mulmx1 ?mul1mx // {1}IH mulmxA. Qed.

Lemma ctr_mxpow n (A : 'M[C]_n) p : (mxpow A p)^h = mxpow A^h p.
Proof. by elim: p => [|p IH] /=; rewrite ?ctr1 // mxpow_comm ctrM IH. Qed.

Lemma acts_power op n (A : 'M[C]_n) p : acts op A ->
  exists2 o, mkPower op (Posz p) = Ok o & acts o (mxpow A p).
Proof.
move=> H; have [em en _ Ha _] := H.
rewrite /mkPower em en !eqxx /=; eexists; first by [].
split=> //= k X k0.
  by apply: power_loop => // k' X' k0'; apply: acts_dot.
rewrite ctr_mxpow; apply: power_loop => // k' X' k0'.
by have := Ha k' X' k0'; case: (raw_adj op).
Qed.

Lemma acts_adjoint op m n (A : 'M[C]_(m, n)) : acts op A ->
  exists2 o, mkAdj op = Ok o & acts o (A^h).
Proof.
move=> H; have [[f ef] [g eg]] := acts_raw H; have [em en Hd Hda _] := H.
rewrite /mkAdj em en ef eg; eexists; first by [].
by split=> //= k X k0; [move: (Hda k X k0); rewrite eg|move: (Hd k X k0); rewrite ef ctrK].
Qed.

Theorem means_acts e m n (A : 'M[C]_(m, n)) : means e A ->
  exists2 op, build e = Ok op & acts op A.
Proof.
elim=> {e m n A} /=.
- move=> m n A; eexists; first by [].
  by split=> //= k X k0; rewrite arr_dotE.
- move=> n; eexists; first by [].
  split=> //= [k X _|k X _|_]; rewrite ?ctr1 ?mul1mx //.
  by exists (erefl n); rewrite castmx_id.
- move=> n; eexists; first by [].
  by split=> //= k X _; rewrite ?ctr0 mul0mx.
- move=> e f m n A B _ [op -> H] _ [op' -> H'] /=.
  by have [o E Ho] := acts_sum H H'; exists o => //; apply: notimpl_ok.
- move=> e f m n A B _ [op -> H] _ [op' -> H'] /=.
  have [o1 E1 H1] := acts_scaled (-1) H'; rewrite scaleN1r in H1.
  rewrite /op_sub /op_neg (notimpl_ok E1) /=.
  by have [o E Ho] := acts_sum H H1; exists o => //; apply: notimpl_ok.
- move=> e m n A _ [op -> H] /=.
  have [o1 E1 H1] := acts_scaled (-1) H; rewrite scaleN1r in H1.
  by exists o1 => //; apply: notimpl_ok.
- move=> e f m l n A B _ [op -> H] _ [op' -> H'] /=; exact: acts_mul.
- move=> c e m n A _ [op -> H] /=.
  by have [o E Ho] := acts_scaled c H; exists o => //; apply: notimpl_ok.
- move=> e n A p _ [op -> H] /=.
  by have [o E Ho] := acts_power p H; exists o => //; apply: notimpl_ok.
- move=> e m n A _ [op -> H] /=; exact: acts_adjoint.
Qed.

(** Applying an operator to an array with a wrong number of rows. *)
Lemma dot_mismatch op X : nrow X != lcol op -> dot op X = Err LinearOperatorError.
Proof. by rewrite /dot => ->. Qed.
Lemma dot_adj_mismatch op X : nrow X != lrow op -> dot_adj op X = Err LinearOperatorError.
Proof. by rewrite /dot_adj => ->. Qed.

Lemma arr_eta (X : arr C) : X = Arr (cont X).
Proof. by case: X. Qed.

(** Conversely, an expression without identity leaves that can be built has a meaning. *)
Lemma build_means e op : plain e -> build e = Ok op ->
  exists A : 'M[C]_(lrow op, lcol op), means e A.
Proof.
elim: e op => [X|//|m n|a IHa b IHb|a IHa b IHb|a IHa|a IHa b IHb|c a IHa|a IHa p|a IHa] op /=.
- by move=> _ [<-] /=; exists (cont X); rewrite [in EMat _](arr_eta X); constructor.
- by move=> /eqP-> [<-] /=; exists 0; constructor.
- case/andP=> pa pb E0; have [x Ex E1] := bind_ok E0; have [y Ey E] := bind_ok E1.
  have [A mA] := IHa _ pa Ex; have [B mB] := IHb _ pb Ey; move: E.
  rewrite /op_add /mkSum; case: ifP => // /negbT; rewrite negb_or !negbK.
  case/andP=> /eqP e1 /eqP e2 [<-] /=.
  by move: A mA; rewrite e1 e2 => A mA; exists (A + B); constructor.
- case/andP=> pa pb E0; have [x Ex E1] := bind_ok E0; have [y Ey E] := bind_ok E1.
  have [A mA] := IHa _ pa Ex; have [B mB] := IHb _ pb Ey; move: E.
  rewrite /op_sub /op_neg /mkScaled /lop_init /= /op_add /mkSum /=.
  case: ifP => // /negbT; rewrite negb_or !negbK.
  case/andP=> /eqP e1 /eqP e2 [<-] /=.
  by move: A mA; rewrite e1 e2 => A mA; exists (A - B); constructor.
- move=> pa E0; have [x Ex [<-] /=] := bind_ok E0; have [A mA] := IHa _ pa Ex.
  by exists (- A); constructor.
- case/andP=> pa pb E0; have [x Ex E1] := bind_ok E0; have [y Ey E] := bind_ok E1.
  have [A mA] := IHa _ pa Ex; have [B mB] := IHb _ pb Ey; move: E.
  have noid (z : lop C) (f : expr C) : plain f -> build f = Ok z -> is_id z = false.
    elim: f z {pa pb A mA B mB Ex Ey} => [?|//|??|????|????|??|f1 H1 f2 H2|???|???|??] z /=.
    + by move=> _ [<-].
    + by move=> _ [<-].
    + move=> _ E3; have [u _ E4] := bind_ok E3; have [v _] := bind_ok E4.
      by rewrite /op_add /mkSum; case: ifP => // _ [<-].
    + move=> _ E3; have [u _ E4] := bind_ok E3; have [v _] := bind_ok E4.
      by rewrite /op_sub /op_add /mkSum /=; case: ifP => // _ [<-].
    + by move=> _ E3; have [u _ [<-]] := bind_ok E3.
    + case/andP=> p1 p2 E3; have [u Eu E4] := bind_ok E3; have [v Ev] := bind_ok E4.
      rewrite /op_mul (H1 _ p1 Eu) (H2 _ p2 Ev) /mkProd.
      by case: ifP => // _ [<-].
    + by move=> _ E3; have [u _ [<-]] := bind_ok E3.
    + by move=> _ E3; have [u _] := bind_ok E3; rewrite /op_pow /mkPower; case: ifP => // _ [<-].
    + move=> _ E3; have [u _] := bind_ok E3; rewrite /op_adj /mkAdj /lop_init.
      by case: (raw_adj u) => [?|]; case: (raw_dot u) => [?|] // [<-].
  rewrite /op_mul (noid _ _ pa Ex) (noid _ _ pb Ey) /mkProd.
  case: ifP => // /negbT; rewrite negbK => /eqP e1 [<-] /=.
  by move: A mA; rewrite e1 => A mA; exists (A *m B); constructor.
- move=> pa E3; have [x Ex [<-] /=] := bind_ok E3; have [A mA] := IHa _ pa Ex.
  by exists (c *: A); constructor.
- case/andP=> pa pp E0; have [x Ex] := bind_ok E0; have [A mA] := IHa _ pa Ex.
  rewrite /op_pow /mkPower; case: ifP => // /negbT; rewrite negbK => /eqP e1 [<-] /=.
  by case: p pp {E0} => // p _; move: A mA; rewrite e1 => A mA; exists (mxpow A p); constructor.
- move=> pa E0; have [x Ex E] := bind_ok E0; have [A mA] := IHa _ pa Ex.
  have [o Eo Ho] := means_acts (MAdj mA).
  rewrite /= Ex /= E in Eo; case: Eo => eo; rewrite -{}eo in Ho.
  by have [-> -> _ _ _] := Ho; exists (A^h); constructor.
Qed.

End Proof.

Section Statements.
Variable C : numClosedFieldType.
Implicit Types (e : expr C) (op : lop C).

Lemma composite_action e m n (A : 'M[C]_(m, n)) : means e A ->
  exists op, [/\ build e = Ok op, lrow op = m, lcol op = n,
    forall k (X : 'M[C]_(n, k)), (0 < k)%N -> dot op (Arr X) = Ok (Arr (A *m X))
  & forall k (X : 'M[C]_(m, k)), (0 < k)%N -> dot_adj op (Arr X) = Ok (Arr (A^h *m X))].
Proof.
move=> H; have [op E Ho] := means_acts H; have [em en _ _ _] := Ho.
by exists op; split=> // k X k0; [apply: acts_dot|apply: acts_adj].
Qed.

Lemma adjoint_identity e m n (A : 'M[C]_(m, n)) op : means e A -> build e = Ok op ->
  forall k l (X : 'M[C]_(n, k)) (Y : 'M[C]_(m, l)), (0 < k)%N -> (0 < l)%N ->
  exists AX AY, [/\ dot op (Arr X) = Ok (@Arr C m k AX), dot_adj op (Arr Y) = Ok (@Arr C n l AY)
                  & AX^h *m Y = X^h *m AY].
Proof.
move=> H E k l X Y k0 l0; have [o [E' _ _ Hd Ha]] := composite_action H.
move: E'; rewrite E => -[->]; exists (A *m X), (A^h *m Y).
by rewrite Hd ?Ha // ctrM mulmxA.
Qed.

Lemma adj_involutive e m n (A : 'M[C]_(m, n)) : means e A ->
  exists op, build (EAdj (EAdj e)) = Ok op /\
    forall k (X : 'M[C]_(n, k)), (0 < k)%N -> dot op (Arr X) = Ok (Arr (A *m X)).
Proof.
move=> H; have [op [E _ _ Hd _]] := composite_action (MAdj (MAdj H)).
by exists op; split => // k X k0; rewrite Hd // ctrK.
Qed.

(** An expression is either built or rejected with NotImplemented. *)
Definition full op := raw_dot op && raw_adj op.

Lemma build_total e :
  (exists2 op, build e = Ok op & full op) \/ build e = Err NotImplementedFallback.
Proof.
elim: e => [X|m n|m n|a IHa b IHb|a IHa b IHb|a IHa|a IHa b IHb|c a IHa|a IHa p|a IHa] /=.
- by left; eexists.
- by left; eexists.
- by left; eexists.
- case: IHa => [[x -> fx]|->]; last by right.
  case: IHb => [[y -> fy]|->]; last by right.
  by rewrite /= /op_add /mkSum; case: ifP => _; [right|left; eexists].
- case: IHa => [[x -> fx]|->]; last by right.
  case: IHb => [[y -> fy]|->]; last by right.
  by rewrite /= /op_sub /op_add /mkSum /=; case: ifP => _; [right|left; eexists].
- by case: IHa => [[x -> fx]|->]; [left; eexists|right].
- case: IHa => [[x -> fx]|->]; last by right.
  case: IHb => [[y -> fy]|->]; last by right.
  rewrite /= /op_mul; case: ifP => _; first by left; exists x.
  case: ifP => _; first by left; exists y.
  by rewrite /mkProd; case: ifP => _; [right|left; eexists].
- by case: IHa => [[x -> fx]|->]; [left; eexists|right].
- case: IHa => [[x -> fx]|->]; last by right.
  by rewrite /= /op_pow /mkPower; case: ifP => _; [right|left; eexists].
- case: IHa => [[x -> fx]|->]; last by right.
  rewrite /= /op_adj /mkAdj; move: fx; rewrite /full.
  by case: (raw_dot x) => // d; case: (raw_adj x) => // da _; left; eexists.
Qed.

Lemma build_iff_conforming e : plain e ->
  ((exists op, build e = Ok op) <-> (exists m n (A : 'M[C]_(m, n)), means e A)) /\
  (~ (exists m n (A : 'M[C]_(m, n)), means e A) -> build e = Err NotImplementedFallback).
Proof.
move=> pe; split; first split.
- by case=> op E; have [A mA] := build_means pe E; exists (lrow op), (lcol op), A.
- by case=> m [n [A mA]]; have [op E _] := means_acts mA; exists op.
- move=> no; case: (build_total e) => // -[op E _].
  by case: no; have [A mA] := build_means pe E; exists (lrow op), (lcol op), A.
Qed.

Lemma empty_block_square e n (A : 'M[C]_n) op : means e A -> build e = Ok op ->
  forall X : 'M[C]_(n, 0), dot op (Arr X) = Ok (Arr (A *m X)).
Proof.
move=> H E X; have [o E' Ho] := means_acts H; move: E'; rewrite E => -[e'].
rewrite e' in E *; have [em en _ _ _] := Ho; have [[f ef] _] := acts_raw Ho.
rewrite /dot en eqxx /= ef /zeros_like /=.
by congr (Ok (Arr _)); apply/matrixP=> i [].
Qed.

Lemma empty_block_refuted : exists m n (A : 'M[C]_(m, n)) op (X : 'M[C]_(n, 0)) Y,
  [/\ build (EMat (Arr A)) = Ok op, dot op (Arr X) = Ok Y & nrow Y != m].
Proof.
exists 1%N, 2%N, 0; eexists; exists 0; eexists; split; first by [].
  by rewrite /dot /= .
by [].
Qed.

Lemma zero_operator_refuted : exists op (X Y : arr C),
  [/\ build (EZero C 1 2) = Ok op, dot op X = Ok Y, ncol X = 1%N & nrow Y != lrow op].
Proof.
by eexists; exists (@Arr C 2 1 0); eexists; split; first by [].
Qed.

Fixpoint conf e : option (nat * nat) :=
  match e with
  | EMat X => Some (nrow X, ncol X)
  | EId m n | EZero m n => Some (m, n)
  | EAdd a b | ESub a b =>
    if conf a is Some s then if conf b == Some s then Some s else None else None
  | ENeg a | EScale _ a | EPow a _ => conf a
  | EMul a b =>
    if (conf a, conf b) is (Some (m, k), Some (k', n)) then
      if k == k' then Some (m, n) else None else None
  | EAdj a => if conf a is Some (m, n) then Some (n, m) else None
  end.
Lemma means_conf e m n (A : 'M[C]_(m, n)) : means e A -> conf e = Some (m, n).
Proof. by elim=> {e m n A} //= *; do ?[case: eqP => //|]; repeat match goal with H : conf _ = _ |- _ => rewrite H; clear H end; rewrite ?eqxx. Qed.

Lemma identity_product_refuted : exists e op,
  [/\ build e = Ok op, e = EMul (EMat (@Arr C 2 2 1%:M)) (EId C 3 3)
    & forall m n (A : 'M[C]_(m, n)), ~ means e A].
Proof.
eexists; eexists; split; [|by []|]; first by [].
by move=> m n A /means_conf.
Qed.

Lemma negative_power_refuted : exists op, build (EPow (EMat (@Arr C 1 1 (2%:R)%:M)) (-1)) = Ok op /\
  forall k (X : 'M[C]_(1, k)), (0 < k)%N -> dot op (Arr X) = Ok (Arr X).
Proof.
eexists; split; first by []; move=> k X k0.
by rewrite /dot /= gtn_eqF.
Qed.

Lemma scalar_right_of_identity_refuted (c : C) n :
  op_mul_scalar (mkId C n n) c = Ok (inr c) /\
  exists2 op, op_rmul (mkId C n n) c = Ok op &
    forall k (X : 'M[C]_(n, k)), (0 < k)%N -> dot op (Arr X) = Ok (Arr (c *: X)).
Proof.
split=> //; eexists; first by [].
by move=> k X k0; rewrite /dot /= eqxx /= gtn_eqF //= eqxx /= gtn_eqF.
Qed.
End Statements.
