(** C72: the attribute dtype of linear operators. *)
From mathcomp Require Import all_ssreflect all_algebra.
From Verif Require Import Base Spec.LinAlg Spec.Dtype Model.LinearOperator Proof.LinearOperator Model.Dtype Proof.Dtype.

Set Implicit Arguments.
Unset Strict Implicit.
Unset Printing Implicit Defensive.
Import Order.TTheory GRing.Theory Num.Theory.
Local Open Scope ring_scope.

Local Arguments bind {A B} m f : simpl never.

(** find_common_dtype returns the least type that includes the types of all arrays and operators among its arguments. *)
Theorem C72_find_common_dtype (args : seq dobj) :
  is_common (flatten [seq (if a is DObj d then [:: d] else [::]) | a <- args]) (find_common_dtype args).
Proof.
have -> : find_common_dtype args = find_common_type (map Some (flatten [seq (if a is DObj d then [:: d] else [::]) | a <- args])).
  by congr find_common_type; elim: args => [|[d|] args IH] //=; rewrite IH.
exact: commonE.
Qed.

Section Operators.
Variable C : numClosedFieldType.

(** The function of the user does not leave the types from d on. *)
Definition honest_fun (d : dtype) (f : option (arr C -> res (arr C))) : Prop :=
  if f is Some f then forall e X Y, dle d e -> mx_dtype e (cont X) -> f X = Ok Y -> mx_dtype e (cont Y) else True.

(** The operators and scalars of the user have the dtype that they claim. *)
Fixpoint honest_leaves (e : dexpr C) : Prop :=
  match e with
  | XMat A d => mx_dtype d (cont A)
  | XOp A d => honest_fun d (raw_dot A) /\ honest_fun d (raw_adj A)
  | XId _ _ | XZero _ _ => True
  | XAdd a b | XSub a b | XMul a b => honest_leaves a /\ honest_leaves b
  | XNeg a | XPow a _ | XAdj a => honest_leaves a
  | XScale c d a => has_dtype d c /\ honest_leaves a
  end.

(** The expression yields an IdentityLinearOperator. *)
Fixpoint is_ident (e : dexpr C) : bool :=
  match e with
  | XId _ _ => true
  | XOp A _ => is_id A
  | XMul a b => is_ident a && is_ident b
  | _ => false
  end.

(** The types that occur in an expression, without those of identity factors *)
Fixpoint types (e : dexpr C) : seq dtype :=
  match e with
  | XMat _ d | XOp _ d => [:: d]
  | XId _ _ | XZero _ _ => [:: DFloat]
  | XAdd a b | XSub a b => types a ++ types b
  | XMul a b => if is_ident b then types a else if is_ident a then types b else types a ++ types b
  | XNeg a | XPow a _ | XAdj a => types a
  | XScale _ d a => d :: types a
  end.

Lemma types_ne e : (0 < size (types e))%N.
Proof.
elim: e => //= [a IHa b _|a IHa b _|a IHa b IHb]; try by case: (types a) IHa.
by case: ifP => _ //; case: ifP => _ //; case: (types a) IHa.
Qed.

Lemma commonP ds d : (0 < size ds)%N -> (forall e, dle d e = all (fun d' => dle d' e) ds) -> is_common ds d.
Proof. by case: ds => // x ds _ h e; rewrite h. Qed.

Lemma build_all e op d : dbuild e = Ok (op, d) ->
  is_id op = is_ident e /\ (forall e', dle d e' = all (fun d' => dle d' e') (types e)).
Proof.
elim: e op d => /= [A d0|A d0|m n|m n|a IHa b IHb|a IHa b IHb|a IHa|a IHa b IHb|c d0 a IHa|a IHa p|a IHa] op d.
- by move=> [<- <-]; split=> // e'; rewrite andbT.
- by move=> [<- <-]; split=> // e'; rewrite andbT.
- by move=> [<- <-]; split=> // e'; rewrite andbT.
- by move=> [<- <-]; split=> // e'; rewrite andbT.
- move=> E; have [[x dx] Ex E1] := bind_ok E; have [[y dy] Ey E2] := bind_ok E1; have [z Ez [<- <-]] := bind_ok E2.
  split=> [|e']; last by rewrite get_dtypeE /= andbT (IHa _ _ Ex).2 (IHb _ _ Ey).2 all_cat.
  by have := notimplE Ez; rewrite /mkSum; case: ifP => // _ [<-].
- move=> E; have [[x dx] Ex E1] := bind_ok E; have [[y dy] Ey E2] := bind_ok E1; have [z Ez [<- <-]] := bind_ok E2.
  split=> [|e']; last by rewrite get_dtypeE /= andbT get_dtypeE /= andbT (IHa _ _ Ex).2 (IHb _ _ Ey).2 all_cat.
  by have [t Et Ez'] := bind_ok Ez; have := notimplE Ez'; rewrite /mkSum; case: ifP => // _ [<-].
- move=> E; have [[x dx] Ex E1] := bind_ok E; have [z Ez [<- <-]] := bind_ok E1.
  split=> [|e']; last by rewrite get_dtypeE /= andbT (IHa _ _ Ex).2.
  by have := notimplE Ez; rewrite /mkScaled /lop_init => -[<-].
- move=> E; have [[x dx] Ex E1] := bind_ok E; have [[y dy] Ey E2] := bind_ok E1; have [z Ez [<- <-]] := bind_ok E2.
  have [ix hx] := IHa _ _ Ex; have [iy hy] := IHb _ _ Ey; rewrite /= ix iy.
  have := notimplE Ez; rewrite /= ix iy; case: ifP => iB; first by move=> [<-]; rewrite andbT ix.
  case: ifP => iA; first by move=> [<-]; rewrite iy iB.
  rewrite /mkProd; case: ifP => // _ [<-]; split=> // e'.
  by rewrite get_dtypeE /= andbT hx hy all_cat.
- move=> E; have [[x dx] Ex E1] := bind_ok E; have [z Ez [<- <-]] := bind_ok E1.
  split=> [|e']; last by rewrite get_dtypeE /= andbT (IHa _ _ Ex).2.
  by have := notimplE Ez; rewrite /mkScaled /lop_init => -[<-].
- move=> E; have [[x dx] Ex E1] := bind_ok E; have [z Ez [<- <-]] := bind_ok E1.
  split=> [|e']; last by rewrite (IHa _ _ Ex).2.
  by have := notimplE Ez; rewrite /mkPower; case: ifP => // _ [<-].
move=> E; have [[x dx] Ex E1] := bind_ok E; have [z Ez [<- <-]] := bind_ok E1.
split=> [|e']; last by rewrite (IHa _ _ Ex).2.
by move: Ez; rewrite /op_adj /mkAdj /lop_init; case: raw_adj => [f|]; case: raw_dot => [g|] // [<-].
Qed.

(** The dtype is the least type that includes the types of all operators and scalars of the expression. *)
Theorem C72_dtype e op d : dbuild e = Ok (op, d) -> is_common (types e) d.
Proof. by move=> /build_all[_ h]; apply: commonP (types_ne e) h. Qed.

(** The operators are those of C01. *)
Theorem C72_operators (e : dexpr C) e' : erase e = Some e' -> rmap fst (dbuild e) = build e'.
Proof.
elim: e e' => [A d|A d|m n|m n|a IHa b IHb|a IHa b IHb|a IHa|a IHa b IHb|c d a IHa|a IHa p|a IHa] e' //=; try by move=> [<-].
- case: (erase a) IHa => // x /(_ x erefl) hx; case: (erase b) IHb => // y /(_ y erefl) hy [<-] /=; rewrite -hx -hy.
  by rewrite /bind; case: (dbuild a) => //= -[z dz]; case: (dbuild b) => //= -[w dw] /=; case: op_add.
- case: (erase a) IHa => // x /(_ x erefl) hx; case: (erase b) IHb => // y /(_ y erefl) hy [<-] /=; rewrite -hx -hy.
  by rewrite /bind; case: (dbuild a) => //= -[z dz]; case: (dbuild b) => //= -[w dw] /=; case: op_sub.
- case: (erase a) IHa => // x /(_ x erefl) hx [<-] /=; rewrite -hx.
  by rewrite /bind; case: (dbuild a) => //= -[z dz] /=; case: op_neg.
- case: (erase a) IHa => // x /(_ x erefl) hx; case: (erase b) IHb => // y /(_ y erefl) hy [<-] /=; rewrite -hx -hy.
  by rewrite /bind; case: (dbuild a) => //= -[z dz]; case: (dbuild b) => //= -[w dw] /=; case: op_mul.
- case: (erase a) IHa => // x /(_ x erefl) hx [<-] /=; rewrite -hx.
  by rewrite /bind; case: (dbuild a) => //= -[z dz] /=; case: op_rmul.
- case: (erase a) IHa => // x /(_ x erefl) hx [<-] /=; rewrite -hx.
  by rewrite /bind; case: (dbuild a) => //= -[z dz] /=; case: op_pow.
case: (erase a) IHa => // x /(_ x erefl) hx [<-] /=; rewrite -hx.
by rewrite /bind; case: (dbuild a) => //= -[z dz] /=; case: op_adj.
Qed.

Lemma build_honest e op d : honest_leaves e -> dbuild e = Ok (op, d) -> od d op.
Proof.
elim: e op d => /= [A d0|A d0|m n|m n|a IHa b IHb|a IHa b IHb|a IHa|a IHa b IHb|c d0 a IHa|a IHa p|a IHa] op d h.
- by move=> [<- <-]; apply: od_mat.
- by move=> [<- <-].
- by move=> [<- <-]; split=> /= e X Y _ hX [<-].
- by move=> [<- <-]; split=> /= e X Y _ hX [<-]; exact: md0.
- move=> E; have [[x dx] Ex E1] := bind_ok E; have [[y dy] Ey E2] := bind_ok E1; have [z Ez [<- <-]] := bind_ok E2.
  have hd := dle_refl (get_dtype [:: dx; dy] [::]); move: hd; rewrite {1}get_dtypeE /= andbT => /andP[l1 l2].
  exact: (od_add (od_le l1 (IHa _ _ h.1 Ex)) (od_le l2 (IHb _ _ h.2 Ey)) Ez).1.
- move=> E; have [[x dx] Ex E1] := bind_ok E; have [[y dy] Ey E2] := bind_ok E1; have [z Ez [<- <-]] := bind_ok E2.
  set D := get_dtype _ _; have := dle_refl D; rewrite {1}/D get_dtypeE /= andbT get_dtypeE /= andbT => /andP[l1 l2].
  have [t Et Ez'] := bind_ok Ez.
  have m1 : has_dtype D (- 1 : C) by apply: hdN; apply: hd1.
  have ht := (od_scaled (od_le l2 (IHb _ _ h.2 Ey)) m1 Et).1.
  exact: (od_add (od_le l1 (IHa _ _ h.1 Ex)) ht Ez').1.
- move=> E; have [[x dx] Ex E1] := bind_ok E; have [z Ez [<- <-]] := bind_ok E1.
  set D := d_scaled _ _; have := dle_refl D; rewrite {1}/D get_dtypeE /= andbT => l1.
  have m1 : has_dtype D (- 1 : C) by apply: hdN; apply: hd1.
  exact: (od_scaled (od_le l1 (IHa _ _ h Ex)) m1 Ez).1.
- move=> E; have [[x dx] Ex E1] := bind_ok E; have [[y dy] Ey E2] := bind_ok E1; have [z Ez [<- <-]] := bind_ok E2.
  have hx := IHa _ _ h.1 Ex; have hy := IHb _ _ h.2 Ey.
  have := notimplE Ez; rewrite /=; case: ifP => iB; first by move=> [<-].
  case: ifP => iA; first by move=> [<-].
  set D := get_dtype _ _; have := dle_refl D; rewrite {1}/D get_dtypeE /= andbT => /andP[l1 l2] Ep.
  exact: (od_prod (od_le l1 hx) (od_le l2 hy) Ep).1.
- move=> E; have [[x dx] Ex E1] := bind_ok E; have [z Ez [<- <-]] := bind_ok E1.
  set D := d_scaled _ _; have := dle_refl D; rewrite {1}/D get_dtypeE /= andbT => /andP[l1 l2].
  exact: (od_scaled (od_le l2 (IHa _ _ h.2 Ex)) (hd_le l1 h.1) Ez).1.
- move=> E; have [[x dx] Ex E1] := bind_ok E; have [z Ez [<- <-]] := bind_ok E1.
  exact: (od_pow (IHa _ _ h Ex) Ez).1.
move=> E; have [[x dx] Ex E1] := bind_ok E; have [z Ez [<- <-]] := bind_ok E1.
exact: (od_adj (IHa _ _ h Ex) Ez).
Qed.

(** The results of dot and dot_adj have the dtype of the operator, or the one of the array if it is greater. *)
Theorem C72_sound e op d : honest_leaves e -> dbuild e = Ok (op, d) ->
  forall t X Y, dle d t -> mx_dtype t (cont X) -> dot op X = Ok Y \/ dot_adj op X = Ok Y -> mx_dtype t (cont Y).
Proof.
move=> h E t X Y dt hX; have ho := build_honest h E.
by case=> hY; [exact: (fd_dot ho dt hX hY)|exact: (fd_adj ho dt hX hY)].
Qed.

(** 2 A - I * B * I with an integer matrix A and a real matrix B *)
Example C72_example (A B : 'M[C]_2) : mx_dtype DInt A -> mx_dtype DFloat B ->
  let e := XSub (XScale 2%:R DInt (XMat (Arr A) DInt)) (XMul (XMul (XId C 2 2) (XMat (Arr B) DFloat)) (XId C 2 2)) in
  [/\ honest_leaves e, types e = [:: DInt; DInt; DFloat] & exists op, dbuild e = Ok (op, DFloat)].
Proof.
move=> hA hB e; split=> //; first by do !split=> //; exists 2%:Z.
by eexists.
Qed.
End Operators.

Print Assumptions C72_find_common_dtype.
Print Assumptions C72_dtype.
Print Assumptions C72_operators.
Print Assumptions C72_sound.
Print Assumptions C72_example.
