(** Lemmas about dtypes. *)
From mathcomp Require Import all_ssreflect all_algebra.
From Verif Require Import Base Spec.LinAlg Spec.Dtype Model.LinearOperator Proof.LinearOperator Model.Dtype.

Set Implicit Arguments.
Unset Strict Implicit.
Unset Printing Implicit Defensive.
Import Order.TTheory GRing.Theory Num.Theory.
Local Open Scope ring_scope.

Lemma dle_refl d : dle d d. Proof. by case: d. Qed.
Lemma dle_trans d e f : dle d e -> dle e f -> dle d f. Proof. by case: d; case: e; case: f. Qed.
Lemma djoinE d d' e : dle (djoin d d') e = dle d e && dle d' e. Proof. by case: d; case: d'; case: e. Qed.

Lemma foldl_djoin d ds e : dle (foldl djoin d ds) e = dle d e && all (fun d' => dle d' e) ds.
Proof. by elim: ds d => [|d' ds IH] d /=; rewrite ?andbT // IH djoinE andbA. Qed.

Lemma commonE ds : is_common ds (find_common_type (map Some ds)).
Proof.
case: ds => [|d ds] //= e; rewrite /find_common_type /= -map_comp map_id.
by rewrite foldl_djoin.
Qed.

Lemma get_dtypeE x y e : dle (get_dtype x y) e = (if y ++ x is [::] then dle DFloat e else all (fun d => dle d e) (y ++ x)).
Proof.
have := commonE (y ++ x); rewrite /get_dtype; case: (y ++ x) => [->//|d ds] /(_ e) h.
by apply/idP/idP => /h.
Qed.

Section Values.
Variable C : numClosedFieldType.
Implicit Types (x y : C) (d e : dtype).

Lemma hd_le d e x : dle d e -> has_dtype d x -> has_dtype e x.
Proof.
by case: d; case: e => //= _ [z ->]; rewrite ?realz //; exists z.
Qed.
Lemma hd0 d : has_dtype d (0 : C). Proof. by case: d => //=; [exists 0|rewrite rpred0]. Qed.
Lemma hd1 d : has_dtype d (1 : C). Proof. by case: d => //=; [exists 1|rewrite rpred1]. Qed.
Lemma hdD d x y : has_dtype d x -> has_dtype d y -> has_dtype d (x + y).
Proof. case: d => //= [[a ->] [b ->]|]; [by exists (a + b); rewrite rmorphD|exact: rpredD]. Qed.
Lemma hdM d x y : has_dtype d x -> has_dtype d y -> has_dtype d (x * y).
Proof. case: d => //= [[a ->] [b ->]|]; [by exists (a * b); rewrite rmorphM|exact: rpredM]. Qed.
Lemma hdN d x : has_dtype d x -> has_dtype d (- x).
Proof. case: d => //= [[a ->]|]; [by exists (- a); rewrite rmorphN|by rewrite rpredN]. Qed.
Lemma hdJ d x : has_dtype d x -> has_dtype d x^*.
Proof. by case: d => //= [[a ->]|h]; [exists a; rewrite rmorph_int|rewrite (CrealP h)]. Qed.
Lemma hd_sum d (I : Type) (r : seq I) (P : pred I) (F : I -> C) :
  (forall i, P i -> has_dtype d (F i)) -> has_dtype d (\sum_(i <- r | P i) F i).
Proof. by move=> h; elim/big_rec: _ => [|i x Pi hx]; [exact: hd0|apply: hdD => //; apply: h]. Qed.

Lemma mdM d m n p (X : 'M[C]_(m, n)) (Y : 'M[C]_(n, p)) : mx_dtype d X -> mx_dtype d Y -> mx_dtype d (X *m Y).
Proof. by move=> hX hY i j; rewrite mxE; apply: hd_sum => k _; apply: hdM. Qed.
Lemma mdD d m n (X Y : 'M[C]_(m, n)) : mx_dtype d X -> mx_dtype d Y -> mx_dtype d (X + Y).
Proof. by move=> hX hY i j; rewrite mxE; apply: hdD. Qed.
Lemma mdZ d m n a (X : 'M[C]_(m, n)) : has_dtype d a -> mx_dtype d X -> mx_dtype d (a *: X).
Proof. by move=> ha hX i j; rewrite mxE; apply: hdM. Qed.
Lemma md0 d m n : mx_dtype d (0 : 'M[C]_(m, n)). Proof. by move=> i j; rewrite mxE; apply: hd0. Qed.

(** Operators on arrays *)
Definition ad d (X : arr C) : Prop := mx_dtype d (cont X).
Definition fd d (f : arr C -> res (arr C)) : Prop := forall e X Y, dle d e -> ad e X -> f X = Ok Y -> ad e Y.
Definition ofd d (f : option (arr C -> res (arr C))) : Prop := if f is Some f then fd d f else True.
Definition od d (A : lop C) : Prop := ofd d (raw_dot A) /\ ofd d (raw_adj A).

Lemma fd_le d e f : dle d e -> fd d f -> fd e f.
Proof. by move=> de h e' X Y le; apply: h; apply: dle_trans le. Qed.

Lemma ad_entry d X i j : ad d X -> has_dtype d (entry X i j).
Proof. by rewrite /entry => h; case: insub => [a|]; [case: insub => [b|]|]; [apply: h|apply: hd0|apply: hd0]. Qed.

Lemma ad_as d m n X (Y : 'M[C]_(m, n)) : ad d X -> as_mx m n X = Some Y -> mx_dtype d Y.
Proof. by move=> h /as_mx_some eX; rewrite eX in h. Qed.

Lemma ad_add d X Y Z : ad d X -> ad d Y -> arr_add X Y = Ok Z -> ad d Z.
Proof.
rewrite /arr_add => hX hY; case E: (as_mx _ _ Y) => [Y'|].
  move=> [<-]; apply: mdD; [exact: hX|exact: ad_as hY E].
case: bdim => // m; case: bdim => // n [<-] i j; rewrite mxE; apply: hdD; exact: ad_entry.
Qed.

Lemma fd_dot d A : od d A -> fd d (dot A).
Proof.
case=> h _ e X Y de hX; rewrite /dot; case: ifP => // _; move: h; case: (raw_dot A) => //= f h.
by case: ifP => _; [move=> [<-]; exact: md0|exact: h].
Qed.
Lemma fd_adj d A : od d A -> fd d (dot_adj A).
Proof.
case=> _ h e X Y de hX; rewrite /dot_adj; case: ifP => // _; move: h; case: (raw_adj A) => //= f h.
by case: ifP => _; [move=> [<-]; exact: md0|exact: h].
Qed.

Lemma fd_comp d f g : fd d f -> fd d g -> fd d (fun X => let! a := g X in f a).
Proof. move=> hf hg e X Z de hX E; have [Y eY eZ] := bind_ok E; apply: (hf e Y Z de) eZ; exact: (hg e X Y de hX). Qed.

Lemma fd_sum d f g : fd d f -> fd d g -> fd d (fun X => let! a := f X in let! b := g X in arr_add a b).
Proof.
move=> hf hg e X Z de hX E; have [Y eY E1] := bind_ok E; have [W eW] := bind_ok E1; apply: ad_add.
  exact: (hf e X Y de hX).
exact: (hg e X W de hX).
Qed.

Lemma fd_scale d f a : fd d f -> has_dtype d a -> fd d (fun X => let! b := f X in Ok (arr_scale a b)).
Proof.
move=> hf ha e X Z de hX E; have [Y eY [<-]] := bind_ok E; apply: mdZ; [exact: hd_le de ha|exact: (hf e X Y de hX)].
Qed.

Lemma fd_power d f n : fd d f -> fd d (fun X => fornE n (fun _ r => f r) X).
Proof.
move=> hf e X Z de hX; elim: n Z => [|n IH] Z /=; first by move=> [<-].
by move=> E; have [Y eY eZ] := bind_ok E; apply: (hf e Y Z de) eZ; apply: IH.
Qed.

Lemma od_mat d A : ad d A -> od d (mkMat A).
Proof.
move=> h; have g B : ad d B -> fd d (arr_dot B).
  move=> hB e X Y de hX; rewrite /arr_dot; case E: (as_mx _ _ X) => [X'|] // [<-].
  apply: mdM; last exact: ad_as hX E.
  by move=> i j; apply: hd_le de _; apply: hB.
split; apply: g => //.
by move=> i j; rewrite !mxE; apply: hdJ; apply: h.
Qed.

Lemma od_le d e A : dle d e -> od d A -> od e A.
Proof. by move=> de [h1 h2]; split; [move: h1; case: raw_dot|move: h2; case: raw_adj] => //= f; apply: fd_le. Qed.

Lemma notimplE T (r : res T) (x : T) : notimpl r = Ok x -> r = Ok x.
Proof. by case: r => [y|[]]. Qed.

Lemma od_scaled d A a Z : od d A -> has_dtype d a -> op_rmul A a = Ok Z -> od d Z /\ is_id Z = false.
Proof.
move=> hA ha E; have := notimplE E; rewrite /mkScaled /lop_init => -[<-]; split=> //; split=> /=.
  by apply: fd_scale => //; apply: fd_dot.
by apply: fd_scale; [apply: fd_adj|apply: hdJ].
Qed.

Lemma od_add d A B Z : od d A -> od d B -> op_add A B = Ok Z -> od d Z /\ is_id Z = false.
Proof.
move=> hA hB E; have := notimplE E; rewrite /mkSum; case: ifP => // _ [<-]; split=> //; split=> /=; apply: fd_sum.
- exact: fd_dot.
- exact: fd_dot.
- exact: fd_adj.
- exact: fd_adj.
Qed.

Lemma od_prod d A B Z : od d A -> od d B -> mkProd A B = Ok Z -> od d Z /\ is_id Z = false.
Proof.
move=> hA hB; rewrite /mkProd; case: ifP => // _ [<-]; split=> //; split=> /=; apply: fd_comp.
- exact: fd_dot.
- exact: fd_dot.
- exact: fd_adj.
- exact: fd_adj.
Qed.

Lemma od_pow d A p Z : od d A -> op_pow A p = Ok Z -> od d Z /\ is_id Z = false.
Proof.
move=> hA E; have := notimplE E; rewrite /mkPower; case: ifP => // _ [<-]; split=> //; split=> /=; apply: fd_power.
  exact: fd_dot.
by case: hA => _; case: (raw_adj A).
Qed.

Lemma od_adj d A Z : od d A -> op_adj A = Ok Z -> od d Z.
Proof. by case=> h1 h2; rewrite /op_adj /mkAdj /lop_init; case: (raw_adj A) h2 => [f|] h2; case: (raw_dot A) h1 => [g|] h1 // [<-]; split. Qed.
End Values.
