(** The loop of arnoldi_projected is the one of the Arnoldi process. *)
From mathcomp Require Import all_ssreflect all_algebra.
From Verif Require Import Base Spec.LinAlg Spec.Ritz Proof.Algebra Proof.IpTheory Model.Inner Spec.Inner Proof.Inner
  Model.Arnoldi Spec.Arnoldi Proof.ArnoldiRel Proof.Arnoldi Proof.HouseArnoldi Proof.ArnoldiAll Model.ArnoldiProjected.

Set Implicit Arguments.
Unset Strict Implicit.
Unset Printing Implicit Defensive.
Import Order.TTheory GRing.Theory Num.Theory.
Local Open Scope ring_scope.

Section Loop.
Variable C : numClosedFieldType.
Variable snorm : nat -> nat -> (nat -> nat -> C) -> C.
Variable n : nat.
Implicit Types (c : acfg C n) (a : arn C n) (F : nat -> C).

Lemma loop_erase c h fuel a F :
  (forall a' F', ap_loop snorm c h fuel a F = Ok (a', F') -> arn_loop snorm c fuel a = Ok a') /\
  (forall e, ap_loop snorm c h fuel a F = Err e -> arn_loop snorm c fuel a = Err e).
Proof.
elim: fuel a F => [|f IH] a F /=; case: ifP => h1; split=> //.
- by move=> e [<-].
- by move=> a' F' [<-].
- move=> a' F'; case/andP: h1 => _ ni; rewrite /arn_get_last (negbTE ni) /=.
  by case: (advance _ _ _) => //= b; exact: (IH _ _).1.
- move=> e; case/andP: h1 => _ ni; rewrite /arn_get_last (negbTE ni) /=.
  by case: (advance _ _ _) => //= b; [exact: (IH _ _).2 | case=> <-].
- by move=> a' F' [<-].
Qed.

Lemma adv_S c m a b : advance snorm c a = Ok b -> arn_advance_n snorm c m.+1 a = arn_advance_n snorm c m b.
Proof.
by move=> E; elim: m => [|m IH] /=; [rewrite E|move: IH => /= ->].
Qed.

Lemma loop_adv c fuel a a' : arn_loop snorm c fuel a = Ok a' ->
  exists m, arn_advance_n snorm c m a = Ok a'.
Proof.
elim: fuel a => [|f IH] a /=; case: ifP => // _; try by (case=> <-; exists 0%N).
by move=> E; have [b Eb /IH[m Em]] := bind_ok E; exists m.+1; rewrite (adv_S _ Eb).
Qed.

Lemma loop_F c h fuel a F a' F' : ap_loop snorm c h fuel a F = Ok (a', F') ->
  (forall j, (j < a_iter a)%N -> F j = h * ent (a_V a j) n.-1) ->
  forall j, (j < a_iter a')%N -> F' j = h * ent (a_V a' j) n.-1.
Proof.
elim: fuel a F => [|f IH] a F /=; case: ifP => h1 //; try by (move=> [<- <-]).
case/andP: h1 => _ ni; rewrite /arn_get_last (negbTE ni) /= => E hF.
have [b Eb E1] := bind_ok E; apply: (IH _ _ E1) => j.
have := advance_cases snorm c a; rewrite Eb => ->; rewrite ltnS => hj.
rewrite (advance_V Eb) // /upd; case: eqP => [->//|/eqP ne]; apply: hF.
by rewrite ltn_neqAle ne.
Qed.

Lemma loop_erase_ok c h fuel a F a' F' : ap_loop snorm c h fuel a F = Ok (a', F') -> arn_loop snorm c fuel a = Ok a'.
Proof. by have [+ _] := loop_erase c h fuel a F; apply. Qed.
Lemma loop_erase_err c h fuel a F e : ap_loop snorm c h fuel a F = Err e -> arn_loop snorm c fuel a = Err e.
Proof. by have [_] := loop_erase c h fuel a F; apply. Qed.
End Loop.
