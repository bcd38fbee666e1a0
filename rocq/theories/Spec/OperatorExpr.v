(** What a LinearOperator expression means: the corresponding matrix
    expression.  A relation, so that only conforming expressions have a meaning. *)
From mathcomp Require Import all_ssreflect all_algebra.
From Verif Require Import Base Spec.LinAlg Model.LinearOperator.

Set Implicit Arguments.
Unset Strict Implicit.
Unset Printing Implicit Defensive.
Import Order.TTheory GRing.Theory Num.Theory.
Local Open Scope ring_scope.

Section Sem.
Variable C : numClosedFieldType.

(** Matrix power. *)
Fixpoint mxpow n (A : 'M[C]_n) (p : nat) : 'M[C]_n :=
  match p with 0 => 1%:M | q.+1 => A *m mxpow A q end.

Inductive means : expr C -> forall m n : nat, 'M[C]_(m, n) -> Prop :=
| MMat m n (A : 'M[C]_(m, n)) : means (EMat (Arr A)) A
| MId n : means (EId _ n n) (1%:M : 'M_n)
| MZero n : means (EZero _ n n) (0 : 'M_n)
| MAdd e f m n (A B : 'M[C]_(m, n)) : means e A -> means f B -> means (EAdd e f) (A + B)
| MSub e f m n (A B : 'M[C]_(m, n)) : means e A -> means f B -> means (ESub e f) (A - B)
| MNeg e m n (A : 'M[C]_(m, n)) : means e A -> means (ENeg e) (- A)
| MMul e f m l n (A : 'M[C]_(m, l)) (B : 'M[C]_(l, n)) :
    means e A -> means f B -> means (EMul e f) (A *m B)
| MScale c e m n (A : 'M[C]_(m, n)) : means e A -> means (EScale c e) (c *: A)
| MPow e n (A : 'M[C]_n) p : means e A -> means (EPow e (Posz p)) (mxpow A p)
| MAdj e m n (A : 'M[C]_(m, n)) : means e A -> means (EAdj e) (A ^h).

(** Leaves the user has to get right: no identity leaf, zero operators
    square, exponents not negative. *)
Fixpoint plain (e : expr C) : bool :=
  match e with
  | EMat _ => true
  | EId _ _ => false
  | EZero m n => m == n
  | EAdd a b | ESub a b | EMul a b => plain a && plain b
  | ENeg a | EScale _ a | EAdj a => plain a
  | EPow a p => plain a && (if p is Posz _ then true else false)
  end.

End Sem.
