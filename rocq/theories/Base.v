(** Error values and loops shared by all model files. *)
From mathcomp Require Import all_ssreflect.

Set Implicit Arguments.
Unset Strict Implicit.
Unset Printing Implicit Defensive.

(** Python exceptions that occur in the modelled code.  [DivZero] and
    [OutOfFuel] are not Python exceptions: [DivZero] stands for a floating point
    division by zero (numpy would produce [nan]/[inf] and go on; the exact model
    stops here and makes no claim), [OutOfFuel] is returned by fuelled loops whose fuel
    was too small. *)
Inductive exn :=
| ArgumentError | AssumptionError | LinearOperatorError | InnerProductError
| ConvergenceErr | TypeError | ValueError | IndexError | LinAlgError
| AssertionError | RuntimeErr | NotImplementedFallback | DivZero | OutOfFuel.

Inductive res (A : Type) := Ok of A | Err of exn.
Arguments Ok {A}.
Arguments Err {A}.

Definition bind {A B} (m : res A) (f : A -> res B) : res B :=
  match m with Ok a => f a | Err e => Err e end.
Arguments bind {A B} !m f /.
Notation "'let!' x := m 'in' k" := (bind m (fun x => k))
  (at level 200, x pattern, m at level 100, k at level 200, right associativity, only parsing).

Definition rmap {A B} (f : A -> B) (m : res A) : res B :=
  match m with Ok a => Ok (f a) | Err e => Err e end.

Definition is_ok {A} (m : res A) : bool := if m is Ok _ then true else false.

Definition exn_eqb (a b : exn) : bool :=
  match a, b with
  | ArgumentError, ArgumentError | AssumptionError, AssumptionError
  | LinearOperatorError, LinearOperatorError | InnerProductError, InnerProductError
  | ConvergenceErr, ConvergenceErr | TypeError, TypeError | ValueError, ValueError
  | IndexError, IndexError | LinAlgError, LinAlgError | AssertionError, AssertionError
  | NotImplementedFallback, NotImplementedFallback | DivZero, DivZero
  | RuntimeErr, RuntimeErr
  | OutOfFuel, OutOfFuel => true
  | _, _ => false
  end.

(** [for i in range(n): s = body(i, s)] *)
Fixpoint forn {S : Type} (n : nat) (body : nat -> S -> S) (s : S) : S :=
  match n with 0 => s | n'.+1 => body n' (forn n' body s) end.

(** [for i in range(a, a+n)] *)
Definition forrange {S : Type} (a n : nat) (body : nat -> S -> S) (s : S) : S :=
  forn n (fun i => body (a + i)%N) s.

(** Loop with exceptions. *)
Fixpoint fornE {S : Type} (n : nat) (body : nat -> S -> res S) (s : S) : res S :=
  match n with 0 => Ok s | n'.+1 => let! s' := fornE n' body s in body n' s' end.

(** Point updates of preallocated arrays. *)
Definition upd {A : Type} (f : nat -> A) (i : nat) (a : A) : nat -> A :=
  fun j => if j == i then a else f j.
Definition upd2 {A : Type} (f : nat -> nat -> A) (i j : nat) (a : A) : nat -> nat -> A :=
  fun i' j' => if (i' == i) && (j' == j) then a else f i' j'.

Lemma updE {A} (f : nat -> A) i a : upd f i a i = a.
Proof. by rewrite /upd eqxx. Qed.
Lemma updN {A} (f : nat -> A) i a j : j != i -> upd f i a j = f j.
Proof. by rewrite /upd => /negbTE->. Qed.

Lemma bind_ok {A B} (m : res A) (f : A -> res B) b :
  bind m f = Ok b -> exists2 a, m = Ok a & f a = Ok b.
Proof. by case: m => //= a; exists a. Qed.

Lemma fornS {S} n (f : nat -> S -> S) s : forn n.+1 f s = f n (forn n f s).
Proof. by []. Qed.
