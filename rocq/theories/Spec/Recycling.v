(** Specifications used for the recycling modules. *)
From mathcomp Require Import all_ssreflect all_algebra.
From Verif Require Import Base.

Set Implicit Arguments.
Unset Strict Implicit.
Unset Printing Implicit Defensive.
Import Order.TTheory GRing.Theory Num.Theory.
Local Open Scope ring_scope.

Section Argsort.
Variable C : numClosedFieldType.

(** What is assumed of numpy.argsort: for real input it returns a permutation of the
    positions that sorts the values. *)
Definition argsort_spec (argsort : seq C -> seq nat) : Prop :=
  forall s, all (fun x => x \is Num.real) s ->
    perm_eq (argsort s) (iota 0 (size s)) /\
    (forall i j, (i <= j)%N -> (j < size s)%N ->
       nth 0 s (nth 0%N (argsort s) i) <= nth 0 s (nth 0%N (argsort s) j)).

(** [idx] lists k positions (all, if there are fewer) of smallest / largest keys. *)
Definition smallest_k (k : nat) (keys : seq C) (idx : seq nat) : Prop :=
  [/\ uniq idx, {in idx, forall i, (i < size keys)%N}, size idx = minn k (size keys) &
     forall i j, i \in idx -> (j < size keys)%N -> j \notin idx -> nth 0 keys i <= nth 0 keys j].
Definition largest_k (k : nat) (keys : seq C) (idx : seq nat) : Prop :=
  [/\ uniq idx, {in idx, forall i, (i < size keys)%N}, size idx = minn k (size keys) &
     forall i j, i \in idx -> (j < size keys)%N -> j \notin idx -> nth 0 keys j <= nth 0 keys i].
End Argsort.

(** The solver of the most recent successful call. *)
Section Latest.
Variable S : Type.
Definition latest (init : option S) (rs : seq (res S)) : option S :=
  foldl (fun l r => if r is Ok s then Some s else l) init rs.
End Latest.

(** The recorded value of a set: the value of the last successful evaluation.  The history
    of calls is given newest first. *)
Section History.
Variables (R : Type) (T : eqType).
Variable evaluate : seq T -> T -> res R.
Fixpoint last_value (calls : seq T) (x : T) : option R :=
  if calls is y :: calls' then
    if y == x then (if evaluate calls' y is Ok v then Some v else last_value calls' x)
    else last_value calls' x
  else None.
End History.
