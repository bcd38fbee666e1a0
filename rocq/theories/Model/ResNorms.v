(** Model of get_residual_norms, krypy/utils.py 2103-2121.

    H is an array with n_ rows and n columns, given by its entries; y is the first unit
    vector with n_ entries.  Exact arithmetic. *)
From mathcomp Require Import all_ssreflect all_algebra.
From Verif Require Import Base Model.Inner Model.Krylov.

Set Implicit Arguments.
Unset Strict Implicit.
Unset Printing Implicit Defensive.
Import Order.TTheory GRing.Theory Num.Theory.
Local Open Scope ring_scope.

Section ResNorms.
Variable C : numClosedFieldType.

(** H, y, resnorms *)
Record rnst := RnSt { rn_H : nat -> nat -> C; rn_y : nat -> C; rn_res : seq C }.

(** The loop body, utils.py 2112-2118.  H[i:i+2, [i]] is an IndexError for i >= n; the
    slices i: and i:i+3 end at the last column. *)
Definition rn_step (self_adjoint : bool) (n i : nat) (t : rnst) : res rnst :=
  if (n <= i)%N then Err IndexError else
  let g := mk_givens (rn_H t i i) (rn_H t i.+1 i) in
  let hi := if self_adjoint then minn n (i + 3)%N else n in
  let H := fun r c => if (i <= c)%N && (c < hi)%N then rot g i (fun r => rn_H t r c) r else rn_H t r c in
  let y := rot g i (rn_y t) in
  Ok (RnSt H y (rcons (rn_res t) `|y i.+1|)).

Definition get_residual_norms (n_ n : nat) (H : nat -> nat -> C) (self_adjoint : bool) : res (seq C) :=
  let! t := fornE (n_ - 1) (rn_step self_adjoint n)
    (RnSt H (fun i => if i == 0%N then 1 else 0) [:: 1]) in
  Ok (if n_ == n then rcons (rn_res t) 0 else rn_res t).
End ResNorms.
