(** Model of arnoldi_projected, krypy/utils.py 1084-1168.

    H is an array with n_ rows and n columns, given by its entries; P is the function
    computed by the linear operator P.  The Arnoldi process is the one of Model/Arnoldi.v on
    C^n.  dtypes are not modelled; n >= 1. *)
From mathcomp Require Import all_ssreflect all_algebra.
From Verif Require Import Base Model.Inner Model.Arnoldi.

Set Implicit Arguments.
Unset Strict Implicit.
Unset Printing Implicit Defensive.
Import Order.TTheory GRing.Theory Num.Theory.
Local Open Scope ring_scope.

Section Projected.
Variable C : numClosedFieldType.
Variable snorm : nat -> nat -> (nat -> nat -> C) -> C.
Variable n : nat.
Local Notation vec := 'cV[C]_n.

(** The loop, utils.py 1163-1166 *)
Fixpoint ap_loop (c : acfg C n) (hlast : C) (fuel : nat) (a : arn C n) (F : nat -> C) : res (arn C n * (nat -> C)) :=
  if (a_iter a < cmaxiter c)%N && ~~ a_inv a then
    match fuel with
    | 0 => Err OutOfFuel
    | f.+1 =>
        if (arn_get_last a).1 is Some k then
          let F := upd F (a_iter a) (hlast * ent (a_V a k) n.-1) in
          let! a' := advance snorm c a in ap_loop c hlast f a' F
        else Err TypeError
    end
  else Ok (a, F).

(** The results: U with its number of columns, G with its numbers of rows and columns, the
    row F with its number of entries. *)
Record ap_out := ApOut {
  ap_ucols : nat; ap_U : nat -> vec;
  ap_grows : nat; ap_gcols : nat; ap_G : nat -> nat -> C;
  ap_fcols : nat; ap_F : nat -> C }.

(** H[:n, :] as an operator *)
Definition Hop (H : nat -> nat -> C) (x : vec) : vec := \col_i \sum_(j < n) H i j * x j 0.

Definition arnoldi_projected (n_ : nat) (H : nat -> nat -> C) (P : vec -> vec) (k : nat) (ortho : ortho_t) : res ap_out :=
  let hlast := if n_ == n then 0 else H n_.-1 n.-1 in
  if ~~ ((n_ == n) || (n_ == n.+1)) then Err LinearOperatorError else
  let v := P (\col_i (i == 0%N :> nat)%:R) in
  if (n.+1 < k)%N then Err ValueError else
  let maxiter := (n.+1 - k)%N in
  let c := ACfg (fun x => P (Hop H x)) None IpNone ortho maxiter in
  let! a := arn_init c v None None in
  let! (a, F) := ap_loop c hlast maxiter a (fun _ => 0) in
  let '(vc, hr, hc) := arn_get a in
  Ok (ApOut vc (a_V a) hr hc (a_H a) (a_iter a) F).
End Projected.
