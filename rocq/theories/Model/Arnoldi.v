(** Model of class Arnoldi, krypy/utils.py 854-1074, and of the function arnoldi,
    1077-1081.

    Simplifications: exact arithmetic over [C]; linear operators are the functions
    they apply to a column; the preallocated arrays V, P (columns) and H are
    functions of their indices, initially zero; the spectral norm
    numpy.linalg.norm(., 2) of the leading rows and columns of H is a parameter
    [snorm]; warnings and dtypes are not modelled; a division by zero yields the
    error value DivZero where numpy would go on with nan. *)
From mathcomp Require Import all_ssreflect all_algebra.
From Verif Require Import Base Model.Inner.

Set Implicit Arguments.
Unset Strict Implicit.
Unset Printing Implicit Defensive.
Import Order.TTheory GRing.Theory Num.Theory.
Local Open Scope ring_scope.

(** The accepted values of the argument ortho; any other string is [OrthoOther]. *)
Inductive ortho_t := Mgs | Dmgs | Lanczos | Householder | OrthoOther.

Section Arnoldi.
Variable C : numClosedFieldType.
Variable N : nat.
Local Notation vec := 'cV[C]_N.

(** numpy.linalg.norm(H[:r, :c], 2) *)
Variable snorm : nat -> nat -> (nat -> nat -> C) -> C.

(** The constructor arguments kept by the object, utils.py 889-897: A, M (None
    for the identity), ip_B, ortho, maxiter. *)
Record acfg := ACfg {
  cA : vec -> vec; cM : option (vec -> vec); cB : ipB C N;
  cortho : ortho_t; cmaxiter : nat }.

(** The mutable attributes iter, V, P, H, invariant, vnorm, houses. *)
Record arn := Arn {
  a_iter : nat; a_V : nat -> vec; a_P : nat -> vec; a_H : nat -> nat -> C;
  a_inv : bool; a_vnorm : C; a_houses : seq (house C N) }.

(** entry i of a column, 0 outside *)
Definition ent n (x : 'cV[C]_n) (i : nat) : C := if insub i is Some o then x o 0 else 0.

(** x[j:] (for j < N) and the column of length N with zeros above position j *)
Definition slice (j : nat) (x : vec) : 'cV[C]_(N - j.+1).+1 := \col_i ent x (j + i).
Definition pad (j : nat) n (v : 'cV[C]_n) : vec :=
  \col_(i < N) (if (j <= i)%N then ent v (i - j) else 0).

(** House(x[j:]).  The Householder vector is stored padded with zeros, so that
    [house_apply] on the whole column is apply on the slice x[j:]. *)
Definition house_at (j : nat) (x : vec) : house C N :=
  let h := mk_house (slice j x) in House (hxnorm h) (pad j (hv h)) (halpha h) (hbeta h).

(** x[j] *= a *)
Definition scale_at (j : nat) (a : C) (x : vec) : vec :=
  \col_i (if i == j :> nat then a * x i 0 else x i 0).
(** x[j:] *= a *)
Definition scale_from (j : nat) (a : C) (x : vec) : vec :=
  \col_i (if (j <= i)%N then a * x i 0 else x i 0).
(** the column that is 1 in row j and 0 elsewhere *)
Definition unitv (j : nat) : vec := \col_i (if i == j :> nat then 1 else 0).

Definition house0 : house C N := House 0 0 1 0.

Definition zero_arn (v0 : C) : arn := Arn 0 (fun _ => 0) (fun _ => 0) (fun _ _ => 0) false v0 [::].

(** The branch mgs / dmgs / lanczos of Arnoldi.__init__, utils.py 925-944: the
    vector v (replaced by M v) and the object. *)
Definition init_gs (c : acfg) (v : vec) (Mv : option vec) (Mv_norm : option C) : res (vec * arn) :=
  match cM c with
  | Some M =>
    let p := v in
    let v := if Mv is Some w then w else M p in
    let! vnorm := if Mv_norm is Some r then Ok r else norm p (Some v) (cB c) in
    let a := zero_arn vnorm in
    Ok (v, if 0 < vnorm then Arn 0 (a_V a) (upd (a_P a) 0 (vnorm^-1 *: p)) (a_H a) false vnorm [::]
           else a)
  | None =>
    let! vnorm := if Mv_norm is Some r then Ok r else norm v None (cB c) in
    Ok (v, zero_arn vnorm)
  end.

(** The branch house, utils.py 911-924; the Householder transformation of an empty
    vector raises IndexError. *)
Definition init_house (c : acfg) (v : vec) : res (vec * arn) :=
  match cM c, cB c with
  | None, IpNone =>
    if N is 0 then Err IndexError else
    Ok (v, Arn 0 (fun _ => 0) (fun _ => 0) (fun _ _ => 0) false (norm2 v) [:: house_at 0 v])
  | _, _ => Err ArgumentError
  end.

(** Arnoldi.__init__, utils.py 887-952 *)
Definition arn_init (c : acfg) (v : vec) (Mv : option vec) (Mv_norm : option C) : res arn :=
  let! (v, a) := match cortho c with
    | Householder => init_house c v
    | OrthoOther => Err ArgumentError
    | _ => init_gs c v Mv Mv_norm
    end in
  Ok (if 0 < a_vnorm a
      then Arn 0 (upd (a_V a) 0 ((a_vnorm a)^-1 *: v)) (a_P a) (a_H a) false (a_vnorm a) (a_houses a)
      else Arn 0 (a_V a) (a_P a) (a_H a) true (a_vnorm a) (a_houses a)).

Definition is_lanczos (o : ortho_t) : bool := if o is Lanczos then true else false.
Definition reorthos (o : ortho_t) : nat := if o is Dmgs then 1 else 0.

(** The basis that is subtracted: P if there is a preconditioner, else V. *)
Definition sub_basis (c : acfg) (V P : nat -> vec) : nat -> vec :=
  if cM c is Some _ then P else V.

(** One pass of the orthogonalisation loop, utils.py 1011-1027: state (H, Av). *)
Definition orth_body (c : acfg) (V P : nat -> vec) (k j : nat)
    (s : (nat -> nat -> C) * vec) : (nat -> nat -> C) * vec :=
  let '(H, Av) := s in
  let alpha := ip1 (cB c) (V j) Av in
  let alpha := if is_lanczos (cortho c) then 'Re alpha else alpha in
  (upd2 H j k (H j k + alpha), Av - alpha *: sub_basis c V P j).

(** 1e-14 *)
Definition eps14 : C := (10%:R ^+ 14)^-1.

(** The test H[k+1,k] / norm(H[:k+2,:k+1], 2) <= 1e-14, utils.py 983-986 and
    1033-1036. *)
Definition invariant_test (H : nat -> nat -> C) (k : nat) : res bool :=
  let s := snorm k.+2 k.+1 H in
  if s == 0 then Err DivZero else Ok (H k.+1 k / s <= eps14).

(** Arnoldi.advance for mgs, dmgs, lanczos, utils.py 954-966 and 993-1048 *)
Definition advance_gs (c : acfg) (a : arn) : res arn :=
  let k := a_iter a in
  let V := a_V a in let P := a_P a in
  let Av := cA c (V k) in
  let start := if is_lanczos (cortho c) then k else 0%N in
  let '(H, Av) :=
    if is_lanczos (cortho c) && (0 < k)%N then
      let H := upd2 (a_H a) k.-1 k (a_H a k k.-1) in
      (H, Av - H k k.-1 *: sub_basis c V P k.-1)
    else (a_H a, Av) in
  let '(H, Av) := forn (reorthos (cortho c)).+1
     (fun _ s => forrange start (k.+1 - start) (orth_body c V P k) s) (H, Av) in
  let MAv := if cM c is Some M then M Av else Av in
  let! nrm := if cM c is Some _ then norm Av (Some MAv) (cB c) else norm Av None (cB c) in
  let H := upd2 H k.+1 k nrm in
  let! inv := invariant_test H k in
  if inv then Ok (Arn k.+1 V P H true (a_vnorm a) (a_houses a))
  else if H k.+1 k == 0 then Err DivZero
  else
    let V := upd V k.+1 ((H k.+1 k)^-1 *: MAv) in
    let P := if cM c is Some _ then upd P k.+1 ((H k.+1 k)^-1 *: Av) else P in
    Ok (Arn k.+1 V P H false (a_vnorm a) (a_houses a)).

(** Arnoldi.advance for house, utils.py 954-991 *)
Definition advance_house (c : acfg) (a : arn) : res arn :=
  let k := a_iter a in
  let hs := a_houses a in
  let Av := cA c (a_V a k) in
  let Av := forn k.+1 (fun j Av => let h := nth house0 hs j in
              scale_at j (halpha h)^* (house_apply h Av)) Av in
  let '(hs, Av, rows) :=
    if (k.+1 < N)%N then
      let h := house_at k.+1 Av in
      (rcons hs h, scale_from k.+1 (halpha h)^* (house_apply h Av), k.+2)
    else (hs, Av, k.+1) in
  let H := fun i j => if (j == k) && (i < rows)%N then ent Av i else a_H a i j in
  let H := upd2 H k.+1 k `|H k.+1 k| in
  let! inv := invariant_test H k in
  if inv then Ok (Arn k.+1 (a_V a) (a_P a) H true (a_vnorm a) hs)
  else if (k.+1 < N)%N then
    let vnew := forn k.+2 (fun j x => house_apply (nth house0 hs (k.+1 - j)) x) (unitv k.+1) in
    let V := upd (a_V a) k.+1 (halpha (last house0 hs) *: vnew) in
    Ok (Arn k.+1 V (a_P a) H false (a_vnorm a) hs)
  else Err IndexError.

(** Arnoldi.advance, utils.py 954-1048 *)
Definition advance (c : acfg) (a : arn) : res arn :=
  if (cmaxiter c <= a_iter a)%N then Err ArgumentError
  else if a_inv a then Err ArgumentError
  else match cortho c with
       | Householder => advance_house c a
       | _ => advance_gs c a
       end.

(** Arnoldi.get, utils.py 1050-1061: number of columns of V (and P), and numbers
    of rows and columns of H in the returned leading blocks. *)
Definition arn_get (a : arn) : nat * nat * nat :=
  let k := a_iter a in
  if a_inv a then (k, k, k) else (k.+1, k.+1, k).

(** Arnoldi.get_last, utils.py 1063-1074: (index of the new basis vector or None,
    number of rows of the last column of H). *)
Definition arn_get_last (a : arn) : option nat * nat :=
  let k := a_iter a in
  if a_inv a then (None, k) else (Some k, k.+1).

(** Repeated calls of advance. *)
Fixpoint arn_advance_n (c : acfg) (n : nat) (a : arn) : res arn :=
  match n with 0 => Ok a | n'.+1 => let! a' := arn_advance_n c n' a in advance c a' end.

(** arnoldi, utils.py 1077-1081; the loop runs at most maxiter times. *)
Fixpoint arn_loop (c : acfg) (fuel : nat) (a : arn) : res arn :=
  if (a_iter a < cmaxiter c)%N && ~~ a_inv a then
    match fuel with
    | 0 => Err OutOfFuel
    | f.+1 => let! a' := advance c a in arn_loop c f a'
    end
  else Ok a.

Definition arnoldi (c : acfg) (v : vec) (Mv : option vec) (Mv_norm : option C) : res arn :=
  let! a := arn_init c v Mv Mv_norm in arn_loop c (cmaxiter c) a.
End Arnoldi.
