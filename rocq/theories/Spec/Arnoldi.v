(** What an Arnoldi relation is, independently of how it is computed. *)
From mathcomp Require Import all_ssreflect all_algebra.
From Verif Require Import Spec.LinAlg.

Set Implicit Arguments.
Unset Strict Implicit.
Unset Printing Implicit Defensive.
Import Order.TTheory GRing.Theory Num.Theory.
Local Open Scope ring_scope.

Section Spec.
Variable C : numClosedFieldType.
Variable N : nat.
Local Notation vec := 'cV[C]_N.

(** The inner product <x, y>_M = <x, M y> on the space of the vectors P (so that
    <M x, M y>_{M^-1} = <x, y>_M). *)
Definition mip (ip : vec -> vec -> C) (M : vec -> vec) : vec -> vec -> C :=
  fun x y => ip x (M y).

(** V, P, H satisfy, after n steps with initial vector v:
    - V_j = M P_j, and the first [m] vectors are orthonormal, <P_i, V_j> = delta_ij
      ([m] = n+1, or n when the space was found to be invariant);
    - the first vector is v / ||v||;
    - for every j < n the vector A V_j - sum_(i<=j) H_ij P_i =: w is orthogonal to
      V_0..V_j and has norm H_(j+1)j; it is H_(j+1)j P_(j+1) if that basis vector
      exists, and then H_(j+1)j > 0;
    - H is upper Hessenberg, and zero beyond column n. *)
Record arnoldi_rel (ip : vec -> vec -> C) (A M : vec -> vec) (v : vec) (n m : nat)
    (V P : nat -> vec) (H : nat -> nat -> C) : Prop := ArnoldiRel {
  ar_V : forall j, (j < m)%N -> V j = M (P j);
  ar_orth : orthonormal (mip ip M) P m;
  ar_first : (0 < m)%N -> v = ipnorm (mip ip M) v *: P 0%N;
  ar_step : forall j, (j < n)%N -> exists w,
     [/\ A (V j) = \sum_(i < j.+1) H i j *: P i + w,
         forall i, (i <= j)%N -> ip (V i) w = 0,
         H j.+1 j = ipnorm (mip ip M) w
       & (j.+1 < m)%N -> w = H j.+1 j *: P j.+1 /\ 0 < H j.+1 j];
  ar_hess : forall i j, (j.+1 < i)%N || (n <= j)%N -> H i j = 0 }.

(** A matrix norm that bounds the entries, such as the spectral norm or the
    Frobenius norm, on the leading r x c block of H. *)
Definition bounds_entries (snorm : nat -> nat -> (nat -> nat -> C) -> C) : Prop :=
  forall r c H i j, (i < r)%N -> (j < c)%N -> `|H i j| <= snorm r c H.
End Spec.
