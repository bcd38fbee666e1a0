(** What the Krylov subspace methods compute, stated without reference to the
    algorithms. *)
From mathcomp Require Import all_ssreflect all_algebra.
From Verif Require Import Base Spec.LinAlg Spec.Arnoldi Model.Inner Spec.Inner Model.Arnoldi Model.Solver Model.LinearSystem Model.Krylov.

Set Implicit Arguments.
Unset Strict Implicit.
Unset Printing Implicit Defensive.
Import Order.TTheory GRing.Theory Num.Theory.
Local Open Scope ring_scope.

Section Spec.
Variable C : numClosedFieldType.
Variable N : nat.
Local Notation vec := 'cV[C]_N.

(** The Krylov space K_n(M A, M r). *)
Definition in_krylov (A M : vec -> vec) (r : vec) (n : nat) (z : vec) : Prop :=
  in_span (krylov (fun x => M (A x)) (M r)) n z.

(** A is injective on the Krylov spaces. *)
Definition krylov_inj (A M : vec -> vec) (r : vec) : Prop :=
  forall n z, in_krylov A M r n z -> A z = 0 -> z = 0.

(** ||M r||_{M^-1} for the inner product ip: sqrt <r, M r>. *)
Definition mnorm (ip : vec -> vec -> C) (M : vec -> vec) (r : vec) : C := sqrtC (ip r (M r)).

(** f attains its minimum over K at y. *)
Definition minimizer (f : vec -> C) (K : vec -> Prop) (y : vec) : Prop :=
  K y /\ forall z, K z -> f y <= f z.

(** A linear system whose data satisfy the documented requirements: the operators are
    linear, ip_B defines an inner product, M is self-adjoint and positive definite in
    it. *)
Record lsys_ok (l : lsys C N) : Prop := LsysOk {
  lo_A : is_linear (lA l); lo_Ml : is_linear (lMl l); lo_Mr : is_linear (lMr l);
  lo_B : valid_ip (lB l); lo_M : is_linear (lMop l);
  lo_Msa : self_adjoint (ip1 (lB l)) (lMop l); lo_Mpd : pos_def (ip1 (lB l)) (lMop l) }.

(** Admissible values of ortho: lanczos needs a self-adjoint operator; house excludes
    M and ip_B. *)
Definition ortho_ok (l : lsys C N) (o : ortho_t) : Prop :=
  match o with
  | Mgs | Dmgs => True
  | Lanczos => self_adjoint (ip1 (lB l)) (lMlAMr l)
  | Householder => [/\ lM l = None, lB l = IpNone & (0 < N)%N]
  | OrthoOther => False
  end.

(** ||M Ml (b - A x)||_{M^-1} *)
Definition resid (l : lsys C N) (x : vec) : vec := lMl l (lb l - lA l x).
Definition resid_norm (l : lsys C N) (x : vec) : C := mnorm (ip1 (lB l)) (lMop l) (resid l x).
Definition rhs_norm (l : lsys C N) : C := mnorm (ip1 (lB l)) (lMop l) (lMl l (lb l)).
End Spec.
