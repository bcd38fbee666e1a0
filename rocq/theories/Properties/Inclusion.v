(** C65: for self-adjoint operators the reported residual norms are rigorous: within the
    reported residual norm of each reported value there is an eigenvalue. *)
From mathcomp Require Import all_ssreflect all_algebra ring.
From Verif Require Import Base Spec.LinAlg Proof.Algebra Model.Ritz Spec.Ritz Proof.Ritz Model.Inner Spec.Inner Proof.Inner Proof.IpTheory.
From Verif Require Import Spec.Rates Proof.Weinstein.
From Verif Require Import Model.Arnoldi Spec.Arnoldi Proof.Arnoldi Proof.ArnoldiRel Proof.ArnoldiAll Model.Solver Model.LinearSystem Model.Krylov Spec.Krylov.
From Verif Require Import Spec.Solver Model.Projection Spec.Projection Model.Deflation Spec.Deflation.
From Verif Require Import Proof.Qr Proof.QrExist Model.DeflRitz Spec.DeflRitz Proof.DeflRitz.
From Verif Require Properties.Ritz Properties.DeflRitz.

Set Implicit Arguments.
Unset Strict Implicit.
Unset Printing Implicit Defensive.
Import Order.TTheory GRing.Theory Num.Theory.
Local Open Scope ring_scope.

(** [near T t r]: the disc around t with radius r contains an eigenvalue of T, which is real. *)
Definition near (C : numClosedFieldType) N (T : 'cV[C]_N -> 'cV[C]_N) (t r : C) : Prop :=
  exists mu, [/\ eigenvalue_of T mu, mu \is Num.real & `|t - mu| <= r].

(** utils.ritz with a Hessenberg matrix and basis of n steps of arnoldi() or lanczos. *)
Section Utils.
Variable C : numClosedFieldType.
Variable N : nat.
Local Notation vec := 'cV[C]_N.
Variables eig eigh : forall n, 'M[C]_n -> ('I_n -> C) * 'M[C]_n.
Variables geig geigh : forall n, 'M[C]_n -> 'M[C]_n -> ('I_n -> C) * 'M[C]_n.
Variables (ip : vec -> vec -> C) (A : vec -> vec) (n_ n : nat) (V : nat -> vec) (H : nat -> nat -> C).
Hypotheses (hip : is_ip ip) (hA : is_linear A) (n0 : (0 < n)%N) (hr : hess_rel ip A n_ n V H).
Hypothesis sa : self_adjoint ip A.
Variable hermitian : bool.
Local Notation run := (ritz eig eigh geig geigh n_ n H (Some (n_, V)) hermitian).
Local Notation Hn := (\matrix_(i < n, j < n) H i j).
Local Notation Hb := (\matrix_(i < n_, j < n) H i j).
Local Notation ev := ((if hermitian then @eigh n else @eig n) Hn).
Local Notation gev := ((if hermitian then @geigh n else @geig n) Hn^h (Hb^h *m Hb)).

Theorem C65_ritz out i t r : eig_ok Hn ev -> run RtRitz = Ok out ->
  ro_theta out i = Ok t -> ro_resnorm out i = Ok r -> near A t r.
Proof.
move=> he E Et Er; have [o1 [Z [e1 _ /(_ i)[t' [e2 _ e3 e4]]]]] := Properties.Ritz.C32_ritz geig geigh hip hA n0 hr he.
move: e1 e2 e4; rewrite E => -[<-]; rewrite Et Er => -[<-] [->]; exact: (weinstein hip hA sa).
Qed.

Theorem C65_harmonic out i t r : geig_ok Hn^h (Hb^h *m Hb) gev -> run RtHarmonic = Ok out ->
  ro_theta out i = Ok t -> ro_resnorm out i = Ok r -> near A t r.
Proof.
move=> he E Et Er; have [o1 [Z [e1 _ /(_ i)[e3]]]] := Properties.Ritz.C32_harmonic eig eigh hip hA n0 hr he.
move: e1; rewrite E => -[<-]; rewrite Et Er; case: ifP => // _ [t' [_ [<-] _ [->]]]; exact: (weinstein hip hA sa).
Qed.

Theorem C65_improved out i t r : geig_ok Hn^h (Hb^h *m Hb) gev -> run RtImproved = Ok out ->
  ro_theta out i = Ok t -> ro_resnorm out i = Ok r -> near A t r.
Proof.
move=> he E Et Er; have [o1 [Z [e1 _ _ /(_ i)[t' [e2 _ e3 e4 _]]]]] := Properties.Ritz.C32_improved eig eigh hip hA n0 hr he.
move: e1 e2 e4; rewrite E => -[<-]; rewrite Et Er => -[<-] [->]; exact: (weinstein hip hA sa).
Qed.

(** A zero residual norm: the value is an eigenvalue. *)
Theorem C65_zero out i t : eig_ok Hn ev -> run RtRitz = Ok out ->
  ro_theta out i = Ok t -> ro_resnorm out i = Ok 0 -> eigenvalue_of A t.
Proof.
move=> he E Et Er; have [mu [h1 _]] := C65_ritz he E Et Er.
by rewrite normr_le0 subr_eq0 => /eqP->.
Qed.
End Utils.

(** deflation.Ritz with the attributes of a deflated solver. *)
Section Defl.
Variable C : numClosedFieldType.
Variable N : nat.
Local Notation vec := 'cV[C]_N.
Variables eig eigh : forall n, 'M[C]_n -> ('I_n -> C) * 'M[C]_n.
Variables geig geigh : forall n, 'M[C]_n -> 'M[C]_n -> ('I_n -> C) * 'M[C]_n.
Variables (l : lsys C N) (m : nat) (ob : obl C N m) (n_ n : nat) (b : byprod C N n_ n m) (hn : (n <= n_)%N).
Variables (Bm : ipB C N) (sa : bool).
Local Notation A := (lMlAMr l).
Local Notation M := (lMop l).
Local Notation U := (o_U ob).
Local Notation V := (bp_V b).
Local Notation MA := (fun x => M (A x)).
Hypothesis hr : defl_rel (lB l) Bm A M hn V U (bp_H b) (d_E ob) (bp_C b) (bp_B b) 0.
Hypothesis hAU : o_AU ob = imcols A U.
Hypothesis nm : (0 < n + m)%N.
Hypothesis hsa : self_adjoint (ip1 (lB l)) A.
Local Notation X := (row_mx (firstn hn V) U).
Local Notation run := (mk_dritz eig eigh geig geigh l sa ob b).
Local Notation T := (inner Bm X (imcols MA X)).
Local Notation G := (inner Bm (imcols MA X) (imcols MA X)).
Local Notation ev := ((if sa then @eigh (n + m) else @eig (n + m)) T).
Local Notation gev := ((if sa then @geigh (n + m) else @geig (n + m)) T^h G).

Let hipm := valid_is_ip (dr_Bm hr).
Let hip := valid_is_ip (dr_B hr).
Let saMA : self_adjoint (ip1 Bm) MA.
Proof.
by move=> x y; rewrite (dr_adj hr) (ip_conj hipm) (dr_adj hr) -(ip_conj hip) hsa.
Qed.
Let sE := Properties.DeflRitz.C31_selfadjoint hr hsa.

Theorem C65_defl_ritz z i t r : geig_ok T 1%:M ev -> run DmRitz = Ok z ->
  dz_values z i = Some t -> dz_resnorms z i = Some r -> near MA t r.
Proof.
move=> he E Et Er; have [z' e1 /(_ i)[t' [_ _ e3]]] := Properties.DeflRitz.C31_ritz geig geigh hr nm he.
move: e1 e3; rewrite E => -[<-] e3.
have := Properties.DeflRitz.C31_resnorm_partial hr hAU nm sE erefl E Et; rewrite Er => -[->].
exact: (weinstein hipm (MA_lin hr) saMA).
Qed.

Theorem C65_defl_harmonic z i t r : geig_ok T^h G gev -> run DmHarmonic = Ok z ->
  dz_values z i = Some t -> dz_resnorms z i = Some r -> near MA t r.
Proof.
move=> he E Et Er; have [z' e1 /(_ i)[e3 _ _]] := Properties.DeflRitz.C31_harmonic eig eigh hr hAU nm erefl he.
move: e1 e3; rewrite E => -[<-] e3.
have := Properties.DeflRitz.C31_resnorm_partial hr hAU nm sE erefl E Et; rewrite Er => -[->].
exact: (weinstein hipm (MA_lin hr) saMA).
Qed.
End Defl.

(** The attributes of the deflated solvers satisfy the relations (C31_gmres, C31_minres and
    C31_cg give [rel_ok] with the condition [ex] for the relation to hold without remainder). *)
Section Runs.
Variable C : numClosedFieldType.
Variable N k : nat.
Local Notation vec := 'cV[C]_N.
Variable l : lsys C N.
Hypothesis hl : lsys_ok l.
Variable U : 'M[C]_(N, k).
Variables (x0 : option vec) (fl : bool) (Bm : ipB C N).
Hypothesis vBm : valid_ip Bm.
Hypothesis hadj : forall x y, ip1 Bm x (lMop l y) = ip1 (lB l) x y.
Variable ob : obl C N k.
Variables eig eigh : forall n, 'M[C]_n -> ('I_n -> C) * 'M[C]_n.
Variables geig geigh : forall n, 'M[C]_n -> 'M[C]_n -> ('I_n -> C) * 'M[C]_n.
Hypothesis he : forall n (X : 'M[C]_n), geig_ok X 1%:M (eig X).
Hypothesis heh : forall n (X : 'M[C]_n), X^h = X -> geig_ok X 1%:M (eigh X).
Hypothesis hsa : self_adjoint (ip1 (lB l)) (lMlAMr l).

Theorem C65_attributes n_ n (b : byprod C N n_ n k) (ex : Prop) z i t r :
  Properties.DeflRitz.rel_ok l U x0 Bm ob b ex -> ex -> (0 < n + k)%N ->
  mk_dritz eig eigh geig geigh l fl ob b DmRitz = Ok z ->
  dz_values z i = Some t -> dz_resnorms z i = Some r -> near (fun x => lMop l (lMlAMr l x)) t r.
Proof.
move=> R hex nk; have [hn [W [hr hAU W0 _ _]]] := R; rewrite (W0 hex) in hr.
apply: (C65_defl_ritz hr hAU nk hsa).
case: fl; last exact: he.
apply: heh; apply/matrixP => p q; rewrite ctrE !(inner_entry vBm).
have e Y j : col j (imcols (fun x => lMop l (lMlAMr l x)) Y) = lMop l (lMlAMr l (col j Y)) :> 'cV[C]_N.
  by apply/matrixP => s u; rewrite !mxE ord1.
by rewrite !e !hadj -(ip_conj (valid_is_ip (lo_B hl))) hsa.
Qed.
End Runs.

(** Concrete cases: utils.ritz for A = [[0,1,0],[1,0,1],[0,1,0]] with two Lanczos vectors: the
    value 1 has residual norm 1/sqrt(2), and the eigenvalue sqrt(2) of A is within this distance. *)
Section Example.
Variable C : numClosedFieldType.
Let s2 : C := sqrtC 2%:R.
Let A3 : 'M[C]_3 := \matrix_(i, j) ((i == j.+1 :> nat) || (j == i.+1 :> nat))%:R.
Let H3 (i j : nat) : C := ((i == j.+1 :> nat) || (j == i.+1 :> nat))%:R.
Let V3 (k : nat) : 'cV[C]_3 := \col_i (i == k :> nat)%:R.
Let th2 (n : nat) (i : 'I_n) : C := if i == 0%N :> nat then 1 else -1.
Let U2 (n : nat) : 'M[C]_n := \matrix_(k, i) (if k == 0%N :> nat then s2^-1 else th2 i / s2).
Let eg n (X : 'M[C]_n) := (@th2 n, U2 n).
Let gg n (X Y : 'M[C]_n) := (@th2 n, U2 n).

Let saA : self_adjoint (@ipE C 3) (fun x => A3 *m x).
Proof.
move=> x y; rewrite /ipE ctrM mulmxA; congr ((_ *m _) _ _); congr (_ *m _).
apply/matrixP => i j; rewrite ctrE !mxE orbC; exact: conjC_nat.
Qed.

Example C65_example : exists out,
  [/\ ritz eg eg gg gg 3 2 H3 (Some (3%N, V3)) false RtRitz = Ok out,
      ro_theta out ord0 = Ok 1, ro_resnorm out ord0 = Ok s2^-1
    & near (fun x => A3 *m x) 1 s2^-1].
Proof.
have lA : is_linear (fun x => A3 *m x) by move=> a x y; rewrite mulmxDr -scalemxAr.
have he := Properties.Ritz.C32_example_eig C; have hr := Properties.Ritz.C32_example_rel C.
have r0 : `|1 * (1 / s2)| = s2^-1 :> C by rewrite !mul1r ger0_norm // invr_ge0 sqrtC_ge0 ler0n.
have [out E] : exists out, ritz eg eg gg gg 3 2 H3 (Some (3%N, V3)) false RtRitz = Ok out by eexists.
have Et : ro_theta out ord0 = Ok 1 by case: E => <-.
have Er : ro_resnorm out ord0 = Ok s2^-1.
  by case: E => <- /=; rewrite insubT /U2 mxE /= r0.
exists out; split=> //.
exact: (C65_ritz (eig := eg) (eigh := eg) (ipE_ip C 3) lA (isT : (0 < 2)%N) hr saA (hermitian := false) he E Et Er).
Qed.
End Example.

Print Assumptions C65_ritz.
Print Assumptions C65_harmonic.
Print Assumptions C65_improved.
Print Assumptions C65_zero.
Print Assumptions C65_defl_ritz.
Print Assumptions C65_defl_harmonic.
Print Assumptions C65_attributes.
Print Assumptions C65_example.
