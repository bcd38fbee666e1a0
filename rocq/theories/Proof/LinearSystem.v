From mathcomp Require Import all_ssreflect all_algebra.
From mathcomp Require Import ring.
From Verif Require Import Base Spec.LinAlg Proof.Algebra Model.Inner Spec.Inner Proof.Inner.
From Verif Require Import Proof.IpTheory Model.Arnoldi Spec.Arnoldi Proof.Arnoldi Proof.HouseArnoldi Proof.ArnoldiAll.
From Verif Require Import Model.Solver Model.LinearSystem Model.Krylov Spec.Krylov Proof.Gmres.

Set Implicit Arguments.
Unset Strict Implicit.
Unset Printing Implicit Defensive.
Import Order.TTheory GRing.Theory Num.Theory.
Local Open Scope ring_scope.

Section L.
Variable C : numClosedFieldType.
Variable N : nat.
Local Notation vec := 'cV[C]_N.
Variable l : lsys C N.
Hypothesis hl : lsys_ok l.
Local Notation ip := (ip1 (lB l)).
Local Notation M := (lMop l).

Let hip : is_ip ip. Proof. exact: valid_is_ip (lo_B hl). Qed.

Lemma lmip : is_ip (mip ip M).
Proof. by apply: mip_is_ip => //; [apply: lo_M|apply: lo_Msa|apply: lo_Mpd]. Qed.

Lemma norm_M x : norm x (Some (M x)) (lB l) = Ok (mnorm ip M x).
Proof. by rewrite (@norm_real_nonneg _ _ x (Some (M x))) //; apply: (ip_ge0' lmip). Qed.

Lemma bnorm_ok : lMMlb_norm l = Ok (rhs_norm l).
Proof. exact: norm_M. Qed.

Lemma rhs_norm_eq0 : (rhs_norm l == 0) = (lMl l (lb l) == 0).
Proof. by rewrite /rhs_norm /mnorm sqrtC_eq0 -(ip_eq0 lmip). Qed.

Lemma get_residual_some bn x :
  get_residual l bn (Some x) = Ok (M (resid l x), resid l x, resid_norm l x).
Proof. by rewrite /get_residual norm_M. Qed.

Lemma get_residual_none : get_residual l (rhs_norm l) None = get_residual l (rhs_norm l) (Some 0).
Proof. by rewrite get_residual_some /= /resid_norm /resid (lin0 (lo_A hl)) subr0. Qed.

Lemma get_residualE z : get_residual l (rhs_norm l) z =
  Ok (M (resid l (x0_of z)), resid l (x0_of z), resid_norm l (x0_of z)).
Proof. by case: z => [x|]; rewrite ?get_residual_none get_residual_some. Qed.

(** The residual of a corrected approximation. *)
Lemma resid_update x z : resid l (x + lMr l z) = resid l x - lMlAMr l z.
Proof.
by rewrite /resid /lMlAMr (linD (lo_A hl)) opprD addrA (linB (lo_Ml hl)).
Qed.

Lemma lMlAMr_lin : is_linear (lMlAMr l).
Proof. by move=> a x y; rewrite /lMlAMr (lo_Mr hl) (lo_A hl) (lo_Ml hl). Qed.

Lemma lsys_kd x0 : kd_ok (kdata_lsys l (rhs_norm l)) (lsys_sys l (rhs_norm l)) x0 (resid l (x0_of x0)).
Proof.
split=> //=; try by case: hl.
- exact: lMlAMr_lin.
- exact: get_residualE.
- move=> z; exists (x0_of x0 + lMr l z) => //.
  rewrite -[LHS]/(let! t := get_residual l (rhs_norm l) (Some (x0_of x0 + lMr l z)) in Ok t.2).
  by rewrite get_residual_some /= /resid_norm resid_update.
Qed.

Lemma lsys_cfg maxiter ortho bn : ortho_ok l ortho -> arn_cfg (k_cfg (kdata_lsys l bn) maxiter ortho).
Proof.
case: ortho => //= h.
- by left; split=> //=; try (by case: hl); try exact: lMlAMr_lin.
- by left; split=> //=; try (by case: hl); try exact: lMlAMr_lin.
- by left; split=> //=; try (by case: hl); try exact: lMlAMr_lin.
- by case: h => h1 h2 h3; right; split=> //; split=> //=; exact: lMlAMr_lin.
Qed.
End L.
