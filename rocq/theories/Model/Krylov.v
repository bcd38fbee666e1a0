(** Model of the iterations of Gmres (krypy/linsys.py 941-997), Minres (791-853) and
    Cg (593-696), as instances of the solver skeleton of Model/Solver.v.

    Simplifications: exact arithmetic; R, y, V, H are functions of their indices,
    initially zero; a division by zero gives the error value DivZero.  Warnings and
    dtypes are not modelled. *)
From mathcomp Require Import all_ssreflect all_algebra.
From Verif Require Import Base Model.Inner Model.Arnoldi Model.Solver Model.LinearSystem.

Set Implicit Arguments.
Unset Strict Implicit.
Unset Printing Implicit Defensive.
Import Order.TTheory GRing.Theory Num.Theory.
Local Open Scope ring_scope.

Section Krylov.
Variable C : numClosedFieldType.
Variable N : nat.
Local Notation vec := 'cV[C]_N.
Variable snorm : nat -> nat -> (nat -> nat -> C) -> C.

(** What a method uses: self.MlAMr, linear_system.M, ip_B and Mr,
    _get_initial_residual, and the correction applied by _get_xk (the identity
    unless the solver is deflated). *)
Record kdata := KData {
  k_A : vec -> vec; k_M : option (vec -> vec); k_B : ipB C N; k_Mr : vec -> vec;
  k_res0 : option vec -> res (vec * vec * C); k_fix : vec -> res vec }.

(** The undeflated solvers: linsys.py 388, 414-428 *)
Definition kdata_lsys (l : lsys C N) (bn : C) : kdata :=
  KData (lMlAMr l) (lM l) (lB l) (lMr l) (get_residual l bn) (fun x => Ok x).

Variable d : kdata.
Variable maxiter : nat.

Definition k_Mop : vec -> vec := if k_M d is Some M then M else id.

Definition r0_norm (x0 : option vec) : res C := let! t := k_res0 d x0 in Ok t.2.

(** scipy.linalg.solve_triangular(R[:k, :k], b): LAPACK trtrs rejects a zero on the
    diagonal (LinAlgError) and otherwise substitutes backwards. *)
Fixpoint backsub (R : nat -> nat -> C) (b : nat -> C) (k n : nat) : nat -> C :=
  match n with
  | 0 => fun _ => 0
  | n'.+1 =>
    let x := backsub R b k n' in
    let i := (k - n'.+1)%N in
    upd x i ((b i - \sum_(i.+1 <= j < k) R i j * x j) / R i i)
  end.

Definition solve_tri (R : nat -> nat -> C) (b : nat -> C) (k : nat) : res (nat -> C) :=
  if has (fun i => R i i == 0) (iota 0 k) then Err LinAlgError else Ok (backsub R b k k).

(** G.apply on the entries i, i+1 of a column *)
Definition rot (g : givens C) (i : nat) (f : nat -> C) : nat -> C :=
  let '(u, w) := givens_apply g (f i) (f i.+1) in upd (upd f i u) i.+1 w.

Definition givens0 : givens C := Givens 1 0 0.

(** GMRES: x0, arnoldi, G, R, y. *)
Record gmst := GmSt {
  gm_x0 : vec; gm_a : arn C N; gm_G : seq (givens C); gm_R : nat -> nat -> C; gm_y : nat -> C }.

Section Gmres.
Variable ortho : ortho_t.
(** The Arnoldi arguments, linsys.py 953-962 and 795-804 *)
Definition k_cfg : acfg C N := ACfg (k_A d) (k_M d) (k_B d) ortho maxiter.

Definition k_arn (x0 : option vec) : res (arn C N * C) :=
  let! t := k_res0 d x0 in let '(MMlr, Mlr, nr) := t in
  let! a := arn_init k_cfg Mlr (Some MMlr) (Some nr) in Ok (a, nr).

(** linsys.py 951-969 *)
Definition gmres_start (x0 : option vec) (x : vec) : res gmst :=
  let! (a, nr) := k_arn x0 in
  Ok (GmSt x a [::] (fun _ _ => 0) (upd (fun _ => 0) 0 nr)).

(** linsys.py 977-993 *)
Definition gmres_step (t : gmst) : res (gmst * C) :=
  let k := a_iter (gm_a t) in
  let! a := advance snorm k_cfg (gm_a t) in
  let col := fun i => if (i < k.+2)%N then a_H a i k else gm_R t i k in
  let col := forn k (fun i f => rot (nth givens0 (gm_G t) i) i f) col in
  let g := mk_givens (col k) (col k.+1) in
  let col := rot g k col in
  let R := fun i j => if j == k then col i else gm_R t i j in
  let y := rot g k (gm_y t) in
  Ok (GmSt (gm_x0 t) a (rcons (gm_G t) g) R y, `|y k.+1|).

(** Gmres._get_xk of the first iter entries of y, linsys.py 941-949 *)
Definition gmres_getx (t : gmst) : res vec :=
  let k := a_iter (gm_a t) in
  if (0 < k)%N then
    let! yy := solve_tri (gm_R t) (gm_y t) k in
    k_fix d (gm_x0 t + k_Mr d (\sum_(j < k) yy j *: a_V (gm_a t) j))
  else k_fix d (gm_x0 t).

Definition gmres : method C vec :=
  Method r0_norm gmres_start (fun t => a_iter (gm_a t)) (fun t => a_inv (gm_a t))
    gmres_step gmres_getx (k_fix d) (fun t _ => t) false.

(** MINRES: x0, lanczos, the columns of W, y[0], the Givens rotations G1, G2, yk. *)
Record mrst := MrSt {
  mr_x0 : vec; mr_a : arn C N; mr_W0 : vec; mr_W1 : vec; mr_y : C;
  mr_G1 : option (givens C); mr_G2 : option (givens C); mr_yk : vec }.

(** linsys.py 791-814 *)
Definition minres_start (x0 : option vec) (x : vec) : res mrst :=
  let! (a, nr) := k_arn x0 in
  Ok (MrSt x a 0 0 nr None None 0).

(** linsys.py 822-848.  For k = 0 the code reads H[-1, 0], which is H[maxiter, 0]. *)
Definition minres_step (t : mrst) : res (mrst * C) :=
  let k := a_iter (mr_a t) in
  let! a := advance snorm k_cfg (mr_a t) in
  let H := a_H a in
  let R0 := 0 in
  let R1 := 'Re (if k is k'.+1 then H k' k else H maxiter 0%N) in
  let '(R0, R1) := if mr_G1 t is Some g then givens_apply g R0 R1 else (R0, R1) in
  let R2 := 'Re (H k k) in
  let R3 := 'Re (H k.+1 k) in
  let '(R1, R2) := if mr_G2 t is Some g then givens_apply g R1 R2 else (R1, R2) in
  let g := mk_givens R2 R3 in
  let R2 := gr g in
  let '(y0, y1) := givens_apply g (mr_y t) 0 in
  if R2 == 0 then Err DivZero else
  let z := R2^-1 *: (a_V a k - R0 *: mr_W0 t - R1 *: mr_W1 t) in
  Ok (MrSt (mr_x0 t) a (mr_W1 t) z y1 (mr_G2 t) (Some g) (mr_yk t + y0 *: z), `|y1|).

(** _get_xk(yk), linsys.py 423-428 *)
Definition minres_getx (t : mrst) : res vec := k_fix d (mr_x0 t + k_Mr d (mr_yk t)).

Definition minres : method C vec :=
  Method r0_norm minres_start (fun t => a_iter (mr_a t)) (fun t => a_inv (mr_a t))
    minres_step minres_getx (k_fix d) (fun t _ => t) false.
End Gmres.

(** CG: x0, iter, yk, Mlrk, MMlrk, p, rhos (newest first), and the stored Lanczos
    relation: V, P, H, alpha_old. *)
Record cgst := CgSt {
  cg_x0 : vec; cg_it : nat; cg_yk : vec; cg_Mlr : vec; cg_MMlr : vec; cg_p : vec;
  cg_rhos : seq C; cg_V : nat -> vec; cg_P : nat -> vec; cg_H : nat -> nat -> C; cg_alpha : C }.

Section Cg.
Variable store_arnoldi : bool.

(** linsys.py 593-622 *)
Definition cg_start (x0 : option vec) (x : vec) : res cgst :=
  let! t := k_res0 d x0 in let '(MMlr, Mlr, nr) := t in
  let st := store_arnoldi && (0 < nr) in
  Ok (CgSt x 0 0 Mlr MMlr MMlr [:: nr ^+ 2]
       (if st then upd (fun _ => 0) 0 (nr^-1 *: MMlr) else fun _ => 0)
       (if st && k_M d then upd (fun _ => 0) 0 (nr^-1 *: Mlr) else fun _ => 0)
       (fun _ _ => 0) 0).

(** x / y with a zero divisor reported *)
Definition divE (x y : C) : res C := if y == 0 then Err DivZero else Ok (x / y).

(** linsys.py 625-676 *)
Definition cg_step (t : cgst) : res (cgst * C) :=
  let k := cg_it t in
  let rho := nth 0 (cg_rhos t) 0 in
  let rho1 := nth 0 (cg_rhos t) 1 in
  let! omega := if (0 < k)%N then divE rho rho1 else Ok 0 in
  let p := if (0 < k)%N then cg_MMlr t + omega *: cg_p t else cg_p t in
  let Ap := k_A d p in
  let! alpha := divE rho (ip1 (k_B d) p Ap) in
  let alpha := 'Re alpha in
  let! H := if store_arnoldi then
       if (0 < k)%N then
         let H := upd2 (cg_H t) k.-1 k (cg_H t k k.-1) in
         let! q := divE (alpha * omega) (cg_alpha t) in
         let! r := divE (1 + q) alpha in
         Ok (upd2 H k k r)
       else let! r := divE 1 alpha in Ok (upd2 (cg_H t) k k r)
     else Ok (cg_H t) in
  let yk := cg_yk t + alpha *: p in
  let Mlr := cg_Mlr t - alpha *: Ap in
  let MMlr := k_Mop Mlr in
  let! nr := norm Mlr (Some MMlr) (k_B d) in
  let rhos := nr ^+ 2 :: cg_rhos t in
  let! (V, P, H) := if store_arnoldi then
       if nr == 0 then Err DivZero else
       let! q := divE (nth 0 rhos 0) (nth 0 rhos 1) in
       let! h := divE (sqrtC q) alpha in
       Ok (upd (cg_V t) k.+1 (((-1) ^+ k.+1 / nr) *: MMlr),
           if k_M d then upd (cg_P t) k.+1 (((-1) ^+ k.+1 / nr) *: Mlr) else cg_P t,
           upd2 H k.+1 k h)
     else Ok (cg_V t, cg_P t, H) in
  Ok (CgSt (cg_x0 t) k.+1 yk Mlr MMlr p rhos V P H alpha, nr).

(** rhos[-1] = rkn ** 2, linsys.py 681-683 *)
Definition cg_feed (t : cgst) (rkn : C) : cgst :=
  CgSt (cg_x0 t) (cg_it t) (cg_yk t) (cg_Mlr t) (cg_MMlr t) (cg_p t)
    (rkn ^+ 2 :: behead (cg_rhos t)) (cg_V t) (cg_P t) (cg_H t) (cg_alpha t).

Definition cg_getx (t : cgst) : res vec := k_fix d (cg_x0 t + k_Mr d (cg_yk t)).

Definition cg : method C vec :=
  Method r0_norm cg_start cg_it (fun _ => false) cg_step cg_getx (k_fix d) cg_feed true.
End Cg.
End Krylov.

(** Cg._finalize, linsys.py 691-696: the arrays V, P, H of the solver object with
    store_arnoldi=True.  P is not trimmed and exists only if M is given; otherwise the
    Lanczos relation uses V. *)
Section CgData.
Variable C : numClosedFieldType.
Variable N : nat.
Variable s : sol C 'cV[C]_N (cgst C N).
Definition cg_attrV (j : nat) : 'cV[C]_N := if (j < (s_iter s).+1)%N then cg_V (s_st s) j else 0.
Definition cg_attrP (j : nat) : 'cV[C]_N := cg_P (s_st s) j.
Definition cg_attrH (i j : nat) : C :=
  if (i < (s_iter s).+1)%N && (j < s_iter s)%N then cg_H (s_st s) i j else 0.
End CgData.

(** The construction of a solver for a linear system: LinearSystem(...) computes
    MMlb_norm; then Gmres(ls, ...), Minres(ls, ...), Cg(ls, ...). *)
Section Run.
Variable C : numClosedFieldType.
Variable N : nat.
Local Notation vec := 'cV[C]_N.
Variable snorm : nat -> nat -> (nat -> nat -> C) -> C.

Definition krun (y : sys C vec) (o : opts C) (m : method C vec) (x0 : option vec) :=
  run (fun a b => b < a) (fun a b => a <= b) (fun a => a == 0) (fun a b => a / b) 0 (0 : vec)
      y o m x0.

Definition gmres_solve (l : lsys C N) (o : opts C) (ortho : ortho_t) (x0 : option vec) :
    outcome C vec (gmst C N) :=
  bindO (lMMlb_norm l) (fun bn =>
    krun (lsys_sys l bn) o (gmres snorm (kdata_lsys l bn) (o_maxiter o) ortho) x0).

Definition minres_solve (l : lsys C N) (o : opts C) (ortho : ortho_t) (x0 : option vec) :
    outcome C vec (mrst C N) :=
  bindO (lMMlb_norm l) (fun bn =>
    krun (lsys_sys l bn) o (minres snorm (kdata_lsys l bn) (o_maxiter o) ortho) x0).

Definition cg_solve (l : lsys C N) (o : opts C) (store_arnoldi : bool) (x0 : option vec) :
    outcome C vec (cgst C N) :=
  bindO (lMMlb_norm l) (fun bn =>
    krun (lsys_sys l bn) o (cg (kdata_lsys l bn) store_arnoldi) x0).
End Run.
