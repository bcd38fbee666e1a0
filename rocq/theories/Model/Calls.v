(** The constructors LinearSystem, Cg, Minres and Gmres (krypy/linsys.py 11-201, 277-1018)
    and the class Arnoldi as used by them (krypy/utils.py 887-1048), as programs that call
    the operators A, M, Ml, Mr and the inner product ip_B.

    A program has no access to the operators: every application is a node of the tree, so
    that the calls can be counted.  Properties/Calls.v states that running the program with
    the operators of a linear system gives the result of Model/Krylov.v.

    A call of inner for two single columns and a call of norm, both with ip_B, count as one
    application of ip_B each (norm calls inner once, or numpy.linalg.norm if ip_B and the
    second vector are missing).  M * x with the identity operator is a call of M, except in
    Arnoldi, which tests for it.  Simplifications: those of Model/Krylov.v.  Not modelled:
    axpy. *)
From mathcomp Require Import all_ssreflect all_algebra.
From Verif Require Import Base Model.Inner Model.Arnoldi Model.Solver Model.LinearSystem Model.Krylov.

Set Implicit Arguments.
Unset Strict Implicit.
Unset Printing Implicit Defensive.
Import Order.TTheory GRing.Theory Num.Theory.
Local Open Scope ring_scope.

(** The kinds of calls; the keys of the dictionary returned by operations. *)
Inductive kind := KA | KM | KMl | KMr | KIp.
Definition same (a b : kind) : bool :=
  match a, b with
  | KA, KA | KM, KM | KMl, KMl | KMr, KMr | KIp, KIp => true
  | _, _ => false
  end.

(** operations, linsys.py 698-708, 864-874, 1008-1018 (without axpy) *)
Definition cg_operations (nsteps : nat) (k : kind) : nat :=
  match k with
  | KA => 1 + nsteps
  | KM => 2 + nsteps
  | KMl => 2 + nsteps
  | KMr => 1 + nsteps
  | KIp => 2 + 2 * nsteps
  end%N.
Definition minres_operations (nsteps : nat) (k : kind) : nat :=
  match k with
  | KA => 1 + nsteps
  | KM => 2 + nsteps
  | KMl => 2 + nsteps
  | KMr => 1 + nsteps
  | KIp => 2 + 2 * nsteps
  end%N.
Definition gmres_operations (nsteps : nat) (k : kind) : nat :=
  match k with
  | KA => 1 + nsteps
  | KM => 2 + nsteps
  | KMl => 2 + nsteps
  | KMr => 1 + nsteps
  | KIp => 2 + nsteps + (nsteps * (nsteps + 1)) %/ 2
  end%N.

Section Calls.
Variable C : numClosedFieldType.
Variable N : nat.
Local Notation vec := 'cV[C]_N.

(** Return; raise; apply A, M, Ml or Mr; inner(x, y, ip_B)[0, 0]; norm(x, y, ip_B). *)
Inductive opn := OpA | OpM | OpMl | OpMr.
Inductive prog (T : Type) : Type :=
| Ret of T
| Throw of exn
| App of opn & vec & (vec -> prog T)
| Ip of vec & vec & (C -> prog T)
| Nrm of vec & option vec & (C -> prog T).
Arguments Throw {T}.

Fixpoint pbind {S T} (p : prog S) (f : S -> prog T) : prog T :=
  match p with
  | Ret a => f a
  | Throw e => Throw e
  | App o x k => App o x (fun y => pbind (k y) f)
  | Ip x y k => Ip x y (fun c => pbind (k c) f)
  | Nrm x y k => Nrm x y (fun c => pbind (k c) f)
  end.
Local Notation "'let*' x := p 'in' q" := (pbind p (fun x => q))
  (at level 200, x pattern, p at level 100, q at level 200, right associativity).

Definition lift {T} (r : res T) : prog T := match r with Ok a => Ret a | Err e => Throw e end.
Definition app (o : opn) (x : vec) : prog vec := App o x (@Ret vec).
Definition pinner (x y : vec) : prog C := Ip x y (@Ret C).
Definition pnorm (x : vec) (y : option vec) : prog C := Nrm x y (@Ret C).

(** for i in range(a, a + n) *)
Fixpoint pfor {S} (a n : nat) (body : nat -> S -> prog S) (s : S) : prog S :=
  if n is n'.+1 then let* s := pfor a n' body s in body (a + n')%N s else Ret s.

(** Running a program with the operators of a linear system: the calls in their order, and
    the result. *)
Section Exec.
Variable l : lsys C N.
Definition op_of (o : opn) : vec -> vec :=
  match o with OpA => lA l | OpM => lMop l | OpMl => lMl l | OpMr => lMr l end.
Definition kind_of (o : opn) : kind :=
  match o with OpA => KA | OpM => KM | OpMl => KMl | OpMr => KMr end.
Fixpoint exec {T} (p : prog T) : seq kind * res T :=
  match p with
  | Ret a => ([::], Ok a)
  | Throw e => ([::], Err e)
  | App o x k => let r := exec (k (op_of o x)) in (kind_of o :: r.1, r.2)
  | Ip x y k => let r := exec (k (ip1 (lB l) x y)) in (KIp :: r.1, r.2)
  | Nrm x y k =>
      match norm x y (lB l) with
      | Ok c => let r := exec (k c) in (KIp :: r.1, r.2)
      | Err e => ([:: KIp], Err e)
      end
  end.
(** The number of calls of one kind *)
Definition calls {T} (k : kind) (p : prog T) : nat := count (same k) (exec p).1.
End Exec.

(** What the code looks at besides calling the operators: b, whether M is not the identity,
    whether ip_B is None, exact_solution. *)
Variables (b : vec) (hasM euclid : bool) (exact : option vec).

(** MlAMr * x *)
Definition pMlAMr (x : vec) : prog vec :=
  let* y := app OpMr x in let* z := app OpA y in app OpMl z.

(** LinearSystem.__init__, linsys.py 120-122: Mlb, MMlb, MMlb_norm *)
Record ldata := LData { ld_Mlb : vec; ld_MMlb : vec; ld_norm : C }.
Definition plinsys : prog ldata :=
  let* Mlb := app OpMl b in
  let* MMlb := app OpM Mlb in
  let* n := pnorm Mlb (Some MMlb) in
  Ret (LData Mlb MMlb n).

(** get_residual(z, compute_norm=True), linsys.py 130-161 *)
Definition presidual (ld : ldata) (z : option vec) : prog (vec * vec * C) :=
  if z is Some z then
    let* Az := app OpA z in
    let* Mlr := app OpMl (b - Az) in
    let* MMlr := app OpM Mlr in
    let* n := pnorm Mlr (Some MMlr) in
    Ret (MMlr, Mlr, n)
  else Ret (ld_MMlb ld, ld_Mlb ld, ld_norm ld).

(** A method, see Model/Solver.v; the initial residual is computed once, before. *)
Record pmethod := PMethod {
  q_st : Type;
  q_start : vec * vec * C -> vec -> prog q_st;
  q_iter : q_st -> nat;
  q_inv : q_st -> bool;
  q_step : q_st -> prog (q_st * C);
  q_getx : q_st -> prog vec;
  q_feed : q_st -> C -> q_st;
  q_incr : bool }.

Section Run.
Variables (o : opts C) (m : pmethod) (ld : ldata).
Local Notation st := (q_st m).
Local Notation psol := (sol C vec st).
Local Notation out := (outcome C vec st).

(** _finalize_iteration, linsys.py 430-493 *)
Definition pfinalize (s : psol) (resnorm : C) (k : psol -> option C -> prog out) : prog out :=
  let* (xk, err) := (if exact is Some e then
         let* x := q_getx (s_st s) in let* n := pnorm (e - x) None in Ret (Some x, rcons (s_err s) n)
       else Ret (None, s_err s)) in
  let last_it := (s_iter s).+1 == o_maxiter o in
  if [|| o_explicit o, resnorm / ld_norm ld <= o_tol o | last_it] then
    let* x := (if xk is Some x then Ret x else q_getx (s_st s)) in
    let* t := presidual ld (Some x) in
    let r := t.2 / ld_norm ld in
    let s' := Sol (s_st s) (s_iter s) (s_x0 s) (Some x) (rcons (s_res s) r) err in
    if (o_tol o < r) && last_it then Ret (NoConvergence s') else k s' (Some t.2)
  else k (Sol (s_st s) (s_iter s) (s_x0 s) xk (rcons (s_res s) (resnorm / ld_norm ld)) err) None.

Definition pmore (s : psol) : bool :=
  [&& o_tol o < last 0 (s_res s), (q_iter (s_st s) < o_maxiter o)%N & ~~ q_inv (s_st s)].

Definition pwith_st (s : psol) (t : st) (i : nat) : psol :=
  Sol t i (s_x0 s) (s_xk s) (s_res s) (s_err s).

(** The loop body and the loop: linsys.py 624-684, 824-849, 972-993. *)
Definition pbody (s : psol) (k : psol -> prog out) : prog out :=
  let i := q_iter (s_st s) in
  let* (t, resnorm) := q_step (s_st s) in
  pfinalize (pwith_st s t i) resnorm (fun s' rkn =>
  let t := if rkn is Some r then q_feed (s_st s') r else s_st s' in
  k (pwith_st s' t (if q_incr m then i.+1 else i))).

Fixpoint ploop (fuel : nat) (s : psol) : prog out :=
  if pmore s then
    match fuel with
    | 0 => Throw OutOfFuel
    | f.+1 => pbody s (ploop f)
    end
  else
    match s_xk s with
    | Some _ => Ret (Returns s)
    | None => let* x := q_getx (s_st s) in
        Ret (Returns (Sol (s_st s) (s_iter s) (s_x0 s) (Some x) (s_res s) (s_err s)))
    end.
End Run.

(** LinearSystem(...) followed by _KrylovSolver.__init__, linsys.py 343-405 *)
Definition prun (o : opts C) (m : pmethod) (x0 : option vec) : prog (outcome C vec (q_st m)) :=
  let* ld := plinsys in
  let* r0 := presidual ld x0 in
  let zb := ld_norm ld == 0 in
  let x0' := if zb then 0 else if x0 is Some x then x else 0 in
  let xk := if zb then Some 0 else None in
  let res := [:: if zb then 0 else r0.2 / ld_norm ld] in
  let* err := (if exact is Some e then let* n := pnorm (e - x0') None in Ret [:: n] else Ret [::]) in
  let* t := q_start m r0 x0' in
  ploop o ld (o_maxiter o) (Sol t 0 x0' xk res err).

Variable snorm : nat -> nat -> (nat -> nat -> C) -> C.
Variable maxiter : nat.

(** Arnoldi.__init__ with Mv and Mv_norm, utils.py 909-952 *)
Definition parn_init (ortho : ortho_t) (v Mv : vec) (Mv_norm : C) : prog (arn C N) :=
  let start v a :=
    if 0 < a_vnorm a
    then Arn 0 (upd (a_V a) 0 ((a_vnorm a)^-1 *: v)) (a_P a) (a_H a) false (a_vnorm a) (a_houses a)
    else Arn 0 (a_V a) (a_P a) (a_H a) true (a_vnorm a) (a_houses a) in
  match ortho with
  | Householder =>
    if hasM || ~~ euclid then Throw ArgumentError else
    if N is 0 then Throw IndexError else
    Ret (start v (Arn 0 (fun _ => 0) (fun _ => 0) (fun _ _ => 0) false (norm2 v) [:: house_at 0 v]))
  | OrthoOther => Throw ArgumentError
  | _ =>
    let P : nat -> vec := if hasM && (0 < Mv_norm) then upd (fun _ => 0) 0 (Mv_norm^-1 *: v) else fun _ => 0 in
    Ret (start (if hasM then Mv else v) (Arn 0 (fun _ => 0) P (fun _ _ => 0) false Mv_norm [::]))
  end.

(** The branch mgs / dmgs / lanczos of Arnoldi.advance, utils.py 993-1048 *)
Definition padvance_gs (ortho : ortho_t) (a : arn C N) : prog (arn C N) :=
  let k := a_iter a in
  let V := a_V a in let P := a_P a in
  let W := if hasM then P else V in
  let* Av := pMlAMr (V k) in
  let start := if is_lanczos ortho then k else 0%N in
  let '(H, Av) :=
    if is_lanczos ortho && (0 < k)%N then
      let H := upd2 (a_H a) k.-1 k (a_H a k k.-1) in (H, Av - H k k.-1 *: W k.-1)
    else (a_H a, Av) in
  let* (H, Av) := pfor 0 (reorthos ortho).+1 (fun _ s =>
      pfor start (k.+1 - start) (fun j '(H, Av) =>
        let* alpha := pinner (V j) Av in
        let alpha := if is_lanczos ortho then 'Re alpha else alpha in
        Ret (upd2 H j k (H j k + alpha), Av - alpha *: W j)) s) (H, Av) in
  let* MAv := (if hasM then app OpM Av else Ret Av) in
  let* nrm := pnorm Av (if hasM then Some MAv else None) in
  let H := upd2 H k.+1 k nrm in
  let* inv := lift (invariant_test snorm H k) in
  if inv then Ret (Arn k.+1 V P H true (a_vnorm a) (a_houses a))
  else if H k.+1 k == 0 then Throw DivZero
  else
    let V := upd V k.+1 ((H k.+1 k)^-1 *: MAv) in
    let P := if hasM then upd P k.+1 ((H k.+1 k)^-1 *: Av) else P in
    Ret (Arn k.+1 V P H false (a_vnorm a) (a_houses a)).

(** Arnoldi.advance, utils.py 954-1048.  The branch house (966-991) calls no operator after
    the product A * V[:, k]; it is [advance_house] with this product. *)
Definition padvance (ortho : ortho_t) (a : arn C N) : prog (arn C N) :=
  if (maxiter <= a_iter a)%N then Throw ArgumentError
  else if a_inv a then Throw ArgumentError
  else match ortho with
       | Householder =>
           let* Av := pMlAMr (a_V a (a_iter a)) in
           lift (advance_house snorm (ACfg (fun _ => Av) None IpNone Householder maxiter) a)
       | _ => padvance_gs ortho a
       end.

(** Gmres, linsys.py 941-997 *)
Definition pgmres (ortho : ortho_t) : pmethod :=
  @PMethod (gmst C N)
    (fun '(MMlr, Mlr, nr) x =>
       let* a := parn_init ortho Mlr MMlr nr in
       Ret (GmSt x a [::] (fun _ _ => 0) (upd (fun _ => 0) 0 nr)))
    (fun t => a_iter (gm_a t)) (fun t => a_inv (gm_a t))
    (fun t =>
       let k := a_iter (gm_a t) in
       let* a := padvance ortho (gm_a t) in
       let col := fun i => if (i < k.+2)%N then a_H a i k else gm_R t i k in
       let col := forn k (fun i f => rot (nth (givens0 C) (gm_G t) i) i f) col in
       let g := mk_givens (col k) (col k.+1) in
       let col := rot g k col in
       let R := fun i j => if j == k then col i else gm_R t i j in
       let y := rot g k (gm_y t) in
       Ret (GmSt (gm_x0 t) a (rcons (gm_G t) g) R y, `|y k.+1|))
    (fun t =>
       let k := a_iter (gm_a t) in
       if (0 < k)%N then
         let* yy := lift (solve_tri (gm_R t) (gm_y t) k) in
         let* z := app OpMr (\sum_(j < k) yy j *: a_V (gm_a t) j) in
         Ret (gm_x0 t + z)
       else Ret (gm_x0 t))
    (fun t _ => t) false.

(** Minres, linsys.py 791-853 *)
Definition pminres (ortho : ortho_t) : pmethod :=
  @PMethod (mrst C N)
    (fun '(MMlr, Mlr, nr) x =>
       let* a := parn_init ortho Mlr MMlr nr in Ret (MrSt x a 0 0 nr None None 0))
    (fun t => a_iter (mr_a t)) (fun t => a_inv (mr_a t))
    (fun t =>
       let k := a_iter (mr_a t) in
       let* a := padvance ortho (mr_a t) in
       let H := a_H a in
       let R0 := 0 in
       let R1 := 'Re (if k is k'.+1 then H k' k else H maxiter 0%N) in
       let '(R0, R1) := if mr_G1 t is Some g then givens_apply g R0 R1 else (R0, R1) in
       let R2 := 'Re (H k k) in
       let R3 := 'Re (H k.+1 k) in
       let '(R1, R2) := if mr_G2 t is Some g then givens_apply g R1 R2 else (R1, R2) in
       let g := mk_givens R2 R3 in
       let R2 := gr g in
       let '(y0, y1) := givens_apply g (mr_y t) 0 in
       if R2 == 0 then Throw DivZero else
       let z := R2^-1 *: (a_V a k - R0 *: mr_W0 t - R1 *: mr_W1 t) in
       Ret (MrSt (mr_x0 t) a (mr_W1 t) z y1 (mr_G2 t) (Some g) (mr_yk t + y0 *: z), `|y1|))
    (fun t => let* z := app OpMr (mr_yk t) in Ret (mr_x0 t + z))
    (fun t _ => t) false.

(** Cg, linsys.py 593-689 *)
Definition pcg (store_arnoldi : bool) : pmethod :=
  @PMethod (cgst C N)
    (fun '(MMlr, Mlr, nr) x =>
       let st := store_arnoldi && (0 < nr) in
       Ret (CgSt x 0 0 Mlr MMlr MMlr [:: nr ^+ 2]
         (if st then upd (fun _ => 0) 0 (nr^-1 *: MMlr) else fun _ => 0)
         (if st && hasM then upd (fun _ => 0) 0 (nr^-1 *: Mlr) else fun _ => 0)
         (fun _ _ => 0) 0))
    (@cg_it C N) (fun _ => false)
    (fun t =>
       let k := cg_it t in
       let rho := nth 0 (cg_rhos t) 0 in
       let rho1 := nth 0 (cg_rhos t) 1 in
       let* omega := lift (if (0 < k)%N then divE rho rho1 else Ok 0) in
       let p := if (0 < k)%N then cg_MMlr t + omega *: cg_p t else cg_p t in
       let* Ap := pMlAMr p in
       let* pAp := pinner p Ap in
       let* alpha := lift (divE rho pAp) in
       let alpha := 'Re alpha in
       let* H := lift (if store_arnoldi then
            if (0 < k)%N then
              let H := upd2 (cg_H t) k.-1 k (cg_H t k k.-1) in
              let! q := divE (alpha * omega) (cg_alpha t) in
              let! r := divE (1 + q) alpha in
              Ok (upd2 H k k r)
            else let! r := divE 1 alpha in Ok (upd2 (cg_H t) k k r)
          else Ok (cg_H t)) in
       let yk := cg_yk t + alpha *: p in
       let Mlr := cg_Mlr t - alpha *: Ap in
       let* MMlr := app OpM Mlr in
       let* nr := pnorm Mlr (Some MMlr) in
       let rhos := nr ^+ 2 :: cg_rhos t in
       let* (V, P, H) := lift (if store_arnoldi then
            if nr == 0 then Err DivZero else
            let! q := divE (nth 0 rhos 0) (nth 0 rhos 1) in
            let! h := divE (sqrtC q) alpha in
            Ok (upd (cg_V t) k.+1 (((-1) ^+ k.+1 / nr) *: MMlr),
                if hasM then upd (cg_P t) k.+1 (((-1) ^+ k.+1 / nr) *: Mlr) else cg_P t,
                upd2 H k.+1 k h)
          else Ok (cg_V t, cg_P t, H)) in
       Ret (CgSt (cg_x0 t) k.+1 yk Mlr MMlr p rhos V P H alpha, nr))
    (fun t => let* z := app OpMr (cg_yk t) in Ret (cg_x0 t + z))
    (@cg_feed C N) true.
End Calls.

(** The constructors for a linear system *)
Section Programs.
Variable C : numClosedFieldType.
Variable N : nat.
Variable snorm : nat -> nat -> (nat -> nat -> C) -> C.
Variable l : lsys C N.
Definition is_none (B : ipB C N) : bool := if B is IpNone then true else false.
Definition gmres_prog (o : opts C) (ortho : ortho_t) (x0 : option 'cV[C]_N) :=
  prun (lb l) (lexact l) o (pgmres N (lM l) (is_none (lB l)) snorm (o_maxiter o) ortho) x0.
Definition minres_prog (o : opts C) (ortho : ortho_t) (x0 : option 'cV[C]_N) :=
  prun (lb l) (lexact l) o (pminres N (lM l) (is_none (lB l)) snorm (o_maxiter o) ortho) x0.
Definition cg_prog (o : opts C) (store_arnoldi : bool) (x0 : option 'cV[C]_N) :=
  prun (lb l) (lexact l) o (@pcg C N (lM l) store_arnoldi) x0.
End Programs.
