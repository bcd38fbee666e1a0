From mathcomp Require Import all_ssreflect all_algebra.
From mathcomp Require Import ring.
From Verif Require Import Base Spec.LinAlg Proof.Algebra Model.Inner Spec.Inner Proof.Inner Model.Arnoldi.
From Verif Require Import Spec.Arnoldi Proof.IpTheory Proof.ArnoldiRel Proof.Arnoldi Proof.HouseArnoldi Proof.ArnoldiAll.
From Verif Require Import Model.Solver Spec.Solver Proof.Solver Proof.SolverInv Properties.Solver.
From Verif Require Import Model.LinearSystem Model.Krylov Spec.Krylov Proof.Projected Proof.Gmres.

Set Implicit Arguments.
Unset Strict Implicit.
Unset Printing Implicit Defensive.
Import Order.TTheory GRing.Theory Num.Theory.
Local Open Scope ring_scope.

Section Rots.
Variable C : numClosedFieldType.

Lemma rots_low (G : nat -> givens C) m f : (forall i, (i <= m)%N -> f i = 0) -> rots G m f =1 f.
Proof.
elim: m => [|m IH] h i //; rewrite /rots /= (@rot_ext _ _ _ _ f); last first.
  by apply: IH => j hj; apply: h; rewrite ltnW.
rewrite rotE; have [h1 h2] : f m = 0 /\ f m.+1 = 0 by split; apply: h.
rewrite h1 h2 !mulr0 !addr0.
by case: eqP => [->|_]; [rewrite h2|case: eqP => [->|_]; rewrite ?h1].
Qed.

Definition sel (T : Type) (x : T) (f : nat -> T) (n j : nat) : T :=
  if (j <= n)%N then f (n - j)%N else x.

Lemma sel_upd (S T : Type) (x : T) (F : S -> T) (f : nat -> S) (v : S) n :
  sel x (fun k => F (upd f n v k)) n.+1 2 = sel x (fun k => F (f k)) n 1 /\
  sel x (fun k => F (upd f n v k)) n.+1 1 = F v.
Proof.
rewrite /sel /upd !subSS !subn0 eqxx; split=> //; case: n => //= k.
by rewrite !subSS subn0 ltn_eqF.
Qed.

(** Three entries remain of a column of a tridiagonal matrix after the rotations. *)
Lemma band_col (G : nat -> givens C) n (h : nat -> C) x : (forall i, (i.+1 < n)%N -> h i = 0) ->
  let col := rots G n h in
  let G1 := sel None (fun k => Some (G k)) n 2 in
  let G2 := sel None (fun k => Some (G k)) n 1 in
  let r10 := if n is k.+1 then h k else x in
  let r01 := if G1 is Some g then givens_apply g 0 r10 else (0, r10) in
  let r12 := if G2 is Some g then givens_apply g r01.2 (h n) else (r01.2, h n) in
  [/\ col n = r12.2, (2 <= n)%N -> col (n - 2)%N = r01.1,
      (1 <= n)%N -> col (n - 1)%N = r12.1 & forall i, (i < n - 2)%N -> col i = 0].
Proof.
case: n => [|[|k]] h0 col G1 G2 r10 r01 r12.
- by split.
- by rewrite /r12 /col /rots /= !rotE /=; split.
have lo : rots G k h =1 h by apply: rots_low => i hi; apply: h0; rewrite !ltnS.
have hk : h k = 0 by apply: h0.
have e i : col i = rot (G k.+1) k.+1 (rot (G k) k h) i.
  by rewrite /col /rots /=; apply: rot_ext; apply: rot_ext; apply: lo.
rewrite /r12 /r01 /G2 /G1 /sel /= !subSS !subn0 !e !rotE !eqxx !eqSS.
have n1 : (k.+1 == k) = false by rewrite gtn_eqF.
have n2 : (k == k.+1) = false by rewrite ltn_eqF.
have n3 : (k == k.+2) = false by rewrite ltn_eqF // ltnW.
have n4 : (k.+2 == k) = false by rewrite gtn_eqF // ltnW.
rewrite !n1 !n2 ?n3 ?n4 !hk /=; split=> // i hi; rewrite e !rotE.
have hi2 : (i < k.+1)%N by apply: ltnW.
have hi3 : (i < k.+2)%N by apply: ltnW.
by rewrite (ltn_eqF hi) (ltn_eqF hi2) (ltn_eqF hi3); apply: h0; rewrite !ltnS ltnW.
Qed.
End Rots.

Section Mr.
Variable C : numClosedFieldType.
Variable N : nat.
Local Notation vec := 'cV[C]_N.
Variables (d : kdata C N) (ys : sys C vec) (x0 : option vec) (r0 : vec) (maxiter : nat).
Variable snorm : nat -> nat -> (nat -> nat -> C) -> C.
Hypothesis hd : kd_ok d ys x0 r0.
Local Notation ip := (ip1 (k_B d)).
Local Notation A := (k_A d).
Local Notation M := (k_Mop d).
Local Notation K n := (in_krylov A M r0 n).
Local Notation rn := (rnorm ip A M r0).
Variable ortho : ortho_t.
Local Notation c := (k_cfg d maxiter ortho).
Hypothesis hc : arn_cfg c.
Hypothesis hsa : self_adjoint ip A.

(** The part of the state that the Arnoldi process determines, with the rotations G, the
    triangular factor R and the transformed right hand side Y that MINRES does not store. *)
Record mr_arn (a : arn C N) (G : nat -> givens C) (R : nat -> nat -> C) (Y : nat -> C) : Prop := MrArn {
  ma_st : arn_st c r0 a;
  ma_q : qr_state (a_iter a) (a_H a) R G (rhs ip M r0) Y;
  ma_nz : (0 < a_iter a)%N -> r0 != 0;
  ma_z : a_iter a = 0%N -> a_inv a = (r0 == 0);
  ma_inv : forall k, a_iter a = k.+1 ->
    a_inv a = (a_H a k.+1 k / snorm k.+2 k.+1 (a_H a) <= eps14 C) }.

Record mr_ok (t : mrst C N) (G : nat -> givens C) (R : nat -> nat -> C) (Y : nat -> C) (z : nat -> vec) : Prop := MrOk {
  mi_a : mr_arn (mr_a t) G R Y;
  mi_x0 : mr_x0 t = x0_of x0;
  mi_G1 : mr_G1 t = sel None (fun k => Some (G k)) (a_iter (mr_a t)) 2;
  mi_G2 : mr_G2 t = sel None (fun k => Some (G k)) (a_iter (mr_a t)) 1;
  mi_W0 : mr_W0 t = sel 0 z (a_iter (mr_a t)) 2;
  mi_W1 : mr_W1 t = sel 0 z (a_iter (mr_a t)) 1;
  mi_y : mr_y t = Y (a_iter (mr_a t));
  mi_V : forall j, (j < a_iter (mr_a t))%N -> a_V (mr_a t) j = \sum_(i < j.+1) R i j *: z i;
  mi_d : forall j, (j < a_iter (mr_a t))%N -> R j j != 0;
  mi_yk : mr_yk t = \sum_(j < a_iter (mr_a t)) Y j *: z j }.

Definition mr_inv (t : mrst C N) : Prop := exists G R Y z, mr_ok t G R Y z.

Lemma ma_m a G R Y : mr_arn a G R Y -> ncols a = (a_iter a).+1 \/
  ncols a = a_iter a /\ ((0 < a_iter a)%N \/ r0 = 0).
Proof.
move=> h; rewrite /ncols; case E: (a_inv a) => /=; last by left; rewrite addn1.
right; rewrite addn0; split=> //; case: (posnP (a_iter a)) => n0; [right|by left].
by apply/eqP; rewrite -(ma_z h n0).
Qed.

Lemma ma_hm a G R Y : mr_arn a G R Y ->
  arnoldi_rel ip A M r0 (a_iter a) (ncols a) (a_V a) (Pb c a) (a_H a).
Proof. by move=> h; have := (ma_st h).1. Qed.

Lemma ma_min a G R Y cc : mr_arn a G R Y -> solve_tri R Y (a_iter a) = Ok cc ->
  let z := \sum_(j < a_iter a) cc j *: a_V a j in
  minimizer rn (K (a_iter a)) z /\ rn z = `|Y (a_iter a)|.
Proof.
move=> h E; split.
  exact: (solve_min (ko_B hd) (ko_A hd) (ko_M hd) (ko_Msa hd) (ko_Mpd hd) (ma_hm h) (ma_m h) (ma_nz h) (ma_q h) E).
by have [] := rnorm_solve (ko_B hd) (ko_A hd) (ko_M hd) (ko_Msa hd) (ko_Mpd hd) (ma_hm h) (ma_m h) (ma_nz h) (ma_q h) E.
Qed.

(** The auxiliary vectors represent the solution of the projected problem. *)
Lemma mr_solve t G R Y z : mr_ok t G R Y z -> exists cc, solve_tri R Y (a_iter (mr_a t)) = Ok cc /\
  mr_yk t = \sum_(j < a_iter (mr_a t)) cc j *: a_V (mr_a t) j.
Proof.
move=> h; have [cc Ec] := solve_tri_total Y (mi_d h); exists cc; split=> //.
have [_ hs] := solve_tri_ok Ec; have {}hs := hs (q_tri (ma_q (mi_a h))).
set n := a_iter (mr_a t) in hs *.
have tri : forall i j : 'I_n, (i < j)%N = false -> i != j -> R j i = 0 -> true by [].
rewrite (mi_yk h) -/n (eq_bigr (fun i : 'I_n => \sum_(j < n) (cc j * R i j) *: z i)); last first.
  by move=> i _; rewrite -scaler_suml hs.
rewrite exchange_big /=; apply: eq_bigr => j _.
rewrite (mi_V h) // scaler_sumr (big_ord_widen n (fun i => cc j *: (R i j *: z i))) //.
rewrite [RHS]big_mkcond /=; apply: eq_bigr => i _; case: ifP => hij; first by rewrite scalerA.
by rewrite (q_tri (ma_q (mi_a h))) ?mulr0 ?scale0r // ltnNge -ltnS hij.
Qed.

Lemma mr_start_inv t : minres_start d maxiter ortho x0 (x0_of x0) = Ok t -> mr_inv t.
Proof.
rewrite /minres_start; have [a [-> h1 h2 h3 h4]] := k_arn_ok hd hc => /= -[<-].
exists (fun _ => givens0 C), (fun _ _ => 0), (rhs ip M r0), (fun _ => 0).
split=> //=; try by rewrite h2.
- by split=> //; rewrite h2 //; exact: qr0.
- by rewrite h2 big_ord0.
Qed.

(** One step: the Arnoldi part. *)
Section Step.
Variables (t : mrst C N) (G : nat -> givens C) (R : nat -> nat -> C) (Y : nat -> C) (z : nat -> vec) (a : arn C N).
Hypothesis h : mr_ok t G R Y z.
Hypothesis hinv : a_inv (mr_a t) = false.
Hypothesis Ea : advance snorm c (mr_a t) = Ok a.
Let n := a_iter (mr_a t).
Let col := rots G n (fun i => a_H a i n).
Let g := mk_givens (col n) (col n.+1).
Let G' := upd G n g.
Let R' := fun i j => if j == n then rot g n col i else R i j.
Let Y' := rot g n Y.

Lemma mr_step_nz : r0 != 0.
Proof.
case: (posnP n) => n0; last exact: (ma_nz (mi_a h)).
by have := ma_z (mi_a h) n0; rewrite hinv => /esym/negbT.
Qed.

Lemma mr_step_arn : [/\ a_iter a = n.+1, mr_arn a G' R' Y' & forall j, (j <= n)%N -> a_V a j = a_V (mr_a t) j].
Proof.
have [g1 g2 g3 g4 [g5 g6]] := arn_step hc (ma_st (mi_a h)) Ea; rewrite -/n in g3 g4 g6.
have nz := mr_step_nz.
have R1 := (ma_st (mi_a h)).1; have R2 := g1.1.
have nc1 : ncols (mr_a t) = n.+1 by rewrite /ncols hinv addn1.
rewrite /arn_ok nc1 -/n in R1; rewrite /arn_ok g4 in R2.
have nc2 : (n.+1 <= ncols a)%N by rewrite /ncols g4 leq_addr.
have uq j : (j < n.+1)%N -> _ := rel_unique (ko_B hd) (ko_M hd) (ko_Msa hd) (ko_Mpd hd) R1 R2 nz
    (leqnn n.+1) nc2 (leqnn _) (leqW (leqnn _)) (j := j).
have eH i j : (j < n)%N -> a_H a i j = a_H (mr_a t) i j.
  by move=> hj; have [_ _ e] := uq j (leqW hj); rewrite e // ltnW.
split=> //; last by move=> j hj; have [_ -> _] := uq j hj.
split=> //; rewrite ?g4 //; last by move=> k [<-].
apply: (qr_step (ma_q (mi_a h))) => //.
- by move=> i hi; rewrite (ar_hess R2) // hi.
- by move=> i hi; rewrite /G' updN // ltn_eqF.
- by rewrite /G' updE.
- by move=> i j; rewrite /G' updE.
- by move=> i; rewrite /G' updE.
Qed.

(** The new column of R has three entries. *)
Let H := a_H a.
Let R10 := 'Re (if n is k'.+1 then H k' n else H maxiter 0%N).
Let R01 := if mr_G1 t is Some g then givens_apply g 0 R10 else (0, R10).
Let R12 := if mr_G2 t is Some g then givens_apply g R01.2 ('Re (H n n)) else (R01.2, 'Re (H n n)).

Lemma mr_step_col :
  [/\ col n = R12.2, col n.+1 = 'Re (H n.+1 n), (2 <= n)%N -> col (n - 2)%N = R01.1,
      (1 <= n)%N -> col (n - 1)%N = R12.1 & forall i, (i < n - 2)%N -> col i = 0].
Proof.
have [e1 e2 _] := mr_step_arn.
have Rl := ma_hm e2; rewrite e1 in Rl.
have nm : (n.+1 <= ncols a)%N by rewrite -e1 leq_addr.
have [re sy bd] := rel_herm (ko_B hd) (ko_M hd) (ko_Msa hd) (ko_Mpd hd) hsa Rl nm.
have real i j : (i < n.+1)%N -> (j < n.+1)%N -> 'Re (H i j) = H i j.
  by move=> hi hj; apply/Creal_ReP; apply: re.
have hn1 : 'Re (H n.+1 n) = H n.+1 n.
  apply/Creal_ReP; have [w [_ _ e _]] := ar_step Rl (ltnSn n); rewrite /H e; apply: ger0_real.
  exact: (ipnorm_ge0 (ArnoldiRel.hmp (ko_B hd) (ko_M hd) (ko_Msa hd) (ko_Mpd hd))).
have cn1 : col n.+1 = 'Re (H n.+1 n) by rewrite hn1 /col rots_out.
have [|c1 c2 c3 c4] := @band_col _ G n (fun i => H i n) ('Re (H maxiter 0%N)).
  by move=> i hi; apply: bd.
have e10 : R10 = (if n is k.+1 then H k n else 'Re (H maxiter 0%N)).
  by rewrite /R10; case: n real => // k real; rewrite real.
rewrite -e10 -(mi_G1 h) -(mi_G2 h) -/R01 -(real n n) // -/R12 in c1 c2 c3.
Qed.

(** The diagonal entry that is tested for zero is the new diagonal entry of R. *)
Lemma mr_step_R : gr (mk_givens R12.2 ('Re (H n.+1 n))) = R' n n /\ g = mk_givens R12.2 ('Re (H n.+1 n)).
Proof.
have [c1 c2 _ _ _] := mr_step_col; split; last by rewrite /g c1 c2.
rewrite /R' eqxx rotE [n == n.+1]ltn_eqF // eqxx -c1 -c2 -/g.
by rewrite /g /mk_givens; case: ifP => _; [case: drotg|case: zrotg].
Qed.

Let znew := (R' n n)^-1 *: (a_V a n - R01.1 *: mr_W0 t - R12.1 *: mr_W1 t).
Let t' := MrSt (mr_x0 t) a (mr_W1 t) znew (givens_apply g (mr_y t) 0).2 (mr_G2 t) (Some g)
            (mr_yk t + (givens_apply g (mr_y t) 0).1 *: znew).

Lemma mr_stepE : minres_step snorm d maxiter ortho t =
  if R' n n == 0 then Err DivZero else Ok (t', `|(givens_apply g (mr_y t) 0).2|).
Proof.
have [e1 e2] := mr_step_R.
rewrite /minres_step Ea /= -/n -/H -/R10.
have -> : (if mr_G1 t is Some g0 then givens_apply g0 0 R10 else (0, R10)) = R01 by [].
case E1: R01 => [p1 p2].
have -> : (if mr_G2 t is Some g0 then givens_apply g0 p2 ('Re (H n n)) else (p2, 'Re (H n n))) = R12.
  by rewrite /R12 E1.
case E2: R12 => [q1 q2]; rewrite E2 /= in e1 e2; rewrite e1 -e2.
case: ifP => // _; rewrite /t' /znew E1 E2 /=.
by case: (givens_apply g (mr_y t) 0).
Qed.

Lemma mr_step_ok : R' n n != 0 -> mr_ok t' G' R' Y' (upd z n znew).
Proof.
move=> nz; have [e1 e2 e3] := mr_step_arn; have [c1 c2 c3 c4 c5] := mr_step_col.
have Yn1 : Y n.+1 = 0.
  by rewrite (q_y (ma_q (mi_a h))) rots_out // /rhs.
have oth j : (j < n)%N -> upd z n znew j = z j by move=> hj; rewrite updN // ltn_eqF.
have R'o i j : (j < n)%N -> R' i j = R i j by move=> hj; rewrite /R' ltn_eqF.
have R'n i : (i < n)%N -> R' i n = col i.
  by move=> hi; rewrite /R' eqxx rotE [i == n.+1]ltn_eqF ?[i == n]ltn_eqF // ltnW.
have yn : (givens_apply g (mr_y t) 0).1 = Y' n /\ (givens_apply g (mr_y t) 0).2 = Y' n.+1.
  by rewrite (mi_y h) -/n /Y' !rotE eqxx [n == n.+1]ltn_eqF // eqxx Yn1.
split=> //=; rewrite ?e1.
- exact: mi_x0 h.
- by rewrite (mi_G2 h) -/n /G' (proj1 (sel_upd _ (fun k => Some k) _ _ _)).
- by rewrite /G' (proj2 (sel_upd _ (fun k => Some k) _ _ _)).
- by rewrite (mi_W1 h) -/n (proj1 (sel_upd _ id _ _ _)).
- by rewrite (proj2 (sel_upd _ id _ _ _)).
- by case: yn.
- move=> j; rewrite ltnS leq_eqVlt => /orP[/eqP->|hj].
  + rewrite big_ord_recr /= updE scalerA mulfV // scale1r.
    suff -> : \sum_(i < n) R' i n *: upd z n znew i = R01.1 *: mr_W0 t + R12.1 *: mr_W1 t.
      by rewrite addrC -[X in _ = X + _]addrA -opprD subrK.
    rewrite (eq_bigr (fun i : 'I_n => col i *: z i)); last by move=> i _; rewrite R'n // oth.
    rewrite (mi_W0 h) (mi_W1 h) -/n /sel.
    case en: n c3 c4 c5 => [|[|k]] c3 c4 c5.
    * by rewrite big_ord0 !scaler0 addr0.
    * by rewrite big_ord1 /= scaler0 add0r -c4 ?subnn.
    * rewrite !big_ord_recr /= big1 ?add0r; last first.
        by move=> i _; rewrite c5 ?scale0r // !subSS subn0.
      by rewrite -c3 // -c4 // !subSS !subn0.
  + by rewrite e3 1?ltnW // (mi_V h) //; apply: eq_bigr => i _; rewrite R'o // oth // (leq_ltn_trans _ hj) // -ltnS.
- by move=> j; rewrite ltnS leq_eqVlt => /orP[/eqP->//|hj]; rewrite R'o // (mi_d h).
- rewrite big_ord_recr /= updE -(proj1 yn) (mi_yk h) -/n; congr (_ + _).
  apply: eq_bigr => i _; rewrite oth // /Y' rotE [_ == n.+1]ltn_eqF ?[_ == n]ltn_eqF //.
  by rewrite ltnS ltnW.
Qed.
End Step.

Lemma mr_step_inv t t' r : mr_inv t -> a_inv (mr_a t) = false ->
  minres_step snorm d maxiter ortho t = Ok (t', r) ->
  [/\ mr_inv t', a_iter (mr_a t') = (a_iter (mr_a t)).+1 & r = `|mr_y t'|].
Proof.
move=> [G [R [Y [z h]]]] hinv E.
have [a Ea] : exists a, advance snorm c (mr_a t) = Ok a.
  by move: E; rewrite /minres_step => E; have [a Ea _] := bind_ok E; exists a.
move: E; rewrite (mr_stepE h hinv Ea); case: ifP => // /negbT nz [<- <-]; split=> //=.
- by do 4 eexists; apply: (mr_step_ok h hinv Ea).
- by have [] := mr_step_arn h hinv Ea.
Qed.

Lemma mr_min t : mr_inv t -> minimizer rn (K (a_iter (mr_a t))) (mr_yk t) /\
  rn (mr_yk t) = `|mr_y t|.
Proof.
move=> [G [R [Y [z h]]]]; have [cc [Ec ->]] := mr_solve h.
by rewrite (mi_y h); apply: (ma_min (mi_a h) Ec).
Qed.

Lemma mr_min_res t : mr_inv t -> min_res d r0 (a_iter (mr_a t)) `|mr_y t|.
Proof. by move=> h; have [h1 h2] := mr_min h; eexists; [exact: h1|]. Qed.

Lemma mr_x0E t : mr_inv t -> mr_x0 t = x0_of x0.
Proof. by case=> G [R [Y [z h]]]; apply: mi_x0 h. Qed.

Lemma minres_good : good_method (minres snorm d maxiter ortho).
Proof.
split=> //.
- move=> x1 x t; rewrite /= /minres_start /k_arn; case: (k_res0 d x1) => [[[MMlr Mlr] nr]|e] //=.
  case E: (arn_init _ _ _ _) => [a|e] //= [<-] /=.
  move: E; rewrite /arn_init => E; have [[v a'] _] := bind_ok E.
  by case: ifP => _ [<-].
- move=> t t' r; rewrite /= /minres_step => E; have [a Ea] := bind_ok E => {E}.
  have := advance_cases snorm c (mr_a t); rewrite Ea => e.
  case: (if mr_G1 t is Some g then _ else _) => p1 p2.
  case: (if mr_G2 t is Some g then _ else _) => q1 q2.
  by case: (givens_apply _ _ _) => y0 y1; case: ifP => // _ [<- _].
Qed.
End Mr.

Section Run.
Variable C : numClosedFieldType.
Variable N : nat.
Local Notation vec := 'cV[C]_N.
Variables (d : kdata C N) (ys : sys C vec) (x0 : option vec) (r0 : vec) (o : opts C).
Variable snorm : nat -> nat -> (nat -> nat -> C) -> C.
Variable ortho : ortho_t.
Hypothesis hd : kd_ok d ys x0 r0.
Hypothesis hc : arn_cfg (k_cfg d (o_maxiter o) ortho).
Local Notation ip := (ip1 (k_B d)).
Local Notation A := (k_A d).
Local Notation M := (k_Mop d).
Local Notation K n := (in_krylov A M r0 n).
Local Notation rn := (rnorm ip A M r0).
Hypothesis hsa : self_adjoint ip A.
Local Notation mr := (minres snorm d (o_maxiter o) ortho).
Local Notation inv := (mr_inv d x0 r0 (o_maxiter o) snorm ortho).
Let good := minres_good d (o_maxiter o) snorm ortho.

Lemma minres_run s : y_bnorm ys != 0 -> of_run (krun ys o mr x0) s ->
  [/\ inv (s_st s), size (s_res s) = (m_iter (s_st s)).+1,
      forall i, (i <= m_iter (s_st s))%N ->
         exists2 r, min_res d r0 i r & nth 0 (s_res s) i = r / y_bnorm ys
    & exists z x, [/\ s_xk s = Some x, minimizer rn (K (m_iter (s_st s))) z &
                      k_fix d (x0_of x0 + k_Mr d z) = Ok x]].
Proof.
move=> nb; have := @run_good C vec (fun a b => b < a) (fun a b => a <= b) (fun a => a == 0)
  (fun a b => a / b) 0 (0 : vec) ys o mr x0 good inv (min_res d r0).
have -> : (if x0 is Some x then x else 0) = x0_of x0 by [].
move=> h; have {}h := h (mr_start_inv snorm hd hc).
have hq r : m_r0 mr x0 = Ok r -> min_res d r0 0 r.
  by rewrite /= /r0_norm (ko_res hd) => /= -[<-]; apply: (min_res0 hd).
have hs (t t' : m_st mr) r : inv t -> m_inv t = false -> (m_iter t < o_maxiter o)%N ->
   m_step t = Ok (t', r) -> inv t' /\ (m_inv t' = false \/ is_ok (m_getx t') -> min_res d r0 (m_iter t') r).
  move=> i1 i2 _ E; have [j1 j2 ->] := mr_step_inv hd hc hsa i1 i2 E; split=> // _.
  exact: (mr_min_res hd j1).
have gx (t : m_st mr) x : inv t -> m_getx t = Ok x -> k_fix d (x0_of x0 + k_Mr d (mr_yk t)) = Ok x.
  by move=> i1; rewrite /= /minres_getx (mr_x0E i1).
have hx (t : m_st mr) x r : inv t -> (0 < m_iter t)%N -> m_getx t = Ok x -> y_resnorm ys x = Ok r ->
   min_res d r0 (m_iter t) r /\ inv (m_feed t r).
  move=> i1 _ /(gx _ _ i1) E Er; split=> //; have [k1 k2] := mr_min hd i1; eexists; first exact: k1.
  by have [x' h3] := ko_fix hd (mr_yk t); move: h3; rewrite E => -[<-]; rewrite Er => -[].
have {}h := h hq hs hx (negbTE nb).
have go : inv (s_st s) -> allQ (fun a b => a / b) 0 ys (min_res d r0) (s_res s) ->
  size (s_res s) = (m_iter (s_st s)).+1 -> forall x, s_xk s = Some x -> m_getx (s_st s) = Ok x ->
  [/\ inv (s_st s), size (s_res s) = (m_iter (s_st s)).+1,
      forall i, (i <= m_iter (s_st s))%N ->
         exists2 r, min_res d r0 i r & nth 0 (s_res s) i = r / y_bnorm ys
    & exists z x, [/\ s_xk s = Some x, minimizer rn (K (m_iter (s_st s))) z &
                      k_fix d (x0_of x0 + k_Mr d z) = Ok x]].
  move=> j1 j2 j3 x ex /(gx _ _ j1) Ex; split=> //; first by move=> i hi; apply: j2; rewrite j3 ltnS.
  by exists (mr_yk (s_st s)), x; split=> //; have [] := mr_min hd j1.
by case=> E; move: h; rewrite -/(krun ys o mr x0) E => -[j1 j2 j3 [x ex Ex]]; apply: go ex Ex.
Qed.

Let hmp := ArnoldiRel.hmp (ko_B hd) (ko_M hd) (ko_Msa hd) (ko_Mpd hd).

Section Inj.
Hypothesis inj : krylov_inj A M r0.
Hypothesis hb : bounds_entries snorm.
Hypothesis nb : y_bnorm ys != 0.
Hypothesis he : forall en x, y_errnorm ys = Some en -> exists e, en x = Ok e.

Lemma ma_diag a G R Y : mr_arn d r0 (o_maxiter o) snorm ortho a G R Y ->
  forall j, (j < a_iter a)%N -> R j j != 0.
Proof.
move=> h; have [|cc Ec] := tri_injective (ko_B hd) (ko_A hd) (ko_M hd) (ko_Msa hd) (ko_Mpd hd)
  (ma_hm h) (ma_m h) (ma_nz h) (ma_q h) inj; first exact: leq_addr.
by have [] := solve_tri_ok Ec.
Qed.

Lemma mr_step_total t : inv t -> a_inv (mr_a t) = false -> (a_iter (mr_a t) < o_maxiter o)%N ->
  exists t' r, minres_step snorm d (o_maxiter o) ortho t = Ok (t', r).
Proof.
move=> [G [R [Y [z h]]]] hinv hm.
have nz := mr_step_nz h hinv.
have [|a Ea] := arn_total hc (ma_st (mi_a h)) hb nz _ (negbT hinv) hm.
  by apply: contra nz => /eqP h0; rewrite (AM_injective hd inj h0).
rewrite (mr_stepE hd hc hsa h hinv Ea).
have [e1 e2 _] := mr_step_arn hd hc h hinv Ea.
have := ma_diag e2; rewrite e1 => /(_ _ (ltnSn _))/negbTE->.
by do 2 eexists.
Qed.

Lemma minres_no_raise : no_raise (krun ys o mr x0).
Proof.
apply: (@run_total _ _ _ _ _ _ _ _ _ _ _ _ good inv).
- exact: negbTE.
- by rewrite /= /r0_norm (ko_res hd) /=; eexists.
- have [x h _] := ko_fix hd 0; exists x; rewrite -h (lin0 (ko_Mr hd)) addr0 //.
- exact: he.
- have [a [E _ _ _ _]] := k_arn_ok hd hc.
  have [t Es] : exists t, minres_start d (o_maxiter o) ortho x0 (x0_of x0) = Ok t.
    by rewrite /minres_start E /=; eexists.
  by eexists; [exact: Es|apply: (mr_start_inv snorm hd hc Es)].
- move=> t hi hinv hm; have [t' [r Es]] := mr_step_total hi hinv hm.
  exists t', r; split=> //.
  by have [] := mr_step_inv hd hc hsa hi hinv Es.
- move=> t hi; rewrite /= /minres_getx (mr_x0E hi).
  by have [x h1 h2] := ko_fix hd (mr_yk t); exists x => //; eexists; [exact: h2|].
Qed.

Lemma mr_lucky t : inv t -> (0 < a_iter (mr_a t))%N ->
  a_H (mr_a t) (a_iter (mr_a t)) (a_iter (mr_a t)).-1 = 0 ->
  min_res d r0 (a_iter (mr_a t)) 0.
Proof.
move=> hi n0 h0; have := mr_min_res hd hi; case: hi => [G [R [Y [z h]]]].
rewrite (mi_y h); suff -> : Y (a_iter (mr_a t)) = 0 by rewrite normr0.
apply: (q_lucky (ma_q (mi_a h))) (h0) _ _; first by rewrite prednK.
  by apply: (mi_d h); rewrite prednK.
by case: (a_iter (mr_a t)) n0.
Qed.

Lemma mr_full t : inv t -> (0 < N)%N -> a_iter (mr_a t) = N ->
  a_H (mr_a t) (a_iter (mr_a t)) (a_iter (mr_a t)).-1 = 0.
Proof.
move=> [G [Rr [Y [z h]]]] N0 e; have R := ma_hm (mi_a h); rewrite e.
apply: (rel_last0 (ko_B hd) (ko_M hd) (ko_Msa hd) (ko_Mpd hd) R) => //.
exact: leq_addr.
Qed.
End Inj.

Lemma mr_iter_le t : inv t -> (a_iter (mr_a t) <= N)%N.
Proof.
move=> [G [R [Y [z h]]]]; apply: leq_trans (leq_addr _ _) (_ : ncols (mr_a t) <= N)%N.
exact: (rel_size (ko_B hd) (ko_M hd) (ko_Msa hd) (ko_Mpd hd) (ma_hm (mi_a h))).
Qed.

Lemma mr_res_last (s : sol C vec (m_st mr)) : size (s_res s) = (m_iter (s_st s)).+1 ->
  last 0 (s_res s) = nth 0 (s_res s) (m_iter (s_st s)).
Proof. by rewrite (last_nth 0); case: (s_res s) => //= a q [->]. Qed.

Lemma minres_finite : krylov_inj A M r0 -> bounds_entries snorm -> 0 < y_bnorm ys ->
  (forall en x, y_errnorm ys = Some en -> exists e, en x = Ok e) ->
  (0 < N)%N -> (N <= o_maxiter o)%N -> 0 <= o_tol o ->
  exists2 s, krun ys o mr x0 = Returns s &
    (a_iter (mr_a (s_st s)) <= N)%N /\
    (last 0 (s_res s) <= o_tol o \/
     exists k, a_iter (mr_a (s_st s)) = k.+1 /\
       0 < a_H (mr_a (s_st s)) k.+1 k <= eps14 C * snorm k.+2 k.+1 (a_H (mr_a (s_st s)))).
Proof.
move=> inj hb bn he N0 hm tol0.
have nb : y_bnorm ys != 0 by rewrite gt_eqF.
have nr := minres_no_raise inj hb nb he.
have real_res s i : of_run (krun ys o mr x0) s -> (i <= m_iter (s_st s))%N -> nth 0 (s_res s) i \is Num.real.
  move=> /(minres_run nb)[_ _ h _] /h[r [z _ ->] ->].
  by rewrite ger0_real // divr_ge0 ?(ltW bn) // sqrtC_ge0; apply: (ip_ge0' hmp).
have lucky s : of_run (krun ys o mr x0) s -> (0 < m_iter (s_st s))%N ->
    a_H (mr_a (s_st s)) (m_iter (s_st s)) (m_iter (s_st s)).-1 = 0 -> last 0 (s_res s) = 0.
  move=> hs n0 h0; have [h1 h2 h3 _] := minres_run nb hs.
  rewrite mr_res_last //; have [r hr ->] := h3 _ (leqnn _).
  by rewrite (min_res_unique hr (mr_lucky h1 n0 h0)) mul0r.
case E: (krun ys o mr x0) nr => [s|s|//] _; last first.
  exfalso; have hs : of_run (krun ys o mr x0) s by right.
  have [h1 h2 h3 _] := minres_run nb hs.
  have [m0 ei sz hg _] := C23_convergence_error good E.
  have eN : m_iter (s_st s) = N.
    by apply/eqP; rewrite eqn_leq (mr_iter_le h1) ei hm.
  have := hg _ (leqnn _); rewrite -ei -mr_res_last // (lucky _ hs) ?eN //; last first.
    by rewrite -[X in a_H _ X _]eN -[X in a_H _ _ X.-1]eN; apply: mr_full.
  by rewrite le_gtF.
have hs : of_run (krun ys o mr x0) s by left.
have [h1 h2 h3 _] := minres_run nb hs.
exists s => //; split; first exact: mr_iter_le.
have rl : last 0 (s_res s) \is Num.real by rewrite mr_res_last // real_res.
case: (boolP (o_tol o < last 0 (s_res s))) => hl; last by left; rewrite real_leNgt // ger0_real.
right; have [_ /(_ hl)] := C23_normal_return good E.
case=> [e0|hi]; first by rewrite e0 leqNgt N0 in hm.
have [G [R [Y [zz hk]]]] := h1.
case e: (a_iter (mr_a (s_st s))) => [|k].
  exfalso; have := ma_z (mi_a hk) e; move: hi => /= -> /esym/eqP r00.
  have := hl; rewrite mr_res_last //; have [r hr ->] := h3 _ (leqnn _).
  have -> : r = 0.
    move: hr; have -> : m_iter (s_st s) = 0%N by [].
    by move=> /min_res_unique/(_ (min_res0 hd))->; rewrite /mnorm r00 (ipl0 (ko_B hd)) sqrtC0.
  by rewrite mul0r le_gtF.
exists k; split=> //.
have := ma_inv (mi_a hk) e; rewrite -[a_inv _]/(m_inv (s_st s)) hi => /esym.
have Rl := ma_hm (mi_a hk); have [w [_ _ hw _]] := ar_step Rl (j := k) ltac:(by rewrite e).
have Hp : 0 < a_H (mr_a (s_st s)) k.+1 k.
  rewrite lt_def [in X in _ && X]hw ipnorm_ge0 // andbT; apply/eqP => h0.
  have := hl; rewrite (lucky _ hs) ?le_gtF //; first by rewrite /= e.
  by rewrite /= e.
rewrite Hp /= => h; rewrite -ler_pdivr_mulr //.
have : `|a_H (mr_a (s_st s)) k.+1 k| <= snorm k.+2 k.+1 (a_H (mr_a (s_st s))) by apply: hb.
by rewrite gtr0_norm //; apply: lt_le_trans.
Qed.
End Run.
