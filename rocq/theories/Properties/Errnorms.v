(** C80: the error norms of the solvers. *)
From mathcomp Require Import all_ssreflect all_algebra.
From mathcomp Require Import ring.
From Verif Require Import Base Spec.LinAlg Model.Inner Spec.Inner Proof.Algebra Proof.Inner Proof.IpTheory.
From Verif Require Import Model.Arnoldi Spec.Arnoldi Proof.Arnoldi Proof.ArnoldiAll Proof.ArnoldiExample.
From Verif Require Import Model.Solver Spec.Solver Model.LinearSystem Model.Krylov Spec.Krylov Spec.Agree.
From Verif Require Import Proof.ArnoldiRel Proof.Gmres Proof.LinearSystem Proof.CgTheory Proof.Cg Proof.Minres Proof.Agree Proof.ErrInv Proof.ErrTheory.
From Verif Require Properties.Cg Properties.Minres Properties.Gmres.

Set Implicit Arguments.
Unset Strict Implicit.
Unset Printing Implicit Defensive.
Import Order.TTheory GRing.Theory Num.Theory.
Local Open Scope ring_scope.
Local Arguments norm : simpl never.

Section Properties.
Variable C : numClosedFieldType.
Variable N : nat.
Local Notation vec := 'cV[C]_N.
Variable snorm : nat -> nat -> (nat -> nat -> C) -> C.
Variables (l : lsys C N) (x0 : option vec).
Hypothesis hl : lsys_ok l.
Hypothesis nb : lMl l (lb l) <> 0.
Local Notation x := (x0_of x0).
Local Notation A := (lMlAMr l).
Local Notation M := (lMop l).
Local Notation ip := (ip1 (lB l)).
Local Notation kr := (in_krylov A M (resid l x)).
Local Notation rn := (fun z => resid_norm l (x + lMr l z)).
Let hip : is_ip ip := valid_is_ip (lo_B hl).
Let lin := lMlAMr_lin hl.
Let nb' : y_bnorm (lsys_sys l (rhs_norm l)) != 0.
Proof. by rewrite /= rhs_norm_eq0 //; apply/eqP. Qed.

(** The entry number i of errnorms is the norm of the error of the i-th approximation, for
    the minimal residual methods and for Cg. *)
Section Errnorms.
Variable xs : vec.
Hypothesis hex : lexact l = Some xs.

Let min_conv i z : minimizer (rnorm ip A M (resid l x)) (kr i) z -> minimizer rn (kr i) z.
Proof.
have e v : rnorm ip A M (resid l x) v = rn v by rewrite /rnorm /resid_norm resid_update.
by case=> h1 h2; split=> // v /h2; rewrite -!e.
Qed.

Let err_conv z e : err_of (kdata_lsys l (rhs_norm l)) x0 (fun v => norm (xs - v) None (lB l)) z e ->
  e = ipnorm ip (xs - (x + lMr l z)).
Proof. by case=> v [<-]; rewrite (norm_ip _ (lo_B hl)) => -[<-]. Qed.

Theorem C80_gmres_errnorms o ortho s : ortho_ok l ortho -> of_run (gmres_solve snorm l o ortho x0) s ->
  size (s_err s) = size (s_res s) /\ forall i, (i < size (s_err s))%N ->
  exists2 z, minimizer rn (kr i) z & nth 0 (s_err s) i = ipnorm ip (xs - (x + lMr l z)).
Proof.
move=> ho; rewrite /gmres_solve (bnorm_ok hl) /= => hs.
have he : y_errnorm (lsys_sys l (rhs_norm l)) = Some (fun v => norm (xs - v) None (lB l)) by rewrite /= hex.
have [h1 h2] := gmres_err (lsys_kd hl x0) he nb' (lsys_cfg hl (o_maxiter o) (rhs_norm l) ho) hs.
by split=> // i /h2[z k1 k2]; exists z; [exact: min_conv|exact: err_conv].
Qed.

Theorem C80_minres_errnorms o ortho s : ortho_ok l ortho -> self_adjoint ip A -> of_run (minres_solve snorm l o ortho x0) s ->
  size (s_err s) = size (s_res s) /\ forall i, (i < size (s_err s))%N ->
  exists2 z, minimizer rn (kr i) z & nth 0 (s_err s) i = ipnorm ip (xs - (x + lMr l z)).
Proof.
move=> ho hsa; rewrite /minres_solve (bnorm_ok hl) /= => hs.
have he : y_errnorm (lsys_sys l (rhs_norm l)) = Some (fun v => norm (xs - v) None (lB l)) by rewrite /= hex.
have [h1 h2] := minres_err (lsys_kd hl x0) he nb' (lsys_cfg hl (o_maxiter o) (rhs_norm l) ho) hsa hs.
by split=> // i /h2[z k1 k2]; exists z; [exact: min_conv|exact: err_conv].
Qed.

Lemma cg_raw o store s : self_adjoint ip A -> pos_def ip A -> of_run (cg_solve l o store x0) s ->
  [/\ size (s_err s) = size (s_res s), forall i, (i < size (s_err s))%N ->
       nth 0 (s_err s) i = ipnorm ip (xs - (x + lMr l (cy ip A M (resid l x) i)))
    & forall j, (j.+1 < size (s_err s))%N -> cr ip A M (resid l x) j != 0].
Proof.
move=> hsa hpd hs; have [_ _ _ [_ _ _ nz]] := cg_facts hl nb (CgRun hsa hpd hs).
move: hs; rewrite /cg_solve (bnorm_ok hl) /= => hs.
have he : y_errnorm (lsys_sys l (rhs_norm l)) = Some (fun v => norm (xs - v) None (lB l)) by rewrite /= hex.
have hspd : cg_spd ip A (resid l x) by apply: pos_def_spd.
have [h1 h2] := cg_err (lsys_kd hl x0) he nb' hspd hs.
by split=> // [i /h2/err_conv//|j]; rewrite h1; apply: nz.
Qed.

Theorem C80_cg_errnorms o store s : self_adjoint ip A -> pos_def ip A -> of_run (cg_solve l o store x0) s ->
  size (s_err s) = size (s_res s) /\ forall i, (i < size (s_err s))%N -> exists z,
  [/\ kr i z, forall v, kr i v -> ip v (resid l (x + lMr l z)) = 0
    & nth 0 (s_err s) i = ipnorm ip (xs - (x + lMr l z))].
Proof.
move=> hsa hpd hs; have [h1 h2 _] := cg_raw hsa hpd hs; split=> // i hi.
have [_ _ h3 _] := cg_facts hl nb (CgRun hsa hpd hs); have [_ k1 k2] := h3 i ltac:(by rewrite -h1).
by eexists; split; [exact: k1|exact: k2|exact: h2].
Qed.
End Errnorms.

(** Positive definite systems without right preconditioner.  [h] is the inner product in
    which the error is measured: the energy inner product <., Ml A Mr .>, or <., M^-1 .>. *)
Section Spd.
Hypothesis hsa : self_adjoint ip A.
Hypothesis hpd : pos_def ip A.
Hypothesis hMr : forall v, lMr l v = v.
Variable xs : vec.
Hypothesis sol : lMl l (lA l xs) = lMl l (lb l).

Inductive err_ip : (vec -> vec -> C) -> Prop :=
| Energy : err_ip (fun u v => ip u (A v))
| MInverse Minv : (forall v, M (Minv v) = v) -> err_ip (fun u v => ip u (Minv v)).

Local Notation r0 := (resid l x).
Local Notation cr := (cr ip A M r0).
Local Notation cy := (cy ip A M r0).
Let ys := xs - x.
Let hspd : cg_spd ip A r0. Proof. exact: pos_def_spd. Qed.
Let hM := lo_M hl.
Let hMsa := lo_Msa hl.
Let hMpd := lo_Mpd hl.

Let Ays : A ys = r0.
Proof. by rewrite /lMlAMr hMr /ys (linB (lo_A hl)) (linB (lo_Ml hl)) sol /resid (linB (lo_Ml hl)). Qed.

Let inj v : A v = 0 -> v = 0.
Proof. by move=> e; apply/eqP; apply: contraT => /hpd; rewrite e (ipr0 hip) ltxx. Qed.

Let h_ok h : err_ip h -> is_ip h /\
  forall n, (forall j, (j < n)%N -> cr j != 0) -> forall k i, (i < k)%N -> (k <= n)%N -> 0 <= h (ys - cy k) (cp ip A M r0 i).
Proof.
case=> [|Minv hi]; split.
- exact: (mip_is_ip hip lin hsa hpd).
- by move=> n nz; apply: (energy_he hip lin hM hMsa hMpd hspd Ays nz).
- exact: (Minv_ip hip hM hMsa hMpd hi).
- move=> n nz; apply: (Minv_he hip lin hM hMsa hMpd hspd Ays nz); exact: (Minv_l hip hM hMsa hMpd hi).
Qed.

Let exact_min i j z : (j <= i)%N -> cr j = 0 -> minimizer rn (kr i) z -> z = ys.
Proof.
move=> hj c0 [_ /(_ (cy j)) h].
have hk : kr i (cy j) by apply: (span_widen hj); exact: (cy_span ip r0 lin hM).
have := h hk; rewrite /resid_norm !resid_update // -(cr_res ip M r0 lin) c0 /mnorm (lin0 hM) (ipr0 hip) sqrtC0 => h0.
have h1 : mip ip M (r0 - A z) (r0 - A z) == 0.
  have p : 0 <= mip ip M (r0 - A z) (r0 - A z) by exact: (ip_ge0' (lmip hl)).
  by rewrite -sqrtC_eq0 eq_le sqrtC_ge0 p andbT.
move: h1; rewrite (ip_eq0 (lmip hl)) -Ays -(linB lin) => /eqP/inj/eqP.
by rewrite subr_eq0 => /eqP.
Qed.

Let avg i z : (forall j, (j <= i)%N -> cr j != 0) -> minimizer rn (kr i) z -> z = zmr ip A M r0 i.
Proof.
move=> nz hz; apply: (min_uniq hl inj _ hz); split.
  apply: span_sum => j _; apply: spanZ; apply: (@span_widen _ _ _ j); first by rewrite -ltnS.
  exact: (cy_span ip r0 lin hM).
move=> v hv; rewrite /resid_norm !resid_update // /mnorm ler_sqrtC ?nnegrE ?(ip_ge0' (lmip hl)) //.
exact: (peak_min hip lin hM hMsa hMpd hspd nz hv).
Qed.

Let no_zero n : (exists2 j, (j <= n)%N & cr j = 0) \/ forall j, (j <= n)%N -> cr j != 0.
Proof.
case E: [exists j : 'I_n.+1, cr j == 0].
  by left; have [j /eqP e] := existsP E; exists j => //; rewrite -ltnS.
right=> j hj; apply/negP => /eqP e; move/negbT/existsPn/(_ (Ordinal (hj : (j < n.+1)%N))): E.
by rewrite /= e eqxx.
Qed.

Let mr_core h i j z z' : err_ip h -> (i <= j)%N -> minimizer rn (kr i) z -> minimizer rn (kr j) z' ->
  h (ys - z') (ys - z') <= h (ys - z) (ys - z).
Proof.
move=> /h_ok[hh he] hij hz hz'; have [[k hk e]|nz] := no_zero j.
  by rewrite (exact_min hk e hz') subrr (ipl0 hh) (ip_ge0' hh).
rewrite (avg _ hz) => [|k hk]; last by apply: nz; exact: leq_trans hij.
rewrite (avg _ hz') //; have nz1 k : (k < j)%N -> cr k != 0 by move=> hk; apply: nz; exact: ltnW.
move: hij => /subnKC; move: (j - i)%N => d; elim: d j {hz'} nz nz1 => [|d IH] j nz nz1; first by rewrite addn0 => <-.
rewrite addnS => e; rewrite -e in nz nz1 *; apply: le_trans (IH (i + d)%N _ _ erefl).
- by apply: (mr_step hip hM hMsa hMpd hspd hh (he _ nz1) nz).
- by move=> k hk; apply: nz; rewrite (leq_trans hk).
- by move=> k hk; apply: nz1; rewrite (leq_trans hk).
Qed.

Let cgmr_core h i k n z : err_ip h -> (forall j, (j < n)%N -> cr j != 0) -> (i <= k)%N -> (k <= n)%N ->
  minimizer rn (kr i) z -> h (ys - cy k) (ys - cy k) <= h (ys - z) (ys - z).
Proof.
move=> /h_ok[hh he] nz hik hk hz; have [[j hj e]|nz'] := no_zero i.
  have ej : j = n.
    apply/eqP; rewrite eqn_leq (leq_trans hj) ?(leq_trans hik) //= leqNgt; apply/negP => /nz.
    by rewrite e eqxx.
  have ek : k = n by apply/eqP; rewrite eqn_leq hk -ej (leq_trans hj).
  have -> : cy k = ys.
    move: e; rewrite ej -ek (cr_res ip M r0 lin) -Ays -(linB lin) => /inj/eqP.
    by rewrite subr_eq0 => /eqP.
  by rewrite subrr (ipl0 hh) (ip_ge0' hh).
rewrite (avg nz' hz).
exact: (cg_le_mr hip hM hMsa hMpd hspd hh (he _ nz) nz').
Qed.

(** Minres and Gmres: more iterations, smaller error. *)
Theorem C80_minimal_residual h tol res xk tol' res' xk' : err_ip h ->
  mr_result l x0 tol res (Some xk) -> mr_result l x0 tol' res' (Some xk') -> (size res <= size res')%N ->
  h (xs - xk') (xs - xk') <= h (xs - xk) (xs - xk).
Proof.
move=> hh /(mr_facts hl nb)[s0 _ _ [z [->] hz]] /(mr_facts hl nb)[s1 _ _ [z' [->] hz']] hs.
rewrite !hMr !opprD !addrA; apply: (mr_core hh _ hz hz').
by rewrite -ltnS !prednK.
Qed.

(** Cg as well. *)
Theorem C80_cg h tol res xk tol' res' xk' : err_ip h ->
  cg_result l x0 tol res (Some xk) -> cg_result l x0 tol' res' (Some xk') -> (size res <= size res')%N ->
  h (xs - xk') (xs - xk') <= h (xs - xk) (xs - xk).
Proof.
move=> /h_ok[hh he] /(cg_facts hl nb)[s0 _ _ [[->] _ _ _]] /(cg_facts hl nb)[s1 _ _ [[->] _ _ nz]] hs.
rewrite !hMr !opprD !addrA.
apply: (cg_mono hip hM hMsa hMpd hspd hh (n := (size res').-1)); last 2 first.
- by rewrite -ltnS !prednK.
- by [].
by apply: he => j hj; apply: nz; rewrite -(prednK s1) ltnS.
Qed.

(** The error of Cg is not larger than that of Minres and Gmres. *)
Theorem C80_cg_minimal_residual h tol res xk tol' res' xk' : err_ip h ->
  mr_result l x0 tol res (Some xk) -> cg_result l x0 tol' res' (Some xk') -> (size res <= size res')%N ->
  h (xs - xk') (xs - xk') <= h (xs - xk) (xs - xk).
Proof.
move=> hh /(mr_facts hl nb)[s0 _ _ [z [->] hz]] /(cg_facts hl nb)[s1 _ _ [[->] _ _ nz]] hs.
rewrite !hMr !opprD !addrA; apply: (cgmr_core (n := (size res').-1) hh _ _ _ hz) => //.
  by move=> j hj; apply: nz; rewrite -(prednK s1) ltnS.
by rewrite -ltnS !prednK.
Qed.

(** Without M, errnorms does not increase, and the entries of Cg are at most those of Minres
    and Gmres. *)
Section NoM.
Hypothesis hM1 : forall v, M v = v.
Hypothesis hex : lexact l = Some xs.

Let hid : err_ip (fun u v => ip u (id v)). Proof. exact: MInverse. Qed.
Let le_norm u v : ip u u <= ip v v -> ipnorm ip u <= ipnorm ip v.
Proof. by rewrite /ipnorm ler_sqrtC ?nnegrE ?(ip_ge0' hip). Qed.
Let shift z : xs - (x + lMr l z) = ys - z. Proof. by rewrite hMr opprD addrA. Qed.

Theorem C80_gmres_monotone o ortho s i j : ortho_ok l ortho -> of_run (gmres_solve snorm l o ortho x0) s ->
  (i <= j)%N -> (j < size (s_err s))%N -> nth 0 (s_err s) j <= nth 0 (s_err s) i.
Proof.
move=> ho hs hij hj; have [_ he] := C80_gmres_errnorms hex ho hs.
have [z hz ->] := he i (leq_ltn_trans hij hj); have [z' hz' ->] := he j hj; rewrite !shift; apply: le_norm.
exact: (mr_core hid hij hz hz').
Qed.

Theorem C80_minres_monotone o ortho s i j : ortho_ok l ortho -> of_run (minres_solve snorm l o ortho x0) s ->
  (i <= j)%N -> (j < size (s_err s))%N -> nth 0 (s_err s) j <= nth 0 (s_err s) i.
Proof.
move=> ho hs hij hj; have [_ he] := C80_minres_errnorms hex ho hsa hs.
have [z hz ->] := he i (leq_ltn_trans hij hj); have [z' hz' ->] := he j hj; rewrite !shift; apply: le_norm.
exact: (mr_core hid hij hz hz').
Qed.

Let cg_at o store s i : of_run (cg_solve l o store x0) s -> (i < size (s_err s))%N ->
  nth 0 (s_err s) i = ipnorm ip (ys - cy i) /\ forall j, (j < i)%N -> cr j != 0.
Proof.
move=> hs hi; have [_ h1 h2] := cg_raw hex hsa hpd hs; rewrite h1 // shift; split=> // j hj.
by apply: h2; exact: leq_ltn_trans hi.
Qed.

Theorem C80_cg_monotone o store s i j : of_run (cg_solve l o store x0) s ->
  (i <= j)%N -> (j < size (s_err s))%N -> nth 0 (s_err s) j <= nth 0 (s_err s) i.
Proof.
move=> hs hij hj; have [-> _] := cg_at hs (leq_ltn_trans hij hj); have [-> nz] := cg_at hs hj; apply: le_norm.
have [hh he] := h_ok hid; exact: (cg_mono hip hM hMsa hMpd hspd hh (he _ nz) hij (leqnn j)).
Qed.

Theorem C80_cg_le_gmres o store s o' ortho s' i j : of_run (cg_solve l o store x0) s ->
  ortho_ok l ortho -> of_run (gmres_solve snorm l o' ortho x0) s' ->
  (i <= j)%N -> (j < size (s_err s))%N -> (i < size (s_err s'))%N -> nth 0 (s_err s) j <= nth 0 (s_err s') i.
Proof.
move=> hs ho hs' hij hj hi; have [-> nz] := cg_at hs hj; have [_ he] := C80_gmres_errnorms hex ho hs'.
have [z hz ->] := he i hi; rewrite shift; apply: le_norm; exact: (cgmr_core hid nz hij (leqnn j) hz).
Qed.

Theorem C80_cg_le_minres o store s o' ortho s' i j : of_run (cg_solve l o store x0) s ->
  ortho_ok l ortho -> of_run (minres_solve snorm l o' ortho x0) s' ->
  (i <= j)%N -> (j < size (s_err s))%N -> (i < size (s_err s'))%N -> nth 0 (s_err s) j <= nth 0 (s_err s') i.
Proof.
move=> hs ho hs' hij hj hi; have [-> nz] := cg_at hs hj; have [_ he] := C80_minres_errnorms hex ho hsa hs'.
have [z hz ->] := he i hi; rewrite shift; apply: le_norm; exact: (cgmr_core hid nz hij (leqnn j) hz).
Qed.
End NoM.
End Spd.
End Properties.

(** Systems with A = [[p,q],[q,p]] and the solution e_0. *)
Section Examples.
Variable C : numClosedFieldType.
Local Notation ip := (ip1 (@IpNone C 2)).
Let hip : is_ip ip := valid_is_ip (B := @IpNone C 2) I.

Definition pq (p q : int) (v : 'cV[C]_2) : 'cV[C]_2 := p%:~R *: v + q%:~R *: swap_op v.
Definition pq_sys p q M : lsys C 2 := LSys (pq p q) (pq p q (e0 C)) M id id IpNone (Some (e0 C)).

Lemma pq_lin p q : is_linear (pq p q).
Proof. by move=> a x y; rewrite /pq (@swap_lin C) !scalerDr !scalerA ![_ * a]mulrC addrACA. Qed.

Lemma pq_sa p q : self_adjoint ip (pq p q).
Proof. by move=> x y; rewrite /pq (ipDl hip) (ipDr hip) !(ipZl hip) !(ipZr hip) !rmorph_int swap_sa. Qed.

Lemma pq_pd p q : 1 <= p + q -> 1 <= p - q -> pos_def ip (pq p q).
Proof.
move=> h1 h2 x nx; pose u := x + swap_op x; pose v := x - swap_op x.
have ss : ip (swap_op x) (swap_op x) = ip x x by rewrite swap_sa Properties.Cg.swap_swap.
have sx : ip (swap_op x) x = ip x (swap_op x) by rewrite swap_sa.
have eu : ip u u = ip x x + ip x x + (ip x (swap_op x) + ip x (swap_op x)).
  by rewrite (ipDl hip) !(ipDr hip) sx ss; ring.
have ev : ip v v = ip x x + ip x x - (ip x (swap_op x) + ip x (swap_op x)).
  by rewrite !(ipDl hip) !(ipDr hip) !(ipNl hip) !(ipNr hip) sx ss; ring.
have e : 4%:R * ip x (pq p q x) = (p + q)%:~R * ip u u + (p - q)%:~R * ip v v.
  by rewrite /pq (ipDr hip) !(ipZr hip) eu ev !rmorphD rmorphN /=; ring.
have h : 4%:R * ip x x <= 4%:R * ip x (pq p q x).
  rewrite e (_ : 4%:R * ip x x = 1 * ip u u + 1 * ip v v); last by rewrite eu ev; ring.
  by apply: ler_add; apply: ler_wpmul2r; rewrite ?(ip_ge0' hip) // ler1z.
by move: h; rewrite ler_pmul2l ?ltr0n //; apply: lt_le_trans; exact: ip_pos.
Qed.

Lemma pq_ok p q M : 1 <= p + q -> 1 <= p - q ->
  (M = None \/ exists p' q', [/\ M = Some (pq p' q'), 1 <= p' + q' & 1 <= p' - q']) -> lsys_ok (pq_sys p q M).
Proof.
have idl : is_linear (@id 'cV[C]_2) by [].
move=> h1 h2 hM; split=> //=; try exact: pq_lin; case: hM => [->|[p' [q' [-> k1 k2]]]] //=.
- exact: pq_lin.
- exact: pq_sa.
- by move=> x nx; exact: ip_pos.
- exact: pq_pd.
Qed.

Lemma pq_lA p q M : lMlAMr (pq_sys p q M) = pq p q. Proof. by []. Qed.

Lemma pq_nz p q M : 1 <= p + q -> 1 <= p - q -> lMl (pq_sys p q M) (lb (pq_sys p q M)) <> 0.
Proof. by move=> h1 h2 /= e; have := pq_pd h1 h2 (e0_nz C); rewrite e (ipr0 hip) ltxx. Qed.

(** The runs of CG make an iteration if the initial guess is 0 and tol < 1. *)
Lemma pq_cg p q M : lsys_ok (pq_sys p q M) -> 1 <= p + q -> 1 <= p - q ->
  exists2 s, cg_solve (pq_sys p q M) (Opts 0 2 false) false None = Returns s & (1 < size (s_err s))%N.
Proof.
move=> ok h1 h2; have nz := @pq_nz p q M h1 h2; have pd : pos_def (ip1 (lB (pq_sys p q M))) (lMlAMr (pq_sys p q M)) := pq_pd h1 h2.
have sa : self_adjoint (ip1 (lB (pq_sys p q M))) (lMlAMr (pq_sys p q M)) := @pq_sa p q.
have [//|//|//|//|s E [_ [xk ex hx]]] := @Properties.Cg.C28_cg_converges C 2 (pq_sys p q M) (Opts 0 2 false) false None ok sa pd.
exists s => //; have hs : of_run (cg_solve (pq_sys p q M) (Opts 0 2 false) false None) s by left.
have [-> _] := C80_cg_errnorms ok nz (erefl (Some (e0 C))) sa pd hs.
have [s0 _ _ [ek _ _ _]] := cg_facts ok nz (CgRun sa pd hs).
case: (ltngtP 1%N (size (s_res s))) => //; first by case: (size _) s0 => // -[].
move=> es; exfalso; move: ek; rewrite -es ex /cy big_ord0 => -[exk].
move: hx; rewrite exk mul0r /= addr0 /resid_norm /mnorm /resid /= (lin0 (@pq_lin p q)) subr0 => h0.
have hm := lmip ok; have : mip ip (lMop (pq_sys p q M)) (pq p q (e0 C)) (pq p q (e0 C)) == 0.
  by rewrite -sqrtC_eq0 eq_le h0 sqrtC_ge0 (ip_ge0' hm).
by rewrite (ip_eq0 hm) => /eqP.
Qed.

Example C80_run : exists s s' s'' : _,
  [/\ cg_solve (pq_sys 2%:Z 1 None) (Opts 0 2 false) false None = Returns s,
      minres_solve (@frob C) (pq_sys 2%:Z 1 None) (Opts 0 2 false) Lanczos None = Returns s',
      gmres_solve (@frob C) (pq_sys 2%:Z 1 None) (Opts 0 2 false) Mgs None = Returns s''
    & (1 < size (s_err s))%N /\ nth 0 (s_err s) 1 <= nth 0 (s_err s') 0 /\ nth 0 (s_err s) 1 <= nth 0 (s_err s'') 0].
Proof.
have ok : lsys_ok (pq_sys 2%:Z 1 None) by apply: pq_ok => //; left.
have pd : pos_def ip (pq 2%:Z 1) by apply: pq_pd.
have sa : self_adjoint (ip1 (lB (pq_sys 2%:Z 1 None))) (lMlAMr (pq_sys 2%:Z 1 None)) := @pq_sa 2%:Z 1.
have nz : lMl (pq_sys 2%:Z 1 None) (lb (pq_sys 2%:Z 1 None)) <> 0 by apply: pq_nz.
have inj : injective_op (pq 2%:Z 1).
  by move=> v e; apply/eqP; apply: contraT => /pd; rewrite e (ipr0 hip) ltxx.
have [//|//|s E sz] := @pq_cg 2%:Z 1 None ok; exists s.
have [//|//|s' E' _] := @Properties.Minres.C28_minres_finite_partial C 2 (@frob C) (pq_sys 2%:Z 1 None) (Opts 0 2 false) Lanczos None
  ok sa sa inj (@frob_bounds C) nz.
have [//|//|s'' E'' _] := @Properties.Gmres.C28_gmres_finite_partial C 2 (@frob C) (pq_sys 2%:Z 1 None) (Opts 0 2 false) Mgs None
  ok I inj (@frob_bounds C) nz.
exists s', s''; split=> //; split=> //; split.
  have [e _] := C80_minres_errnorms ok nz (erefl (Some (e0 C))) (sa : ortho_ok (pq_sys 2%:Z 1 None) Lanczos) sa (or_introl E').
  have [s0 _ _ _] := mr_facts ok nz (MrMinres (sa : ortho_ok (pq_sys 2%:Z 1 None) Lanczos) sa (or_introl E')).
  apply: (C80_cg_le_minres ok nz sa pd _ _ _ (erefl (Some (e0 C))) (or_introl E) (sa : ortho_ok (pq_sys 2%:Z 1 None) Lanczos) (or_introl E')) => //.
  by rewrite e.
have [e _] := C80_gmres_errnorms ok nz (erefl (Some (e0 C))) (I : ortho_ok (pq_sys 2%:Z 1 None) Mgs) (or_introl E'').
have [s0 _ _ _] := mr_facts ok nz (MrGmres (I : ortho_ok (pq_sys 2%:Z 1 None) Mgs) (or_introl E'')).
apply: (C80_cg_le_gmres ok nz sa pd _ _ _ (erefl (Some (e0 C))) (or_introl E) (I : ortho_ok (pq_sys 2%:Z 1 None) Mgs) (or_introl E'')) => //.
by rewrite e.
Qed.

(** With a preconditioner M the entries of errnorms may increase:
    A = [[8,7],[7,8]], M = [[38,-37],[-37,38]]. *)
Local Notation lp := (pq_sys 8%:Z 7%:Z (Some (pq 38%:Z (- 37%:Z)))).
Example C80_M_needed : exists2 s, cg_solve lp (Opts 0 2 false) false None = Returns s &
  (1 < size (s_err s))%N /\ nth 0 (s_err s) 0 < nth 0 (s_err s) 1.
Proof.
have ok : lsys_ok lp by apply: pq_ok => //; right; exists 38%:Z, (- 37%:Z).
have pd : pos_def ip (pq 8%:Z 7%:Z) by apply: pq_pd.
have nz : lMl lp (lb lp) <> 0 by apply: pq_nz.
have [//|//|s E sz] := @pq_cg 8%:Z 7%:Z _ ok; exists s => //; split=> //.
have sa : self_adjoint (ip1 (lB lp)) (lMlAMr lp) := @pq_sa 8%:Z 7%:Z.
have [_ he] := C80_cg_errnorms ok nz (erefl (Some (e0 C))) sa pd (or_introl E).
have [z [hz _ ->]] := he 0%N (ltnW sz); have [z' [hz' og ->]] := he 1%N sz.
have z0 : z = 0 by case: hz => c ->; rewrite big_ord0.
have i00 : ip (e0 C) (e0 C) = 1.
  by rewrite /ip1 /= tconjE mxE big_ord_recl big_ord1 !ctrE !mxE /= conjC0 conjC1 mulr0 mulr1 addr0.
have i11 : ip (e1 C) (e1 C) = 1.
  by rewrite /ip1 /= tconjE mxE big_ord_recl big_ord1 !ctrE !mxE /= conjC0 conjC1 mulr0 mulr1 add0r.
have i01 : ip (e0 C) (e1 C) = 0.
  by rewrite /ip1 /= tconjE mxE big_ord_recl big_ord1 !ctrE !mxE /= mulr0 conjC0 mul0r addr0.
have i10 : ip (e1 C) (e0 C) = 0 by rewrite (ipC hip) i01 conjC0.
pose w : 'cV[C]_2 := 45%:R *: e0 C - 30%:R *: e1 C.
have wE : lMop lp (resid lp (x0_of None)) = w.
  rewrite /resid /= (lin0 (@pq_lin _ _)) subr0 /w.
  apply/matrixP => i j; rewrite /lMop /= /pq !(linD (@swap_lin C), linZ (@swap_lin C), swap_e0, swap_e1) !mxE.
  by case: i => -[|[|//]] hi /=; ring.
have [c zc] : exists c, z' = c *: w by case: hz' => c ->; rewrite big_ord1 /= wE; eexists.
have ow : ip w (pq 8%:Z 7%:Z (e0 C) - c *: pq 8%:Z 7%:Z w) = 0.
  have := og w; rewrite /resid /= add0r zc (linZ (@pq_lin _ _)); apply.
  rewrite -wE; exact: (@span_mem _ _ _ _ 0).
have ce : c = 30%:R^-1.
  have e1' : ip w (pq 8%:Z 7%:Z (e0 C)) = 150%:R.
    rewrite /pq swap_e0 /w (ipBl hip) !(ipDr hip) !(ipZl hip) !(ipZr hip) !conjC_nat i00 i01 i10 i11.
    by ring.
  have e2' : ip w (pq 8%:Z 7%:Z w) = 4500%:R.
    rewrite /pq /w (linB (@swap_lin C)) !(linZ (@swap_lin C)) swap_e0 swap_e1.
    rewrite (ipBl hip) !(ipDr hip) !(ipZl hip) !(ipZr hip) !(ipBr hip) !(ipZr hip) !conjC_nat i00 i01 i10 i11.
    by ring.
  move: ow; rewrite (ipBr hip) (ipZr hip) e1' e2' => /eqP; rewrite subr_eq0 => /eqP e.
  apply: (mulIf (x := 4500%:R)); first by rewrite pnatr_eq0.
  by rewrite -e; field.
have -> : ipnorm ip (e0 C - (x0_of None + lMr lp z)) = 1 by rewrite z0 /= addr0 subr0 /ipnorm i00 sqrtC1.
have -> : e0 C - (x0_of None + lMr lp z') = e1 C - 2%:R^-1 *: e0 C.
  rewrite /= add0r zc ce /w scalerBr !scalerA opprB addrCA; congr (_ + _).
    by rewrite (_ : _ * _ = 1) ?scale1r //; field.
  by rewrite -[X in X - _]scale1r -scalerBl -scaleNr; congr (_ *: _); field.
rewrite /ipnorm -[X in X < _]sqrtC1 ltr_sqrtC ?nnegrE ?ler01 ?(ip_ge0' hip) //.
rewrite (ipBl hip) !(ipBr hip) !(ipZl hip) !(ipZr hip) i00 i01 i10 i11 fmorphV conjC_nat.
rewrite !mulr0 mulr1 subr0 sub0r opprK ltr_addl mulr_gt0 ?invr_gt0 ?ltr0n //.
Qed.
End Examples.

Print Assumptions C80_gmres_errnorms.
Print Assumptions C80_minres_errnorms.
Print Assumptions C80_cg_errnorms.
Print Assumptions C80_minimal_residual.
Print Assumptions C80_cg.
Print Assumptions C80_cg_minimal_residual.
Print Assumptions C80_gmres_monotone.
Print Assumptions C80_minres_monotone.
Print Assumptions C80_cg_monotone.
Print Assumptions C80_cg_le_gmres.
Print Assumptions C80_cg_le_minres.
Print Assumptions C80_run.
Print Assumptions C80_M_needed.
