(** The conjugate gradient recurrences in exact arithmetic: orthogonality, conjugacy,
    Krylov spaces and optimality. *)
From mathcomp Require Import all_ssreflect all_algebra.
From mathcomp Require Import ring.
From Verif Require Import Base Spec.LinAlg Proof.Algebra Spec.Arnoldi Proof.IpTheory Proof.ArnoldiRel Spec.Krylov.

Set Implicit Arguments.
Unset Strict Implicit.
Unset Printing Implicit Defensive.
Import Order.TTheory GRing.Theory Num.Theory.
Local Open Scope ring_scope.

Section Cg.
Variable C : numClosedFieldType.
Variable N : nat.
Local Notation vec := 'cV[C]_N.
Variables (ip : vec -> vec -> C) (A M : vec -> vec) (r0 : vec).

(** A is self-adjoint and semidefinite, and the system A y = r0 is orthogonal to the
    kernel of A (trivially so if A is positive definite). *)
Record cg_spd : Prop := CgSpd {
  cs_sa : self_adjoint ip A;
  cs_pos : forall x, 0 <= ip x (A x);
  cs_ker : forall x, ip x (A x) = 0 -> A x = 0 /\ ip x r0 = 0 }.

Lemma pos_def_spd : is_ip ip -> is_linear A -> self_adjoint ip A -> pos_def ip A -> cg_spd.
Proof.
move=> hip hA sa pd.
have z (x : vec) : x != 0 \/ x = 0 by case: (eqVneq x 0); [right|left].
split=> // x; first by case: (z x) => [/pd/ltW|->] //; rewrite (ipl0 hip).
move=> h; case: (z x) => [/pd|->]; first by rewrite h ltxx.
by rewrite (lin0 hA) (ipl0 hip).
Qed.

Hypothesis hip : is_ip ip.
Hypothesis hA : is_linear A.
Hypothesis hM : is_linear M.
Hypothesis hMsa : self_adjoint ip M.
Hypothesis hMpd : pos_def ip M.
Hypothesis hs : cg_spd.
Local Notation mp := (mip ip M).
Let hmp : is_ip mp := ArnoldiRel.hmp hip hM hMsa hMpd.

(** r_k and p_k *)
Fixpoint cgs (k : nat) : vec * vec :=
  if k is k'.+1 then
    let '(r, p) := cgs k' in
    let r' := r - (mp r r / ip p (A p)) *: A p in
    (r', M r' + (mp r' r' / mp r r) *: p)
  else (r0, M r0).

Definition cr k := (cgs k).1.
Definition cp k := (cgs k).2.
Definition rho k := mp (cr k) (cr k).
Definition del k := ip (cp k) (A (cp k)).
Definition al k := rho k / del k.
Definition be k := rho k.+1 / rho k.
Definition cy k := \sum_(j < k) al j *: cp j.

Lemma crS k : cr k.+1 = cr k - al k *: A (cp k).
Proof. by rewrite /al /rho /del /cr /cp /=; case: (cgs k). Qed.
Lemma cpS k : cp k.+1 = M (cr k.+1) + be k *: cp k.
Proof. by rewrite /be /rho /cr /cp /=; case: (cgs k). Qed.

Lemma cyS k : cy k.+1 = cy k + al k *: cp k.
Proof. by rewrite /cy big_ord_recr. Qed.

Lemma rho_ge0 k : 0 <= rho k. Proof. exact: (ip_ge0' hmp). Qed.
Lemma rho_eq0 k : (rho k == 0) = (cr k == 0). Proof. exact: (ip_eq0 hmp). Qed.
Lemma del_ge0 k : 0 <= del k. Proof. exact: cs_pos hs _. Qed.
Lemma al_ge0 k : 0 <= al k. Proof. by rewrite divr_ge0 ?rho_ge0 ?del_ge0. Qed.
Lemma be_ge0 k : 0 <= be k. Proof. by rewrite divr_ge0 ?rho_ge0. Qed.
Lemma al_conj k : (al k)^* = al k. Proof. exact: geC0_conj (al_ge0 k). Qed.
Lemma be_conj k : (be k)^* = be k. Proof. exact: geC0_conj (be_ge0 k). Qed.

(** The recursively updated residual is the residual. *)
Lemma cr_res k : cr k = r0 - A (cy k).
Proof.
elim: k => [|k IH]; first by rewrite /cy big_ord0 (lin0 hA) subr0.
by rewrite crS IH cyS (linD hA) (linZ hA) opprD addrA.
Qed.

Variable n : nat.
Hypothesis nz : forall j, (j < n)%N -> cr j != 0.

Lemma rho_nz j : (j < n)%N -> rho j != 0.
Proof. by move=> hj; rewrite rho_eq0 nz. Qed.

Lemma mp_flip x y : mp x y = 0 -> mp y x = 0.
Proof. by move=> h; rewrite (ipC hmp) h conjC0. Qed.

Lemma mpE x y : mp x y = ip (M x) y.
Proof. by rewrite /mip -hMsa. Qed.

Lemma cg_inv k : (k <= n)%N ->
  [/\ forall i, (i < k)%N -> ip (cp i) (cr k) = 0,
      forall i, (i < k)%N -> ip (cp i) (A (cp k)) = 0,
      ip (cp k) (cr k) = rho k & (k < n)%N -> 0 < del k].
Proof.
(* positivity of <p, A p> follows from <p, r> = rho *)
have pos j : (j < n)%N -> ip (cp j) (cr j) = rho j -> 0 < del j.
  move=> hj e; rewrite lt_def del_ge0 andbT; apply/eqP => d0.
  have [a0 p0] := cs_ker hs d0.
  move: e; rewrite cr_res (ipBr hip) p0 -(cs_sa hs) a0 (ipl0 hip) subr0 => /esym/eqP.
  by rewrite (negbTE (rho_nz hj)).
elim/ltn_ind: k => -[_ _|k IH hk].
  have e : ip (cp 0) (cr 0) = rho 0 by rewrite /rho mpE.
  by split=> // h; apply: pos.
have all_d j : (j <= k)%N -> 0 < del j.
  by move=> hj; have [||_ _ _] := IH j; [by []|by rewrite (leq_trans hj) // ltnW|apply; apply: leq_ltn_trans hk].
have dnz j : (j <= k)%N -> del j != 0 by move=> hj; rewrite gt_eqF ?all_d.
have rnz j : (j <= k)%N -> rho j != 0 by move=> hj; apply: rho_nz; apply: leq_ltn_trans hk.
have anz j : (j <= k)%N -> al j != 0 by move=> hj; rewrite mulf_neq0 ?invr_eq0 ?rnz ?dnz.
have [I1 I2 I3 _] := IH k (ltnSn k) (ltnW hk).
have a i : (i < k.+1)%N -> ip (cp i) (cr k.+1) = 0.
  rewrite ltnS leq_eqVlt crS (ipBr hip) (ipZr hip) => /orP[/eqP->|hi].
    by rewrite I3 -/(del k) /al divfK ?dnz // subrr.
  by rewrite I1 // I2 // mulr0 subr0.
have b i : (i < k.+1)%N -> mp (cr i) (cr k.+1) = 0.
  rewrite mpE; case: i => [|i] hi; first exact: (a 0%N).
  have -> : M (cr i.+1) = cp i.+1 - be i *: cp i by rewrite cpS addrK.
  by rewrite (ipBl hip) (ipZl hip) !a ?mulr0 ?subr0 // ltnW.
have e : ip (cp k.+1) (cr k.+1) = rho k.+1.
  by rewrite {1}cpS (ipDl hip) (ipZl hip) a // mulr0 addr0 -mpE.
split=> // [i|h]; last by apply: pos.
rewrite ltnS => hi; rewrite cpS (linD hA) (linZ hA) (ipDr hip) (ipZr hip).
have Ap : A (cp i) = (al i)^-1 *: (cr i - cr i.+1).
  by rewrite crS opprB addrCA subrr addr0 scalerA mulVf ?anz // scale1r.
have -> : ip (cp i) (A (M (cr k.+1))) = (al i)^-1 * (mp (cr i) (cr k.+1) - mp (cr i.+1) (cr k.+1)).
  by rewrite -(cs_sa hs) Ap (ipZl hip) fmorphV al_conj (ipBl hip).
rewrite (b i) ?ltnS // sub0r; move: hi; rewrite leq_eqVlt => /orP[/eqP->|hi].
  rewrite -/(rho k.+1) -/(del k) /al /be invf_div mulrN mulrAC [_ / _ * del k]mulrAC.
  by rewrite [del k * _]mulrC addNr.
by rewrite (b i.+1) // oppr0 mulr0 add0r I2 // mulr0.
Qed.

Lemma del_gt0 j : (j < n)%N -> 0 < del j.
Proof. by move=> hj; have [_ _ _] := cg_inv (ltnW hj); apply. Qed.
Lemma al_gt0 j : (j < n)%N -> 0 < al j.
Proof. by move=> hj; rewrite divr_gt0 ?del_gt0 // lt_def rho_nz // rho_ge0. Qed.
Lemma al_nz j : (j < n)%N -> al j != 0.
Proof. by move=> hj; rewrite gt_eqF ?al_gt0. Qed.

Lemma cg_A j : (j < n)%N -> A (cp j) = (al j)^-1 *: (cr j - cr j.+1).
Proof. by move=> hj; rewrite crS opprB addrCA subrr addr0 scalerA mulVf ?al_nz // scale1r. Qed.

Lemma cg_orth i j : (i < j)%N -> (j <= n)%N -> mp (cr i) (cr j) = 0.
Proof.
move=> hij hj; have [a _ _ _] := cg_inv hj; rewrite mpE.
case: i hij => [|i] hi; first exact: (a 0%N).
have -> : M (cr i.+1) = cp i.+1 - be i *: cp i by rewrite cpS addrK.
by rewrite (ipBl hip) (ipZl hip) !a ?mulr0 ?subr0 // ltnW.
Qed.

Lemma cg_conj i j : (i <= n)%N -> (j <= n)%N -> i != j -> ip (cp i) (A (cp j)) = 0.
Proof.
move=> hi hj; rewrite neq_ltn => /orP[h|h].
  by have [_ + _ _] := cg_inv hj; apply.
by have [_ h2 _ _] := cg_inv hi; rewrite -(cs_sa hs) (ipC hip) h2 ?conjC0.
Qed.

(** Krylov spaces *)
Local Notation kry := (krylov (fun x => M (A x)) (M r0)).
Let hMA : is_linear (fun x => M (A x)) := lin_comp hM hA.

Lemma kry_shift k x : in_span kry k x -> in_span kry k.+1 (M (A x)).
Proof.
move=> h; apply: (span_trans (span_map hMA h)) => i hi.
have -> : M (A (kry i)) = kry i.+1 by [].
exact: span_mem.
Qed.

Lemma cg_span k : in_span kry k.+1 (M (cr k)) /\ in_span kry k.+1 (cp k).
Proof.
elim: k => [|k [h1 h2]].
  by have h : in_span kry 1 (M r0) by apply: (span_mem kry (i := 0)).
have h : in_span kry k.+2 (M (cr k.+1)).
  rewrite crS (linB hM) (linZ hM); apply: spanB; first exact: span_widen h1.
  by apply: spanZ; apply: kry_shift.
split=> //; rewrite cpS; apply: spanD => //; apply: spanZ; exact: span_widen h2.
Qed.

Lemma cy_span k : in_span kry k (cy k).
Proof.
apply: span_sum => i _; apply: spanZ; apply: span_widen (cg_span i).2.
exact: ltn_ord.
Qed.

Lemma kry_cp i : (i <= n)%N -> in_span cp i.+1 (kry i).
Proof.
have Mr j : in_span cp j.+1 (M (cr j)).
  case: j => [|j]; first by apply: (span_mem cp (i := 0)).
  have -> : M (cr j.+1) = cp j.+1 - be j *: cp j by rewrite cpS addrK.
  by apply: spanB; last apply: spanZ; apply: span_mem.
elim: i => [|i IH] hi; first by apply: (span_mem cp (i := 0)).
have -> : kry i.+1 = M (A (kry i)) by [].
apply: (span_trans (span_map hMA (IH (ltnW hi)))) => j hj.
rewrite cg_A; last exact: leq_trans hj hi.
rewrite (linZ hM) (linB hM); apply: spanZ; apply: spanB.
  by apply: span_widen (Mr j); apply: leqW.
exact: span_widen (Mr j.+1).
Qed.

Lemma kry_sub k x : (k <= n)%N -> in_span kry k x -> in_span cp k x.
Proof.
move=> hk h; apply: (span_trans h) => i hi; apply: span_widen (kry_cp _) => //.
by rewrite ltnW // (leq_trans hi).
Qed.

(** The Galerkin condition. *)
Lemma cg_galerkin k z : (k <= n)%N -> in_span kry k z -> ip z (cr k) = 0.
Proof.
move=> hk /(kry_sub hk) h; have [a _ _ _] := cg_inv hk.
by apply: (span_orth hip _ h) => j hj; apply: a.
Qed.

(** Optimality in the energy norm. *)
Lemma cg_opt k z ys : (k <= n)%N -> in_span kry k z -> A ys = r0 ->
  ip (ys - cy k) (A (ys - cy k)) <= ip (ys - z) (A (ys - z)).
Proof.
move=> hk hz hy; set e := ys - cy k; set f := cy k - z.
have hf : in_span kry k f by apply: spanB => //; exact: cy_span.
have Ae : A e = cr k by rewrite /e (linB hA) hy cr_res.
have ef : ip f (A e) = 0 by rewrite Ae; apply: cg_galerkin.
have fe : ip e (A f) = 0 by rewrite -(cs_sa hs) (ipC hip) ef conjC0.
have -> : ys - z = e + f by rewrite /e /f addrA subrK.
rewrite (linD hA) (ipDl hip) !(ipDr hip) ef fe addr0 add0r ler_addl.
exact: cs_pos hs _.
Qed.

(** The residual cannot be nonzero for too long. *)
Lemma cg_size : (n <= N)%N.
Proof.
pose v j := (sqrtC (rho j))^-1 *: cr j.
apply: (ortho_size hmp (v := v)) => i j hi hj; rewrite /v (ipZl hmp) (ipZr hmp).
have [->|ne] := eqVneq i j.
  rewrite geC0_conj ?invr_ge0 ?sqrtC_ge0 ?rho_ge0 // -/(rho j) mulrA -invfM -expr2 sqrtCK.
  by rewrite mulVf // rho_nz.
suff -> : mp (cr i) (cr j) = 0 by rewrite !mulr0.
move: ne; rewrite neq_ltn => /orP[h|h]; first by apply: cg_orth => //; apply: ltnW.
by apply: mp_flip; apply: cg_orth => //; apply: ltnW.
Qed.

(** The Lanczos relation behind CG. *)
Definition cnr j := sqrtC (rho j).
Definition cP j := ((-1) ^+ j / cnr j) *: cr j.
Definition cV j := ((-1) ^+ j / cnr j) *: M (cr j).
Definition cH i j : C :=
  if (n <= j)%N then 0
  else if i == j then (al j)^-1 + (if j is j'.+1 then be j' / al j' else 0)
  else if i == j.+1 then sqrtC (be j) / al j
  else if i.+1 == j then sqrtC (be i) / al i
  else 0.

Hypothesis nzn : cr n != 0.

Let nz' j : (j <= n)%N -> cr j != 0.
Proof. by rewrite leq_eqVlt => /orP[/eqP->|/nz]. Qed.
Let rnz' j : (j <= n)%N -> rho j != 0.
Proof. by move=> hj; rewrite rho_eq0 nz'. Qed.

Lemma cnr_gt0 j : (j <= n)%N -> 0 < cnr j.
Proof. by move=> hj; rewrite sqrtC_gt0 lt_def rnz' // rho_ge0. Qed.
Lemma cnr_nz j : (j <= n)%N -> cnr j != 0.
Proof. by move=> hj; rewrite gt_eqF ?cnr_gt0. Qed.
Lemma be_gt0 j : (j < n)%N -> 0 < be j.
Proof. by move=> hj; rewrite divr_gt0 // lt_def rnz' ?rho_ge0 // ltnW. Qed.

Lemma cnrS j : (j < n)%N -> cnr j.+1 = sqrtC (be j) * cnr j.
Proof.
move=> hj; rewrite /cnr -sqrtCM ?nnegrE ?be_ge0 ?rho_ge0 // /be divfK //.
by apply: rnz'; apply: ltnW.
Qed.

Lemma cP_orth : orthonormal mp cP n.+1.
Proof.
move=> i j; rewrite !ltnS => hi hj; rewrite /cP (ipZl hmp) (ipZr hmp).
have [->|ne] := eqVneq i j.
  have -> : ((-1) ^+ j / cnr j)^* = (-1) ^+ j / cnr j.
    by rewrite rmorphM /= rmorphX /= rmorphN conjC1 geC0_conj // invr_ge0 (ltW (cnr_gt0 hj)).
  rewrite -/(rho j).
  have -> : rho j = cnr j ^+ 2 by rewrite sqrtCK.
  have ee : (-1) ^+ j * (-1) ^+ j = 1 :> C by rewrite -exprMn mulrNN mulr1 expr1n.
  have cn := cnr_nz hj; rewrite -[RHS]ee; move: ((-1) ^+ j) => e; field.
  exact: cn.
suff -> : mp (cr i) (cr j) = 0 by rewrite !mulr0.
move: ne; rewrite neq_ltn => /orP[h|h]; first exact: cg_orth.
by apply: mp_flip; apply: cg_orth.
Qed.

Lemma cg_lanczos : arnoldi_rel ip A M r0 n n.+1 cV cP cH.
Proof.
have V_ j : cV j = M (cP j) by rewrite /cV /cP (linZ hM).
split=> //.
- exact: cP_orth.
- move=> _; rewrite /cP expr0 div1r scalerA -[ipnorm _ _]/(cnr 0) mulfV ?scale1r //.
  exact: cnr_nz.
- move=> j hj; exists (cH j.+1 j *: cP j.+1).
  have Hs : cH j.+1 j = sqrtC (be j) / al j.
    by rewrite /cH leqNgt hj /= gtn_eqF // eqxx.
  have Hp : 0 < cH j.+1 j by rewrite Hs divr_gt0 ?sqrtC_gt0 ?be_gt0 ?al_gt0.
  have j1 : (j.+1 < n.+1)%N by [].
  split=> //.
  + have bnz : sqrtC (be j) != 0 by rewrite sqrtC_eq0 gt_eqF ?be_gt0.
    have anz := al_nz hj; have nrnz := cnr_nz (ltnW hj).
    have last : cH j.+1 j *: cP j.+1 = - ((-1) ^+ j / cnr j / al j) *: cr j.+1.
      rewrite Hs /cP scalerA cnrS // exprS; congr (_ *: _); field.
      by rewrite anz nrnz bnz.
    rewrite last.
    have Hd : cH j j = (al j)^-1 + (if j is j'.+1 then be j' / al j' else 0).
      by rewrite /cH leqNgt hj eqxx.
    case: j hj j1 Hs Hp bnz anz nrnz last Hd => [|i] hj j1 Hs Hp bnz anz nrnz last Hd.
      rewrite big_ord1 Hd addr0 /cV /cP (linZ hA).
      have -> : A (M (cr 0)) = (al 0)^-1 *: (cr 0 - cr 1) by rewrite -cg_A.
      by rewrite !scalerA scalerBr -scaleNr [X in X *: cr 0]mulrC.
    have hi : (i < n)%N by apply: ltnW.
    have binz : sqrtC (be i) != 0 by rewrite sqrtC_eq0 gt_eqF ?be_gt0.
    have ainz := al_nz hi; have nrinz := cnr_nz (ltnW hi).
    rewrite !big_ord_recr /= big1 ?add0r; last first.
      move=> k _; have hk := ltn_ord k; rewrite /cH leqNgt hj /= eqSS.
      by rewrite (ltn_eqF hk) (ltn_eqF (leqW hk)) (ltn_eqF (leqW (leqW hk))) scale0r.
    have Hu : cH i i.+1 = sqrtC (be i) / al i.
      by rewrite /cH leqNgt hj /= [i == i.+1]ltn_eqF // [i == i.+2]ltn_eqF ?eqxx // ltnW.
    rewrite Hd Hu /cV /cP (linZ hA).
    have -> : M (cr i.+1) = cp i.+1 - be i *: cp i by rewrite cpS addrK.
    rewrite (linB hA) (linZ hA) !cg_A // cnrS // exprS.
    rewrite !scalerBr !scalerA.
    set u := cr i; set v := cr i.+1; set w := cr i.+2.
    have eb : be i = sqrtC (be i) ^+ 2 by rewrite sqrtCK.
    have mod_eq a b c e : c = - b -> e = a + b ->
        a *: v - a *: w - (b *: u - b *: v) = c *: u + e *: v + - a *: w.
      by move=> -> ->; apply/matrixP => k l; rewrite !mxE; ring.
    apply: mod_eq.
      move: eb binz nrinz ainz; move: (sqrtC (be i)) (cnr i) (al i) ((-1) ^+ i).
      by move=> q c a e -> q0 c0 a0; field; rewrite q0 c0 a0.
    move: binz nrinz ainz anz; move: (sqrtC (be i)) (cnr i) (al i) (al i.+1) ((-1) ^+ i) (be i).
    by move=> q c a a' e b q0 c0 a0 a'0; field; rewrite q0 c0 a0 a'0.
  + move=> i hi; rewrite (ipZr hip) V_ -mpE.
    have := cP_orth (leq_trans (leq_ltn_trans hi (ltnSn j)) (leqW hj)) j1.
    by rewrite ltn_eqF ?ltnS // => ->; rewrite mulr0.
  + rewrite (ipnormZ hmp) gtr0_norm // /ipnorm (cP_orth j1 j1) eqxx sqrtC1 mulr1 //.
- move=> i j /orP[h|h]; rewrite /cH; last by rewrite h.
  case: ifP => // _.
  have ij : (j < i)%N by apply: ltnW.
  by rewrite gtn_eqF // gtn_eqF // gtn_eqF // ltnS ltnW.
Qed.
End Cg.
