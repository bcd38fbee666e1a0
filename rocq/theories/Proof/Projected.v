(** Givens rotations on columns, triangular systems, and the projected least squares
    problem of GMRES and MINRES. *)
From mathcomp Require Import all_ssreflect all_algebra.
From mathcomp Require Import ring.
From Verif Require Import Base Spec.LinAlg Proof.Algebra Model.Inner Spec.Inner Proof.Inner Model.Arnoldi.
From Verif Require Import Spec.Arnoldi Proof.IpTheory Proof.ArnoldiRel Model.Krylov.

Set Implicit Arguments.
Unset Strict Implicit.
Unset Printing Implicit Defensive.
Import Order.TTheory GRing.Theory Num.Theory.
Local Open Scope ring_scope.

Section Rot.
Variable C : numClosedFieldType.
Implicit Types (g : givens C) (f h b y : nat -> C) (G : nat -> givens C).

Definition unitary_g g : Prop := (gc g)^* = gc g /\ gc g * gc g + gs g * (gs g)^* = 1.

Lemma mk_givens_spec (a b : C) : let g := mk_givens a b in
  [/\ unitary_g g, gc g * a + gs g * b = gr g, - (gs g)^* * a + gc g * b = 0 &
      `|gr g| ^+ 2 = `|a| ^+ 2 + `|b| ^+ 2].
Proof.
move=> g; have [h1 h2 h3 h4] := givens_all a b.
have cr : (gc g)^* = gc g by apply/eqP; rewrite -CrealE.
split=> //.
- split=> //; have /matrixP/(_ 0 0) := h2.
  by rewrite !mxE !big_ord_recl big_ord0 !mxE /= addr0 cr rmorphN /= conjCK mulrNN => ->.
- by have /matrixP/(_ 0 0) := h3; rewrite !mxE !big_ord_recl big_ord0 !mxE /= addr0.
- by have /matrixP/(_ 1 0) := h3; rewrite !mxE !big_ord_recl big_ord0 !mxE /= addr0.
Qed.

Lemma rotE g k f i : rot g k f i = if i == k.+1 then - (gs g)^* * f k + gc g * f k.+1
   else if i == k then gc g * f k + gs g * f k.+1 else f i.
Proof. by []. Qed.

Lemma rot_ext g k f h : f =1 h -> rot g k f =1 rot g k h.
Proof. by move=> e i; rewrite !rotE !e. Qed.

Lemma rot_lin g k a f h i : rot g k (fun i => a * f i + h i) i = a * rot g k f i + rot g k h i.
Proof. by rewrite !rotE; do 2 (case: eqP => _; first by ring). Qed.

Lemma rot_norm g k f m : unitary_g g -> (k.+1 < m)%N ->
  \sum_(i < m) `|rot g k f i| ^+ 2 = \sum_(i < m) `|f i| ^+ 2.
Proof.
move=> [cr u] hk; have hk' : (k < m)%N by apply: ltn_trans hk.
have ne : Ordinal hk' != Ordinal hk by rewrite -val_eqE /= ltn_eqF.
rewrite (bigD1 (Ordinal hk)) //= (bigD1 (Ordinal hk')) //= [RHS](bigD1 (Ordinal hk)) //= [X in _ = _ + X](bigD1 (Ordinal hk')) //=.
rewrite !addrA; congr (_ + _); last first.
  apply: eq_bigr => i /andP[h1 h2]; rewrite rotE.
  by move: h1 h2; rewrite -!val_eqE /= => /negbTE-> /negbTE->.
rewrite !rotE eqxx ltn_eqF //= eqxx !normCK !(rmorphD, rmorphM, rmorphN) /= conjCK cr.
set c := gc g in cr u *; set s := gs g in u *; set s' := s^* in u *.
set a := f k; set b := f k.+1; set a' := a^*; set b' := b^*.
transitivity ((c * c + s * s') * (b * b' + a * a')); first by ring.
by rewrite u mul1r.
Qed.

(** The first n rotations. *)
Definition rots G n f : nat -> C := forn n (fun i f => rot (G i) i f) f.

Lemma rots_ext G n f h : f =1 h -> rots G n f =1 rots G n h.
Proof. by elim: n => // n IH e; apply: rot_ext; apply: IH. Qed.

Lemma rots_lin G n a f h i :
  rots G n (fun i => a * f i + h i) i = a * rots G n f i + rots G n h i.
Proof.
elim: n i => // n IH i; rewrite /rots /= -[forn n _ _]/(rots G n _).
by rewrite (@rot_ext _ _ _ (fun i => a * rots G n f i + rots G n h i)) // rot_lin.
Qed.

Lemma rots0 G n i : rots G n (fun _ => 0) i = 0.
Proof.
have := rots_lin G n (-1) (fun _ => 0) (fun _ => 0) i.
rewrite (@rots_ext _ _ _ (fun _ => 0)) => [|j]; last by rewrite mulr0 addr0.
by rewrite mulN1r addNr.
Qed.

Lemma rots_comb G n m (c : nat -> C) (F : nat -> nat -> C) f i :
  rots G n (fun i => f i - \sum_(j < m) c j * F i j) i =
  rots G n f i - \sum_(j < m) c j * rots G n (fun i => F i j) i.
Proof.
elim: m i => [|m IH] i.
  rewrite big_ord0 subr0; apply: rots_ext => j; by rewrite big_ord0 subr0.
rewrite big_ord_recr /= opprD addrA -IH addrC -mulNr -rots_lin.
by apply: rots_ext => j; rewrite big_ord_recr /= opprD addrA mulNr addrC.
Qed.

Lemma rots_norm G n f m : (forall i, (i < n)%N -> unitary_g (G i)) -> (n < m)%N ->
  \sum_(i < m) `|rots G n f i| ^+ 2 = \sum_(i < m) `|f i| ^+ 2.
Proof.
elim: n => // n IH hG hn; rewrite /rots /= -[forn n _ _]/(rots G n _) rot_norm ?IH //.
- by move=> i hi; apply: hG; apply: ltnW.
- exact: ltnW.
- exact: hG.
Qed.

Lemma rots_out G n f i : (n < i)%N -> rots G n f i = f i.
Proof.
elim: n => // n IH hi; rewrite /rots /= -[forn n _ _]/(rots G n _) rotE.
by rewrite gtn_eqF // gtn_eqF ?IH // ltnW.
Qed.

Lemma rots_G G G' n f : (forall i, (i < n)%N -> G i = G' i) -> rots G n f =1 rots G' n f.
Proof.
elim: n => // n IH e i; rewrite /rots /= -![forn n _ _]/(rots _ n _) e //.
by apply: rot_ext => j; apply: IH => i' hi'; apply: e; apply: ltnW.
Qed.

(** QR factorisation of the Hessenberg matrix after n steps. *)
Record qr_state n (H R : nat -> nat -> C) G b y : Prop := QrState {
  q_R : forall i j, (j < n)%N -> R i j = rots G n (fun i => H i j) i;
  q_tri : forall i j, (j < n)%N -> (j < i)%N -> R i j = 0;
  q_y : forall i, y i = rots G n b i;
  q_G : forall i, (i < n)%N -> unitary_g (G i);
  q_diag : forall j, (j < n)%N -> H j.+1 j != 0 -> R j j != 0;
  q_lucky : forall k, n = k.+1 -> H n k = 0 -> R k k != 0 -> b n = 0 -> y n = 0 }.

Lemma qr0 H R G b : qr_state 0 H R G b b.
Proof. by split. Qed.

Lemma qr_step n H R G b y H' R' G' y' :
  qr_state n H R G b y ->
  (forall i j, (j < n)%N -> H' i j = H i j) ->
  (forall i, (n.+1 < i)%N -> H' i n = 0) ->
  (forall i, (i < n)%N -> G' i = G i) ->
  let col := rots G n (fun i => H' i n) in
  G' n = mk_givens (col n) (col n.+1) ->
  (forall i j, R' i j = if j == n then rot (G' n) n col i else R i j) ->
  (forall i, y' i = rot (G' n) n y i) ->
  qr_state n.+1 H' R' G' b y'.
Proof.
move=> q hH hh hG col hg hR hy; have [u e1 e2 e3] := mk_givens_spec (col n) (col n.+1).
rewrite -hg in u e1 e2 e3.
have rS f : rots G' n.+1 f =1 rot (G' n) n (rots G n f).
  by move=> i; rewrite /rots /=; apply: rot_ext => j; apply: rots_G => i'; apply: hG.
split.
- move=> i j; rewrite ltnS leq_eqVlt hR rS => /orP[/eqP->|hj]; first by rewrite eqxx.
  rewrite ltn_eqF // (@rot_ext _ _ _ (fun i => R i j)); last first.
    by move=> i'; rewrite (q_R q) //; apply: rots_ext => i''; apply: hH.
  have z1 : R n j = 0 by rewrite (q_tri q).
  have z2 : R n.+1 j = 0 by rewrite (q_tri q) // ltnW.
  rewrite rotE z1 z2 !mulr0 !addr0.
  by case: eqP => [->|_]; [rewrite z2|case: eqP => [->|_]; rewrite ?z1].
- move=> i j; rewrite ltnS leq_eqVlt hR => /orP[/eqP->|hj] hi; last first.
    by rewrite ltn_eqF // (q_tri q).
  rewrite eqxx rotE e2 [i == n]gtn_eqF //; case: eqP => // /eqP ne.
  have hi' : (n.+1 < i)%N by rewrite ltn_neqAle eq_sym ne.
  by rewrite /col rots_out ?hh // ltnW.
- by move=> i; rewrite hy rS; apply: rot_ext => j; rewrite (q_y q).
- move=> i; rewrite ltnS leq_eqVlt => /orP[/eqP->//|hi]; rewrite hG //; exact: q_G q _ hi.
- move=> j; rewrite ltnS leq_eqVlt hR => /orP[/eqP->|hj]; last first.
    by rewrite ltn_eqF // hH //; apply: (q_diag q).
  move=> nz; rewrite eqxx rotE [n == n.+1]ltn_eqF // eqxx e1; apply/eqP => g0.
  move: e3; rewrite g0 normr0 expr0n => /esym/eqP; rewrite paddr_eq0 ?exprn_ge0 // => /andP[_].
  by rewrite expf_eq0 normr_eq0 /= /col rots_out // (negbTE nz).
- move=> k [<-] h0; rewrite hR eqxx rotE [n == n.+1]ltn_eqF // eqxx => nz b0.
  have c0 : col n.+1 = 0 by rewrite /col rots_out.
  rewrite hy rotE eqxx (q_y q n.+1) rots_out // b0 mulr0 addr0.
  move: e2 nz; rewrite c0 !mulr0 !addr0 => /eqP; rewrite mulf_eq0 => /orP[/eqP->|/eqP->].
    by rewrite mul0r.
  by rewrite mulr0 eqxx.
Qed.

Section Lsq.
Variables (n : nat) (H R : nat -> nat -> C) (G : nat -> givens C) (b y : nat -> C).
Hypothesis q : qr_state n H R G b y.

Lemma lsq (c : nat -> C) : \sum_(i < n.+1) `|b i - \sum_(j < n) c j * H i j| ^+ 2 =
  \sum_(i < n) `|y i - \sum_(j < n) c j * R i j| ^+ 2 + `|y n| ^+ 2.
Proof.
pose f i := b i - \sum_(j < n) c j * H i j.
transitivity (\sum_(i < n.+1) `|rots G n f i| ^+ 2); first by rewrite (rots_norm f (q_G q)).
rewrite big_ord_recr /=.
have e i : rots G n f i = y i - \sum_(j < n) c j * R i j.
  rewrite [LHS](rots_comb G n n c H b i) -(q_y q); congr (_ - _); apply: eq_bigr => j _.
  by rewrite (q_R q).
rewrite e [X in y n - X]big1 ?subr0; last by move=> j _; rewrite (q_tri q) ?mulr0.
by congr (_ + _); apply: eq_bigr => i _; rewrite e.
Qed.

(** The norm of H c. *)
Lemma qr_norm (c : nat -> C) : \sum_(i < n.+1) `|\sum_(j < n) c j * H i j| ^+ 2 =
  \sum_(i < n) `|\sum_(j < n) c j * R i j| ^+ 2.
Proof.
pose f i := \sum_(j < n) c j * H i j.
have e i : rots G n f i = \sum_(j < n) c j * R i j.
  have := rots_comb G n n c H (fun _ => 0) i; rewrite rots0 add0r.
  have := rots_lin G n (-1) f (fun _ => 0) i; rewrite rots0 addr0 mulN1r.
  rewrite (@rots_ext _ _ _ (fun i => 0 - \sum_(j < n) c j * H i j)); last first.
    by move=> j; rewrite mulN1r addrC.
  move=> -> /oppr_inj ->; apply: eq_bigr => j _; by rewrite (q_R q).
transitivity (\sum_(i < n.+1) `|rots G n f i| ^+ 2); first by rewrite (rots_norm f (q_G q)).
rewrite big_ord_recr /= e [X in `|X|]big1 ?normr0 ?expr0n ?addr0.
  by apply: eq_bigr => i _; rewrite e.
by move=> j _; rewrite (q_tri q) ?mulr0.
Qed.
End Lsq.
End Rot.

Section Tri.
Variable C : numClosedFieldType.
Implicit Types (R : nat -> nat -> C) (b x : nat -> C).

Lemma backsub_spec R b k n : (n <= k)%N -> (forall i, (i < k)%N -> R i i != 0) ->
  forall i, (k - n <= i)%N -> (i < k)%N -> \sum_(i <= j < k) R i j * backsub R b k n j = b i.
Proof.
move=> hn hd; elim: n hn => [|n IH] hn i hi hk.
  by rewrite subn0 in hi; move: hk; rewrite ltnNge hi.
have hk' : (k - n.+1 < k)%N by rewrite ltn_subrL (leq_ltn_trans _ hn).
rewrite /= -/(backsub R b k n); set a := (_ / _).
case: (eqVneq i (k - n.+1)%N) => [->|ne].
  rewrite big_ltn // updE (eq_big_nat _ _ (F2 := fun j => R (k - n.+1)%N j * backsub R b k n j)); last first.
    by move=> j /andP[hj _]; rewrite updN // gtn_eqF.
  by rewrite /a mulrCA mulfV ?mulr1 ?subrK // hd.
have hi' : (k - n <= i)%N.
  by move: hi; rewrite leq_eqVlt eq_sym (negbTE ne) /= -subSn // subSS.
rewrite (eq_big_nat _ _ (F2 := fun j => R i j * backsub R b k n j)); first exact: (IH (ltnW hn)).
move=> j /andP[hj _]; rewrite updN // gtn_eqF // (leq_trans _ hj) //.
by rewrite (leq_trans _ hi') // -subSn // subSS.
Qed.

Lemma solve_tri_ok R b k x : solve_tri R b k = Ok x -> (forall i, (i < k)%N -> R i i != 0) /\
  ((forall i j, (j < k)%N -> (j < i)%N -> R i j = 0) ->
   forall i, (i < k)%N -> \sum_(j < k) x j * R i j = b i).
Proof.
rewrite /solve_tri; case: ifP => // /hasPn h [<-].
have hd i : (i < k)%N -> R i i != 0 by move=> hi; apply: h; rewrite mem_iota.
split=> // tri i hi; rewrite -(backsub_spec b (leqnn k) hd (i := i)) ?subnn //.
rewrite -(big_mkord xpredT (fun j => backsub R b k k j * R i j)) (big_cat_nat _ (n := i)) //=; last exact: ltnW.
rewrite big_nat big1 ?add0r; last by move=> j /andP[_ hj]; rewrite tri ?mulr0 // (ltn_trans hj).
by apply: eq_bigr => j _; rewrite mulrC.
Qed.

Lemma solve_tri_total R b k : (forall i, (i < k)%N -> R i i != 0) -> exists x, solve_tri R b k = Ok x.
Proof.
move=> h; rewrite /solve_tri; case: ifP; last by eexists.
by move=> /hasP[i]; rewrite mem_iota => /h /negbTE ->.
Qed.

(** A triangular matrix with a zero on the diagonal has a kernel. *)
Lemma tri_kernel R k i : (forall i j, (j < k)%N -> (j < i)%N -> R i j = 0) ->
  (i < k)%N -> R i i = 0 ->
  exists c : nat -> C, (exists2 j, (j < k)%N & c j != 0) /\ forall i, (i < k)%N -> \sum_(j < k) c j * R i j = 0.
Proof.
move=> tri hi hz; have ex : exists i, (i < k)%N && (R i i == 0) by exists i; rewrite hi hz eqxx.
case: (ex_minnP ex) => l /andP[hl /eqP rl] hmin {i hi hz ex}.
have hd i : (i < l)%N -> R i i != 0.
  move=> hi; apply/negP => h0; have := hmin i; rewrite (ltn_trans hi hl) h0 => /(_ isT).
  by rewrite leqNgt hi.
have [x Ex] := @solve_tri_total R (fun i => R i l) l hd.
have [_ hx] := solve_tri_ok Ex.
have {}hx i : (i < l)%N -> \sum_(j < l) x j * R i j = R i l.
  by apply: hx => i' j hj; apply: tri; apply: ltn_trans hl.
exists (fun j => if (j < l)%N then x j else if j == l then -1 else 0); split.
  by exists l => //; rewrite ltnn eqxx oppr_eq0 oner_eq0.
move=> i hi; rewrite -(big_mkord xpredT (fun j => (if (j < l)%N then x j else if j == l then -1 else 0) * R i j)).
rewrite (big_cat_nat _ (n := l)) //=; last exact: ltnW.
rewrite [X in _ + X]big_ltn // ltnn eqxx mulN1r [X in _ + (_ + X)]big_nat [X in _ + (_ + X)]big1 ?addr0; last first.
  by move=> j /andP[hj _]; rewrite ltnNge (ltnW hj) /= gtn_eqF ?mul0r.
have e : \sum_(0 <= j < l) (if (j < l)%N then x j else if j == l then -1 else 0) * R i j
       = \sum_(j < l) x j * R i j.
  by rewrite big_mkord; apply: eq_bigr => j _; rewrite ltn_ord.
rewrite e; case: (ltngtP i l) => [hil|hil|->].
- by rewrite hx // subrr.
- rewrite tri // subr0 big1 // => j _; rewrite tri ?mulr0 //; first by rewrite (ltn_trans (ltn_ord j)).
  exact: ltn_trans (ltn_ord j) hil.
- by rewrite rl subr0 big1 // => j _; rewrite tri ?mulr0 // (ltn_trans (ltn_ord j)).
Qed.
End Tri.

(** Residuals in the basis: for x = sum_(j<n) c_j V_j,
    ||v - A x||^2 = sum_(i<=n) |beta delta_i0 - sum_j H_ij c_j|^2. *)
Section Res.
Variable C : numClosedFieldType.
Variable N : nat.
Local Notation vec := 'cV[C]_N.
Variables (ip : vec -> vec -> C) (A M : vec -> vec) (v : vec).
Hypothesis hip : is_ip ip.
Hypothesis hA : is_linear A.
Hypothesis hM : is_linear M.
Hypothesis hMsa : self_adjoint ip M.
Hypothesis hMpd : pos_def ip M.
Let mp := mip ip M.
Let hmp : is_ip mp := hmp hip hM hMsa hMpd.
Variables (n m : nat) (V P : nat -> vec) (H : nat -> nat -> C).
Hypothesis R : arnoldi_rel ip A M v n m V P H.
Hypothesis hm : m = n.+1 \/ m = n /\ ((0 < n)%N \/ v = 0).

Lemma sum_norm (f : nat -> C) k : \sum_(i < k) (f i)^* * f i = \sum_(i < k) `|f i| ^+ 2.
Proof. by apply: eq_bigr => i _; rewrite normCK mulrC. Qed.

(** general combination: a v - A x *)
Lemma rel_comb (a : C) (c : nat -> C) :
  mp (a *: v - A (\sum_(j < n) c j *: V j)) (a *: v - A (\sum_(j < n) c j *: V j)) =
  \sum_(i < n.+1) `|(if i == 0%N :> nat then a * ipnorm mp v else 0) - \sum_(j < n) c j * H i j| ^+ 2.
Proof.
rewrite (lin_sum hA) (eq_bigr (fun j : 'I_n => c j *: A (V j))); last by move=> j _; rewrite (linZ hA).
have first k : (0 < m)%N -> (0 < k)%N ->
    a *: v = \sum_(i < k) (if i == 0%N :> nat then a * ipnorm mp v else 0) *: P i.
  move=> m0; case: k => // k _; rewrite big_ord_recl /= big1 ?addr0; last first.
    by move=> i _; rewrite /= scale0r.
  by rewrite -scalerA -(ar_first R).
have comb k : (0 < m)%N -> (0 < k)%N -> a *: v - \sum_(j < n) c j *: (\sum_(i < k) H i j *: P i) =
  \sum_(i < k) ((if i == 0%N :> nat then a * ipnorm mp v else 0) - \sum_(j < n) c j * H i j) *: P i.
  move=> m0 k0; rewrite (first k) //.
  rewrite [X in _ - X](_ : _ = \sum_(i < k) (\sum_(j < n) c j * H i j) *: P i); last first.
    transitivity (\sum_(j < n) \sum_(i < k) (c j * H i j) *: P i).
      by apply: eq_bigr => j _; rewrite scaler_sumr; apply: eq_bigr => i _; rewrite scalerA.
    rewrite exchange_big; apply: eq_bigr => i _; by rewrite scaler_suml.
  by rewrite -sumrB; apply: eq_bigr => i _; rewrite scalerBl.
case: hm => [em|[em hn]].
  (* all vectors present *)
  have m0 : (0 < m)%N by rewrite em.
  rewrite (eq_bigr (fun j : 'I_n => c j *: (\sum_(i < n.+1) H i j *: P i))); last first.
    by move=> j _; rewrite (rel_fullsum R (k := n.+1)) ?em ?ltnS.
  rewrite comb // (@ortho_ip _ _ _ hmp P n.+1 (fun i => (if i == 0%N then a * ipnorm mp v else 0) - \sum_(j < n) c j * H i j) (fun i => (if i == 0%N then a * ipnorm mp v else 0) - \sum_(j < n) c j * H i j)).
    exact: (sum_norm (fun i => (if i == 0%N then a * ipnorm mp v else 0) - \sum_(j < n) c j * H i j)).
  by apply: ortho_sub (ar_orth R); rewrite em.
case: (posnP n) => [n0|n0].
  (* no vector at all *)
  have {hn} v0 : v = 0 by case: hn => //; rewrite n0.
  have eN : (\sum_(j < n) c j *: A (V j) : vec) = 0.
    by apply: big1 => j _; have := ltn_ord j; rewrite {2}n0.
  rewrite eN v0 scaler0 subr0 (ipr0 hmp) (ipnorm0 hmp) big1 // => i _.
  by rewrite mulr0 if_same add0r normrN big1 ?normr0 ?expr0n // => j _; have := ltn_ord j; rewrite {2}n0.
case: n n0 R hm em hn first comb => // n' _ R' _ em _ first comb; rewrite em in R'.
have [h1 [w [h2 h3 h4]]] := rel_trunc R'.
pose f i := (if i == 0%N then a * ipnorm mp v else 0) - \sum_(j < n'.+1) c j * H i j.
have -> : a *: v - \sum_(j < n'.+1) c j *: A (V j) = \sum_(i < n'.+1) f i *: P i - c n' *: w.
  rewrite /f -comb ?em // !big_ord_recr /= h2 scalerDr !opprD !addrA.
  rewrite [X in c n' *: X]big_ord_recr /= (eq_bigr (fun j : 'I_n' => c j *: (\sum_(i < n'.+1) H i j *: P i))) //.
  by move=> j _; rewrite h1.
have o : mp (\sum_(i < n'.+1) f i *: P i) (- (c n' *: w)) = 0.
  rewrite -scaleN1r scalerA (ip_suml hmp) big1 // => i _; rewrite (ipZl hmp) (ipZr hmp).
  have hi : (i < n'.+1)%N by [].
  have -> : mp (P i) w = 0 by rewrite -[LHS](rel_Vip hMsa R' w hi) h4.
  by rewrite !mulr0.
rewrite (pythagoras hmp o) (@ortho_ip _ _ _ hmp P n'.+1 f f); last exact: (ar_orth R').
rewrite (sum_norm f).
rewrite [RHS]big_ord_recr /=; congr (_ + _).
rewrite (ipNl hmp) (ipNr hmp) opprK (ipZl hmp) (ipZr hmp) -(ipnorm_sq mp w) h3 /=.
rewrite add0r normrN big_ord_recr /= big1 ?add0r; last first.
  by move=> j _; rewrite (ar_hess R') ?mulr0 //= !ltnS ltn_ord.
rewrite normrM exprMn mulrA [(c n')^* * _]mulrC -normCK; congr (_ * _).
by rewrite ger0_norm // -h3 (ipnorm_ge0 hmp).
Qed.
End Res.
