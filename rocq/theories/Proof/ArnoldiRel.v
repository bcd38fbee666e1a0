(** Consequences of an Arnoldi relation, independent of how it was computed. *)
From mathcomp Require Import all_ssreflect all_algebra.
From mathcomp Require Import ring.
From Verif Require Import Base Spec.LinAlg Proof.Algebra Proof.IpTheory Spec.Arnoldi.

Set Implicit Arguments.
Unset Strict Implicit.
Unset Printing Implicit Defensive.
Import Order.TTheory GRing.Theory Num.Theory.
Local Open Scope ring_scope.

Section Rel.
Variable C : numClosedFieldType.
Variable N : nat.
Local Notation vec := 'cV[C]_N.
Variables (ip : vec -> vec -> C) (A M : vec -> vec) (v : vec).
Hypothesis hip : is_ip ip.
Hypothesis hA : is_linear A.
Hypothesis hM : is_linear M.
Hypothesis hMsa : self_adjoint ip M.
Hypothesis hMpd : pos_def ip M.
Let mp := mip ip M.

Lemma hmp : is_ip mp.
Proof.
split=> [x a y z|x y|x x0].
- by rewrite /mp /mip hM (ip_linr hip).
- by rewrite /mp /mip -(ipC hip) hMsa.
- exact: hMpd.
Qed.

Section One.
Variables (n m : nat) (V P : nat -> vec) (H : nat -> nat -> C).
Hypothesis R : arnoldi_rel ip A M v n m V P H.

Lemma rel_Vip j x : (j < m)%N -> ip (V j) x = mp (P j) x.
Proof. by move=> hj; rewrite (ar_V R) // hMsa. Qed.

(** With all basis vectors present: A V_j = sum_(i <= j+1) H_ij P_i. *)
Lemma rel_full' j : (j < n)%N -> (j.+1 < m)%N -> A (V j) = \sum_(i < j.+2) H i j *: P i.
Proof.
move=> hj hm; have [w [h1 _ _ h4]] := ar_step R hj; have [e _] := h4 hm.
by rewrite big_ord_recr /= h1 -e.
Qed.

Lemma rel_fullsum j k : (j < n)%N -> (j.+1 < m)%N -> (j.+2 <= k)%N ->
  A (V j) = \sum_(i < k) H i j *: P i.
Proof.
move=> hj hm hk; rewrite rel_full' // -(subnKC hk) big_split_ord /= [X in _ + X]big1 ?addr0 // => i _.
by rewrite (ar_hess R) ?scale0r // ltn_addr.
Qed.

(** The entries of H are inner products. *)
Lemma rel_entry i j : (j < n)%N -> (j < m)%N -> (i <= j)%N -> H i j = ip (V i) (A (V j)).
Proof.
move=> hj hm hij; have [w [h1 h2 _ _]] := ar_step R hj.
have him : (i < m)%N by apply: leq_ltn_trans hm.
rewrite h1 (ipDr hip) h2 // addr0 rel_Vip // (@ortho_coef _ _ _ hmp P j.+1 (fun i => H i j)) //.
by apply: ortho_sub (ar_orth R).
Qed.

Lemma rel_size : (m <= N)%N.
Proof. by apply: (ortho_size hmp (ar_orth R)). Qed.

(** P_0..P_(j) span the Krylov space of A M and v. *)
Lemma rel_krylov k : (k <= m)%N -> (k <= n.+1)%N -> v != 0 ->
  (forall j, (j < k)%N -> in_span P j.+1 (krylov (fun x => A (M x)) v j)) /\
  (forall j, (j < k)%N -> in_span (krylov (fun x => A (M x)) v) j.+1 (P j)).
Proof.
move=> hkm hkn v0; pose F x := A (M x); have hF : is_linear F by apply: lin_comp.
have nv : ipnorm mp v != 0 by rewrite (ipnorm_eq0 hmp).
elim: k hkm hkn => [|k IH] hkm hkn; first by split.
have [IH1 IH2] := IH (ltnW hkm) (ltnW hkn); case: k => [|k] in IH IH1 IH2 hkm hkn *.
  have e0 := ar_first R hkm; split=> -[|//] _.
    by rewrite /krylov /= e0; apply: spanZ; apply: span_mem.
  have -> : P 0%N = (ipnorm mp v)^-1 *: v by rewrite {2}e0 scalerA mulVf // scale1r.
  by apply: spanZ; apply: (@span_mem _ _ (krylov F v) 1 0).
have Pk1 : exists2 y, in_span P k.+1 y & A (V k) = y + H k.+1 k *: P k.+1.
  rewrite rel_full' // big_ord_recr /=; eexists; last reflexivity.
  by apply: span_sum => i _; apply: spanZ; apply: span_mem.
have [y hy ey] := Pk1; have [w [_ _ _ h4]] := ar_step R (hkn : (k < n)%N).
have [_ hpos] := h4 hkm.
have FP i : (i < k.+1)%N -> in_span P i.+2 (F (P i)).
  move=> hi; rewrite /F -(ar_V R) ?rel_full' ?(leq_trans _ hkm) ?(leq_trans hi) //.
    by apply: span_sum => l _; apply: spanZ; apply: span_mem.
split=> j; rewrite ltnS leq_eqVlt => /orP[/eqP->|hj]; try (by apply: IH1); try (by apply: IH2).
  change (in_span P k.+2 (F (krylov F v k))); have [c ->] := IH1 k (ltnSn _).
  rewrite (lin_sum hF); apply: span_sum => i _; rewrite (linZ hF); apply: spanZ.
  by apply: span_widen (FP i (ltn_ord i)); rewrite ltnS ltn_ord.
have -> : P k.+1 = (H k.+1 k)^-1 *: (A (V k) - y).
  by rewrite ey addrAC subrr add0r scalerA mulVf ?scale1r // gt_eqF.
apply: spanZ; apply: spanB.
  rewrite (ar_V R) ?(ltnW hkm) //; change (in_span (krylov F v) k.+2 (F (P k))).
  have [c ->] := IH2 k (ltnSn _).
  rewrite (lin_sum hF); apply: span_sum => i _; rewrite (linZ hF); apply: spanZ.
  by apply: (@span_mem _ _ (krylov F v) k.+2 i.+1); rewrite ltnS ltn_ord.
apply: span_trans hy _ => i hi; apply: span_widen (IH2 i hi); exact: leqW.
Qed.

End One.

(** One more step. *)
Lemma rel_extend k V P H V' P' H' m w :
  arnoldi_rel ip A M v k k.+1 V P H ->
  (forall j, (j <= k)%N -> V' j = V j /\ P' j = P j) ->
  (forall i j, (j < k)%N -> H' i j = H i j) ->
  A (V k) = \sum_(i < k.+1) H' i k *: P i + w ->
  (forall i, (i <= k)%N -> mp (P i) w = 0) -> H' k.+1 k = ipnorm mp w ->
  (forall i j, (k.+1 < i)%N && (j == k) || (k < j)%N -> H' i j = 0) ->
  m = k.+1 \/ [/\ m = k.+2, w = H' k.+1 k *: P' k.+1, 0 < H' k.+1 k & V' k.+1 = M (P' k.+1)] ->
  arnoldi_rel ip A M v k.+1 m V' P' H'.
Proof.
move=> R hVP hH hAV hw hn hz hm.
have orthk : orthonormal mp P' k.+1.
  by apply: ortho_ext (ar_orth R) => j hj; have [_ ->] := hVP j hj.
split.
- move=> j hj; case: (leqP j k) => [hj'|hj'].
    by have [-> ->] := hVP j hj'; rewrite (ar_V R).
  case: hm => [e|[e _ _ e']]; rewrite e in hj; first by move: hj; rewrite ltnS leqNgt hj'.
  by suff -> : j = k.+1 by []; apply/eqP; rewrite eqn_leq hj' andbT -ltnS.
- case: hm => [->//|[-> e hp _]]; have nz : H' k.+1 k != 0 by rewrite gt_eqF.
  have eP : P' k.+1 = (H' k.+1 k)^-1 *: w by rewrite e scalerA mulVf // scale1r.
  apply: (orthoS hmp orthk).
    rewrite eP (ipZl hmp) (ipZr hmp) -(ipnorm_sq mp) -hn.
    have -> : ((H' k.+1 k)^-1)^* = (H' k.+1 k)^-1.
      by apply: CrealP; rewrite rpredV ger0_real // ltW.
    by rewrite expr2 mulKf // mulVf.
  by move=> j hj; rewrite eP (ipZr hmp); have [_ ->] := hVP j hj; rewrite hw // mulr0.
- by move=> _; have [_ ->] := hVP 0%N (leq0n _); apply: (ar_first R).
- move=> j; rewrite ltnS leq_eqVlt => /orP[/eqP->|hj]; last first.
    have [w' [h1 h2 h3 h4]] := ar_step R hj; exists w'; split.
    + have [-> _] := hVP j (ltnW hj); rewrite h1; congr (_ + _); apply: eq_bigr => i _.
      rewrite hH //; have [|_ ->//] := hVP i.
      by rewrite (leq_trans _ hj) // -ltnS leqW.
    + by move=> i hij; have [|-> _] := hVP i; rewrite ?h2 // (leq_trans hij) // ltnW.
    + by rewrite hH.
    + by move=> _; rewrite hH //; have [_ ->] := hVP j.+1 hj; apply: h4; rewrite ltnS.
  have [eV _] := hVP k (leqnn _); exists w; split=> //.
  + rewrite eV hAV; congr (_ + _); apply: eq_bigr => i _.
    by have [|_ ->//] := hVP i; rewrite -ltnS.
  + by move=> i hi; have [-> _] := hVP i hi; rewrite (rel_Vip R) // hw.
  + by case: hm => [->|[-> ? ? _] _]; rewrite ?ltnn.
- move=> i j h; case: (ltngtP j k) => hj.
  + rewrite hH // (ar_hess R) //; case/orP: h => [->//|h].
    by move: (ltn_trans h hj); rewrite ltnn.
  + by rewrite hz // hj orbT.
  + rewrite hz // hj eqxx andbT; move: h; rewrite hj ltnn !orbF //.
Qed.

(** Uniqueness: two Arnoldi relations for the same data agree. *)
Lemma rel_unique n m V P H n' m' V' P' H' :
  arnoldi_rel ip A M v n m V P H -> arnoldi_rel ip A M v n' m' V' P' H' -> v != 0 ->
  forall k, (k <= m)%N -> (k <= m')%N -> (k <= n.+1)%N -> (k <= n'.+1)%N ->
  forall j, (j < k)%N ->
  [/\ P j = P' j, V j = V' j & (j < n)%N -> (j < n')%N -> forall i, H i j = H' i j].
Proof.
move=> R R' v0; have nv : ipnorm mp v != 0 by rewrite (ipnorm_eq0 hmp).
elim=> [//|k IH] hm hm' hn hn' j; rewrite ltnS leq_eqVlt => /orP[/eqP->|hj]; last first.
  by apply: IH => //; apply: ltnW.
have {}IH := IH (ltnW hm) (ltnW hm') (ltnW hn) (ltnW hn').
have eP : P k = P' k.
  case: k IH hm hm' hn hn' => [|k] IH hm hm' hn hn'.
    by apply: (scalerI nv); rewrite -(ar_first R) // -(ar_first R').
  have [w [h1 _ h3 h4]] := ar_step R (hn : (k < n)%N).
  have [w' [h1' _ h3' h4']] := ar_step R' (hn' : (k < n')%N).
  have [_ eV eH] := IH k (ltnSn _); have {}eH := eH hn hn'.
  have ew : w = w'.
    have := h1; rewrite eV h1' => e.
    have es : \sum_(i < k.+1) H' i k *: P' i = \sum_(i < k.+1) H i k *: P i.
      by apply: eq_bigr => i _; rewrite eH; have [-> _ _] := IH i (ltn_ord i).
    by move: e; rewrite es => /addrI.
  have [e1 p1] := h4 hm; have [e1' _] := h4' hm'.
  have nz : H k.+1 k != 0 by rewrite gt_eqF.
  by apply: (scalerI nz); rewrite -e1 eH -e1' ew.
have eV : V k = V' k by rewrite (ar_V R) // (ar_V R') // eP.
split=> // h h' i.
have ePl l : (l <= k)%N -> P l = P' l /\ V l = V' l.
  by rewrite leq_eqVlt => /orP[/eqP->//|hl]; have [] := IH l hl.
have low l : (l <= k)%N -> H l k = H' l k.
  by move=> hl; rewrite (rel_entry R) // (rel_entry R') // eV; have [_ ->] := ePl l hl.
case: (leqP i k) => [/low //|]; rewrite leq_eqVlt => /orP[/eqP<-|hi]; last first.
  by rewrite (ar_hess R) ?hi // (ar_hess R') ?hi.
have [w [h1 _ -> _]] := ar_step R h; have [w' [h1' _ -> _]] := ar_step R' h'.
suff -> : w = w' by [].
have := h1; rewrite eV h1' (_ : \sum_(i < k.+1) H' i k *: P' i = \sum_(i < k.+1) H i k *: P i).
  by move/addrI.
apply: eq_bigr => l _; have hl : (l <= k)%N by rewrite -ltnS.
by rewrite low //; have [-> _] := ePl l hl.
Qed.

(** For a self-adjoint operator H is real, symmetric and tridiagonal. *)
Lemma rel_herm n m V P H : self_adjoint ip A -> arnoldi_rel ip A M v n m V P H ->
  (n <= m)%N ->
  [/\ forall i j, (i < n)%N -> (j < n)%N -> H i j \is Num.real,
      forall i j, (i < n)%N -> (j < n)%N -> H i j = H j i
    & forall i j, (i.+1 < j)%N -> H i j = 0].
Proof.
move=> hsa R hnm.
have up i j : (i < j)%N -> (j < n)%N -> H i j = if i.+1 == j then H j i else 0.
  move=> hij hj; have hjm := leq_trans hj hnm; have hin := ltn_trans hij hj.
  rewrite (rel_entry R) // ?(ltnW hij) // -hsa (rel_full' R) //; last exact: leq_ltn_trans hij hjm.
  rewrite (ip_suml hip) (eq_bigr (fun l : 'I_i.+2 => (H l i)^* * (l == j :> nat)%:R)); last first.
    move=> l _; rewrite (ipZl hip) (ar_V R hjm) -[ip (P l) _]/(mip ip M (P l) (P j)) (ar_orth R) //.
    by apply: leq_ltn_trans hjm; apply: leq_trans hij; rewrite -ltnS.
  case: eqP => [e|ne].
    rewrite -e big_ord_recr /= eqxx mulr1 big1 ?add0r.
      have [w [_ _ -> _]] := ar_step R hin.
      by apply: CrealP; rewrite ger0_real // ipnorm_ge0 // -/mp; apply: hmp.
    by move=> l _; rewrite ltn_eqF ?mulr0 //=.
  rewrite big1 // => l _; rewrite ltn_eqF ?mulr0 //.
  by apply: leq_trans (ltn_ord l) _; rewrite ltn_neqAle (introN eqP ne) hij.
have lo i j : (i < n)%N -> (j <= i)%N -> H i j \is Num.real.
  move=> hi; rewrite leq_eqVlt => /orP[/eqP->|hji].
    rewrite (rel_entry R) //; last exact: leq_trans hi hnm.
    by apply/CrealP; rewrite -(ipC hip) hsa.
  case: (eqVneq i j.+1) => [->|ne]; last first.
    by rewrite (ar_hess R) ?rpred0 // ltn_neqAle eq_sym ne hji.
  have [w [_ _ -> _]] := ar_step R (ltn_trans hji hi).
  by rewrite ger0_real // ipnorm_ge0 // -/mp; apply: hmp.
split=> [i j hi hj|i j hi hj|i j hij].
- case: (leqP j i) => h; first exact: lo.
  by rewrite up //; case: ifP => _; rewrite ?rpred0 //; apply: lo => //; apply: ltnW.
- case: (ltngtP i j) => [h|h|->//].
    rewrite up //; case: eqP => // ne; rewrite (ar_hess R) // ltn_neqAle h andbT.
    by rewrite (introN eqP ne).
  rewrite [RHS]up //; case: eqP => // ne; rewrite (ar_hess R) // ltn_neqAle h andbT.
  by rewrite (introN eqP ne).
- case: (ltnP j n) => hj; last by rewrite (ar_hess R) // hj orbT.
  by rewrite up // ?ltn_eqF // ltnW.
Qed.

(** The relation after truncation (invariant subspace): the remainder is one vector
    of norm H_(n,n-1). *)
Lemma rel_trunc n V P H : arnoldi_rel ip A M v n.+1 n.+1 V P H ->
  (forall j, (j < n)%N -> A (V j) = \sum_(i < n.+1) H i j *: P i) /\
  (exists w, [/\ A (V n) = \sum_(i < n.+1) H i n *: P i + w, ipnorm mp w = H n.+1 n
             & forall i, (i <= n)%N -> ip (V i) w = 0]).
Proof.
move=> R; split=> [j hj|]; first by apply: (rel_fullsum R) => //; rewrite ltnW.
by have [w [h1 h2 h3 _]] := ar_step R (ltnSn n); exists w; split.
Qed.

(** In the whole space nothing remains. *)
Lemma rel_last0 n m V P H : arnoldi_rel ip A M v n m V P H -> (n <= m)%N -> n = N ->
  (0 < N)%N -> H N N.-1 = 0.
Proof.
move=> R hm e N0; have mN := rel_size R; rewrite e in R hm.
have em : m = N by apply/eqP; rewrite eqn_leq mN hm.
have [|w [_ h2 h3 _]] := ar_step R (j := N.-1); first by rewrite prednK.
rewrite prednK // in h3; rewrite h3; apply/eqP; rewrite (ipnorm_eq0 hmp).
apply/negP => /negP w0.
pose P' := upd P N ((ipnorm mp w)^-1 *: w).
suff : orthonormal mp P' N.+1 by move/(ortho_size hmp); rewrite ltnn.
have e' j : (j < N)%N -> P' j = P j by move=> hj; rewrite /P' /upd ltn_eqF.
have eN : P' N = (ipnorm mp w)^-1 *: w by rewrite /P' /upd eqxx.
have nw : ipnorm mp w != 0 by rewrite (ipnorm_eq0 hmp).
apply: (orthoS hmp).
- by apply: ortho_ext (ortho_sub _ (ar_orth R)) => [j hj|]; rewrite ?e' // em.
- rewrite eN (ipZl hmp) (ipZr hmp) -(ipnorm_sq mp w) fmorphV.
  rewrite (CrealP (ger0_real (ipnorm_ge0 hmp w))) expr2 mulKf // mulVf //.
- move=> j hj; rewrite e' // eN (ipZr hmp) -(rel_Vip R) ?em //.
  by rewrite h2 ?mulr0 // -ltnS prednK.
Qed.
End Rel.
