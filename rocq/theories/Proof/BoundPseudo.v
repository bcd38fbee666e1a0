(** bound_pseudo without pseudospectra. *)
From mathcomp Require Import all_ssreflect all_algebra perm.
From Verif Require Import Base Spec.LinAlg Proof.Algebra Proof.IpTheory Model.Inner Spec.Inner Proof.Inner Spec.Deflation Proof.Projection Proof.Deflation Proof.Qr Proof.DeflRitz.
From Verif Require Import Model.Ritz Model.ResNorms Spec.BoundPseudo Model.BoundPseudo Proof.Ritz.
From Verif Require Properties.ResNorms.

Set Implicit Arguments.
Unset Strict Implicit.
Unset Printing Implicit Defensive.
Import Order.TTheory GRing.Theory Num.Theory.
Local Open Scope ring_scope.

Section Small.
Variable C : numClosedFieldType.
Variable r : nat.
Variable H : 'M[C]_r.+1.
Hypothesis hH : forall i j : 'I_r.+1, (j.+1 < i)%N -> H i j = 0.
Variable t : C.
Hypothesis t0 : t != 0.
Local Notation T := (fun x : 'cV[C]_r.+1 => H *m x).
Local Notation e := (delta_mx 0 0 : 'cV[C]_r.+1).
Local Notation u := (t *: e).
Local Notation K := (in_span (krylov T u)).
Local Notation hE := (ipE_ip C r.+1).

Let linT : is_linear T. Proof. by move=> a x y; rewrite mulmxDr -scalemxAr. Qed.

(** Vectors that vanish from row i on *)
Definition lowv i (x : 'cV[C]_r.+1) := forall k : 'I_r.+1, (i <= k)%N -> x k 0 = 0.

Lemma lowv_sum i m (c : nat -> C) (v : nat -> 'cV[C]_r.+1) :
  (forall j, (j < m)%N -> lowv i (v j)) -> lowv i (\sum_(j < m) c j *: v j).
Proof. by move=> h k ik; rewrite summxE big1 // => j _; rewrite mxE h ?mulr0. Qed.

Lemma lowvT i x : lowv i x -> lowv i.+1 (T x).
Proof.
move=> h k ik; rewrite mxE big1 // => j _; case: (leqP i j) => ij; first by rewrite h ?mulr0.
by rewrite hH ?mul0r // (leq_trans _ ik).
Qed.

Lemma lowv_krylov j : lowv j.+1 (krylov T u j).
Proof.
elim: j => [|j IH] /=; last exact: lowvT.
by move=> k k0; rewrite !mxE -val_eqE /= gtn_eqF ?mulr0.
Qed.

Lemma K_low i x : K i x -> lowv i x.
Proof.
case=> c ->; apply: lowv_sum => j ji k ik; apply: lowv_krylov; exact: leq_trans ji ik.
Qed.

Definition indep i := forall c : nat -> C, \sum_(j < i) c j *: krylov T u j = 0 -> forall j, (j < i)%N -> c j = 0.

(** Independent Krylov vectors span all of these vectors. *)
Lemma low_K i x : (i <= r.+1)%N -> indep i -> lowv i x -> K i x.
Proof.
move=> ir hi hx; pose w (k : 'I_i) := widen_ord ir k.
pose X : 'M[C]_i := \matrix_(k, j) krylov T u j (w k) 0.
pose y : 'cV[C]_i := \col_k x (w k) 0.
have lowE z : lowv i z -> (forall k : 'I_i, z (w k) 0 = 0) -> z = 0.
  move=> h1 h2; apply/colP => k; rewrite [RHS]mxE; case: (leqP i k) => ik; first exact: h1.
  by rewrite -(h2 (Ordinal ik)); congr (z _ 0); apply: val_inj.
have lk j : (j < i)%N -> lowv i (krylov T u j).
  by move=> ji k ik; apply: lowv_krylov; apply: leq_trans ji ik.
have uX : X \in unitmx.
  rewrite -unitmx_tr -row_free_unit; apply/row_freeP; apply/row_freeP; rewrite -kermx_eq0.
  apply/rowV0P => v /sub_kermxP hv; pose c j := if insub j is Some j' then v 0 j' else 0.
  have cE (j : 'I_i) : c j = v 0 j by rewrite /c valK.
  have /hi hc : \sum_(j < i) c j *: krylov T u j = 0.
    apply: lowE => [|k]; first exact: lowv_sum.
    rewrite summxE; move/rowP/(_ k): hv; rewrite !mxE => {2}<-; apply: eq_bigr => j _.
    by rewrite !mxE cE.
  by apply/rowP => j; rewrite mxE -cE hc.
pose c0 j := if insub j is Some j' then (invmx X *m y) j' 0 else 0; exists c0.
apply/eqP; rewrite -subr_eq0; apply/eqP; apply: lowE => [|k].
  by move=> k ik; rewrite mxE hx // mxE (lowv_sum c0 lk) // oppr0 addr0.
rewrite mxE [X in _ + X]mxE summxE; have -> : x (w k) 0 = (X *m (invmx X *m y)) k 0.
  by rewrite mulKVmx // mxE.
apply/eqP; rewrite subr_eq0; apply/eqP; rewrite mxE; apply: eq_bigr => j _.
by rewrite /c0 valK [RHS]mxE [X in X * _]mxE mulrC.
Qed.

Local Notation ent := (@Properties.ResNorms.ent C r.+1 r.+1 H).
Definition pad i (y : 'cV[C]_i) : 'cV[C]_r.+1 := \col_k (if insub (k : nat) is Some k' then y k' 0 else 0).

Lemma pad_low i (y : 'cV[C]_i) : lowv i (pad y).
Proof. by move=> k ik; rewrite mxE insubN // -leqNgt. Qed.

Lemma low_pad i x : lowv i x -> (i <= r.+1)%N -> exists y : 'cV[C]_i, x = t *: pad y.
Proof.
move=> hx ir; exists (\col_k (t^-1 * x (widen_ord ir k) 0)); apply/colP => k; rewrite !mxE.
case: insubP => [k' _ e|]; last by rewrite -leqNgt => /hx->; rewrite mulr0.
by rewrite mxE mulVKf //; congr (x _ 0); apply: val_inj.
Qed.

Lemma H_pad i (y : 'cV[C]_i) (k : 'I_r.+1) : (i <= r.+1)%N ->
  (H *m pad y) k 0 = \sum_(j < i) ent k j * y j 0.
Proof.
move=> ir; rewrite mxE.
rewrite (bigID (fun j : 'I_r.+1 => (j < i)%N)) /= addrC big1 ?add0r => [|j]; last first.
  by rewrite -leqNgt => ij; rewrite (pad_low y ij) mulr0.
pose G j := ent k j * (if insub j is Some j' then y j' 0 else 0).
rewrite [RHS](eq_bigr (fun j : 'I_i => G j)) => [|j _]; last by rewrite /G valK.
rewrite (big_ord_widen r.+1 G) //; apply: eq_bigr => j ji.
by rewrite mxE /G Properties.ResNorms.entE.
Qed.

Local Notation unit1 i := (Properties.ResNorms.unit1 C i).
Local Notation lead i := (Properties.ResNorms.lead H i).
Local Notation nE := (ipnorm (@ipE C r.+1)).

Lemma small_norm i (y : 'cV[C]_i) : (i <= r)%N ->
  nE (u - T (t *: pad y)) = `|t| * Properties.ResNorms.norm2 (unit1 i - lead i *m y).
Proof.
move=> ir; have -> : u - T (t *: pad y) = t *: (e - H *m pad y) by rewrite scalerBr scalemxAr.
rewrite (ipnormZ hE); congr (_ * _).
rewrite -nrm2_col /nrm2 /Properties.ResNorms.norm2; congr sqrtC.
pose F k := `|(k == 0%N)%:R - \sum_(j < i) ent k j * y j 0| ^+ 2.
have eF (k : 'I_r.+1) : `|emb (fun k => (e - H *m pad y) k 0) k| ^+ 2 = F k.
  rewrite embE /F; congr (`|_| ^+ 2); rewrite mxE [X in _ + X]mxE H_pad ?leqW //.
  by rewrite !mxE -val_eqE /= andbT.
rewrite (eq_bigr (fun k : 'I_r.+1 => F k)) => [|k _]; last exact: eF.
transitivity (\sum_(k < i.+1) F k); last first.
  apply: eq_bigr => k _; rewrite /F !mxE -val_eqE /= andbT; congr (`|_ - _| ^+ 2).
  by apply: eq_bigr => j _; rewrite !mxE.
rewrite [RHS](big_ord_widen r.+1 F) ?ltnS // (bigID (fun k : 'I_r.+1 => (k < i.+1)%N)) /= [X in _ + X]big1 ?addr0 //.
move=> k; rewrite -leqNgt => ik; rewrite -eF embE.
have lv : (H *m pad y) k 0 = 0 := lowvT (pad_low y) ik; rewrite mxE [X in _ + X]mxE lv.
by rewrite mxE -val_eqE /= gtn_eqF ?subr0 ?normr0 ?expr0n // (leq_ltn_trans _ ik).
Qed.

Lemma pad0 i (y : 'cV[C]_i) : (i <= r.+1)%N -> pad y = 0 -> y = 0.
Proof.
move=> ir /colP h; apply/colP => k; have := h (widen_ord ir k); rewrite !mxE /=.
by rewrite (_ : insub _ = Some k) ?valK.
Qed.

Lemma lead_rank i : (i <= r)%N -> indep i -> inj_on T (K i) -> \rank (lead i) = i.
Proof.
move=> ir hi inj; apply/eqP; rewrite -mxrank_tr -/(row_free _) -kermx_eq0.
apply/rowV0P => v /sub_kermxP hv; have hv' : lead i *m v^T = 0 by rewrite -[LHS]trmxK trmx_mul trmxK hv trmx0.
suff : v^T = 0 by move=> h; rewrite -[v]trmxK h trmx0.
apply: (pad0 (leqW ir)); apply: inj; first by apply: low_K; [exact: leqW|by []|exact: pad_low].
apply/colP => k; rewrite [RHS]mxE; case: (leqP i.+1 k) => ik; first exact: (lowvT (pad_low _)).
rewrite H_pad ?leqW //; move/colP/(_ (Ordinal ik)): hv'; rewrite !mxE => {2}<-.
by apply: eq_bigr => j _; rewrite !mxE.
Qed.

Definition kmx i : 'M[C]_(i, r.+1) := \matrix_(j, k) krylov T u j k 0.

Lemma kmx_indep i : row_free (kmx i) -> indep i.
Proof.
move=> hf c hc j ji; pose v : 'rV[C]_i := \row_j c j.
have : v = 0.
  apply: (row_free_inj hf); rewrite mul0mx; apply/rowP => k; rewrite [RHS]mxE.
  move/colP/(_ k): hc; rewrite summxE !mxE => {2}<-; apply: eq_bigr => l _.
  by rewrite !mxE.
by move/rowP/(_ (Ordinal ji)); rewrite !mxE.
Qed.

Lemma kmx_dep i : ~~ row_free (kmx i) -> exists2 c : nat -> C,
  \sum_(j < i) c j *: krylov T u j = 0 & exists2 j, (j < i)%N & c j != 0.
Proof.
rewrite -kermx_eq0 => /rowV0Pn[v /sub_kermxP hv v0].
pose c j := if insub j is Some j' then v 0 j' else 0; exists c.
  apply/colP => k; rewrite summxE; move/rowP/(_ k): hv; rewrite !mxE => {2}<-.
  by apply: eq_bigr => j _; rewrite !mxE /c valK.
have [j hj] : exists j, v 0 j != 0.
  apply/existsP; rewrite -negb_forall; apply: contraNN v0 => /forallP h.
  by apply/eqP/rowP => j; rewrite mxE; apply/eqP.
by exists j; rewrite // /c valK.
Qed.

Lemma breakdown i : (i <= r.+1)%N -> ~~ row_free (kmx i) -> inj_on T (K i) ->
  exists j, [/\ (j < i)%N, indep j & exists2 z, K j z & T z = u].
Proof.
move=> ir hd inj; have ex : exists j, ~~ row_free (kmx j) by exists i.
case: (ex_minnP ex) => -[|j] dj mn; first by move: dj; rewrite /row_free flatmx0 mxrank0.
have ji : (j < i)%N by apply: mn.
have hj : indep j.
  by apply: kmx_indep; apply: contraT => /mn; rewrite ltnn.
have jr : (j <= r.+1)%N := leq_trans (ltnW ji) ir.
have [c hc [l lj cl]] := kmx_dep dj.
have kj : K j (krylov T u j).
  have cj : c j != 0.
    apply: contraNneq cl => cj0; move: hc; rewrite big_ord_recr /= cj0 scale0r addr0 => hc.
    by move: lj; rewrite ltnS leq_eqVlt => /orP[/eqP->|lj]; rewrite ?cj0 // (hj c).
  exists (fun k => - (c k / c j)); move: hc; rewrite big_ord_recr /= => /eqP; rewrite addrC addr_eq0 => /eqP e.
  rewrite -[LHS](scalerK cj) e scalerN scaler_sumr -sumrN; apply: eq_bigr => k _.
  by rewrite scalerA scaleNr mulrC.
have inv x : K j x -> K j (T x).
  move=> /(span_map linT) h; apply: (span_trans h) => k kl.
  rewrite -[T _]/(krylov T u k.+1); case: (ltnP k.+1 j) => kj'; first exact: span_mem.
  by have -> : k.+1 = j by apply/eqP; rewrite eqn_leq kl kj'.
have injj : inj_on T (K j) by move=> z hz; apply: inj; apply: span_widen hz; apply: ltnW.
exists j; split=> //.
pose Hj : 'M[C]_j := \matrix_(k, l) ent k l.
have low k (y : 'cV[C]_j) : (H *m pad y) k 0 = if insub (k : nat) is Some k' then (Hj *m y) k' 0 else 0.
  case: insubP => [k' _ e|]; first by rewrite H_pad // mxE -e; apply: eq_bigr => l' _; rewrite mxE.
  rewrite -leqNgt => jk; apply: (@K_low j) => //; apply: inv; apply: low_K => //; exact: pad_low.
have uH : Hj \in unitmx.
  rewrite -unitmx_tr -row_free_unit -kermx_eq0; apply/rowV0P => v /sub_kermxP hv.
  have hv' : Hj *m v^T = 0 by rewrite -[LHS]trmxK trmx_mul trmxK hv trmx0.
  suff : v^T = 0 by move=> h; rewrite -[v]trmxK h trmx0.
  apply: (pad0 jr); apply: injj; first by apply: low_K => //; exact: pad_low.
  by apply/colP => k; rewrite low hv' [RHS]mxE; case: insubP => // k' _ _; rewrite mxE.
pose w : 'cV[C]_j := \col_k u (widen_ord jr k) 0.
exists (pad (invmx Hj *m w)); first by apply: low_K => //; exact: pad_low.
apply/colP => k; rewrite low mulKVmx //; case: insubP => [k' _ e|].
  by rewrite mxE; congr (u _ 0); apply: val_inj.
rewrite -leqNgt => jk; symmetry; rewrite !mxE -val_eqE /= andbT.
case: eqP => [k0|]; last by rewrite mulr0.
have j0 : j = 0%N by apply/eqP; rewrite -leqn0 -k0.
have := kj; rewrite j0 => /K_low /(_ ord0 isT) /eqP; rewrite !mxE eqxx mulr1; by rewrite (negbTE t0).
Qed.

Lemma small_optimal (sa : bool) rs : (sa -> forall i j : 'I_r.+1, (i.+1 < j)%N -> H i j = 0) ->
  get_residual_norms r.+1 r.+1 (mx_ent H) sa = Ok rs ->
  optimal_norms (@ipE C r.+1) T u r.+1 [seq x * `|t| | x <- rs].
Proof.
move=> ht E.
have [|rs' [E' sz n0 mono hmin]] := @Properties.ResNorms.C33_residual_norms C r r.+1 H sa (or_intror erefl) hH.
  by move=> h i j /orP[/hH //|]; apply: ht.
move: E'; rewrite -[Properties.ResNorms.ent H]/(mx_ent H) E => -[?]; subst rs'.
have last0 : nth 0 rs r.+1 = 0.
  move: E sz; rewrite /get_residual_norms eqxx => E; have [s _ [<-]] := bind_ok E.
  by rewrite size_rcons => -[e]; rewrite nth_rcons e ltnn eqxx.
have nthE i : nth 0 [seq x * `|t| | x <- rs] i = nth 0 rs i * `|t|.
  case: (ltnP i (size rs)) => h; first by rewrite (nth_map 0).
  by rewrite !nth_default ?mul0r ?size_map.
have dec i d : (i + d <= r.+1)%N -> nth 0 rs (i + d) <= nth 0 rs i.
  elim: d => [|d IH]; first by rewrite addn0.
  by rewrite addnS => hd; apply: le_trans (mono _ hd) (IH (ltnW hd)).
have ge0 i : 0 <= nth 0 rs i.
  case: (ltnP i r.+2) => h; last by rewrite nth_default // sz.
  by have := @dec i (r.+1 - i)%N; rewrite subnKC // last0; apply.
have ipe : nE u = `|t|.
  rewrite (ipnormZ hE) /ipnorm /ipE mxE (bigD1 0) //= big1 => [|k ne]; first last.
    by rewrite !mxE (negbTE ne) mulr0.
  by rewrite ctrE !mxE eqxx conjC1 mulr1 addr0 sqrtC1 mulr1.
split.
- by rewrite size_map.
- by rewrite nthE n0 mul1r ipe.
- by move=> i ir; rewrite !nthE ler_wpmul2r // mono.
- by rewrite nthE last0 mul0r.
have good i : (i <= r)%N -> indep i -> inj_on T (K i) ->
    least_residual (@ipE C r.+1) T u (K i) (nth 0 [seq x * `|t| | x <- rs] i).
  move=> ir hi inj; have [h1 [y h2]] := hmin i ir (lead_rank ir hi inj); rewrite nthE; split.
    move=> z /K_low hz; have [y' ->] := low_pad hz (leqW ir).
    by rewrite small_norm // mulrC ler_wpmul2l.
  exists (t *: pad y); last by rewrite small_norm // h2 mulrC.
  apply: low_K => //; first exact: leqW.
  by move=> k ik; rewrite mxE (pad_low y ik) mulr0.
move=> i ir inj; case: (boolP (row_free (kmx i))) => [/kmx_indep hf|dep]; first exact: good.
have [j [ji hj [z Kz ez]]] := breakdown (ltnW ir) dep inj.
have injj : inj_on T (K j) by move=> y hy; apply: inj; apply: span_widen hy; apply: ltnW.
have [h1 _] := good j (leq_trans (ltnW ji) ir) hj injj.
have nj : nth 0 rs j * `|t| = 0.
  apply/eqP; rewrite eq_le mulr_ge0 // andbT -nthE; apply: le_trans (h1 _ Kz) _.
  by rewrite ez subrr (ipnorm0 hE).
have : nth 0 rs j = 0 by apply/eqP; move/eqP: nj; rewrite mulf_eq0 normr_eq0 (negbTE t0) orbF.
move=> {}nj; have ni : nth 0 rs i = 0.
  apply/eqP; rewrite eq_le ge0 andbT.
  have := @dec j (i - j)%N; rewrite (subnKC (ltnW ji)) nj; apply; exact: ltnW.
rewrite nthE ni mul0r; split=> [y _|]; first exact: (ipnorm_ge0 hE).
exists z; first by apply: span_widen Kz; apply: ltnW.
by rewrite ez subrr (ipnorm0 hE).
Qed.
End Small.

Lemma optimal0 (C : numClosedFieldType) N (ip : 'cV[C]_N -> 'cV[C]_N -> C) T d rs : is_ip ip -> is_linear T ->
  size rs = d.+1 -> (forall i, nth 0 rs i = 0) -> optimal_norms ip T 0 d rs.
Proof.
move=> hip hT sz h; have z0 := ipnorm0 hip; split=> // [|i _|i _ _]; rewrite ?h ?z0 //; split=> [z _|].
  exact: (ipnorm_ge0 hip).
by exists 0; [exact: span0|rewrite (lin0 hT) subrr z0].
Qed.

(** The transfer to the space spanned by an orthonormal basis. *)
Section Transfer.
Variable C : numClosedFieldType.
Variables (N d : nat) (B : ipB C N) (V : 'M[C]_(N, d)) (H : 'M[C]_d) (T : 'cV[C]_N -> 'cV[C]_N).
Hypothesis hB : valid_ip B.
Hypothesis hT : is_linear T.
Hypothesis oV : inner B V V = 1%:M.
Hypothesis hV : imcols T V = V *m H.
Variable u : 'cV[C]_d.
Local Notation TH := (fun x : 'cV[C]_d => H *m x).

Lemma tr_T (y : 'cV[C]_d) : T (V *m y) = V *m (H *m y).
Proof. by rewrite -(imcols_vec hT) hV mulmxA. Qed.

Lemma tr_ip (x y : 'cV[C]_d) : ip1 B (V *m x) (V *m y) = ipE x y.
Proof. by rewrite ip1X (innerMl hB) (innerMr hB) oV mul1mx. Qed.

Lemma tr_norm (y : 'cV[C]_d) : ipnorm (ip1 B) (V *m y) = ipnorm (@ipE C d) y.
Proof. by rewrite /ipnorm tr_ip. Qed.

Lemma tr_inj (y : 'cV[C]_d) : V *m y = 0 -> y = 0.
Proof. by move=> h; rewrite -[y]mul1mx -oV -(innerMr hB) h (inner0r hB). Qed.

Lemma tr_krylov i : krylov T (V *m u) i = V *m krylov TH u i.
Proof. by elim: i => [|i IH] //=; rewrite IH tr_T. Qed.

Lemma tr_span i y : in_span (krylov TH u) i y -> in_span (krylov T (V *m u)) i (V *m y).
Proof.
by case=> c ->; exists c; rewrite mulmx_sumr; apply: eq_bigr => j _; rewrite tr_krylov scalemxAr.
Qed.

Lemma span_tr i x : in_span (krylov T (V *m u)) i x -> exists2 y, x = V *m y & in_span (krylov TH u) i y.
Proof.
case=> c ->; exists (\sum_(j < i) c j *: krylov TH u j); last by exists c.
by rewrite mulmx_sumr; apply: eq_bigr => j _; rewrite tr_krylov scalemxAr.
Qed.

Lemma tr_optimal n rs : optimal_norms (@ipE C d) TH u n rs -> optimal_norms (ip1 B) T (V *m u) n rs.
Proof.
move=> [h1 h2 h3 h4 h5]; split=> //; first by rewrite tr_norm.
move=> i ir inj; have [|m1 [z Kz ez]] := h5 i ir.
  move=> z Kz e; apply: tr_inj; apply: inj; first exact: tr_span.
  by rewrite tr_T e mulmx0.
split; last by exists (V *m z); [exact: tr_span|rewrite tr_T -mulmxBr tr_norm].
by move=> x /span_tr[y -> Ky]; rewrite tr_T -mulmxBr tr_norm; apply: m1.
Qed.
End Transfer.

(** The deflated operator is self-adjoint if the operator is. *)
Lemma deflP_sa (C : numClosedFieldType) N (B : ipB C N) (T : 'cV[C]_N -> 'cV[C]_N) k (W : 'M[C]_(N, k)) :
  valid_ip B -> is_linear T -> self_adjoint (ip1 B) T -> self_adjoint (ip1 B) (fun x => defl_P B T W (T x)).
Proof.
move=> hB hT sa x y; have hip := valid_is_ip hB.
have cE (Y : 'M[C]_(N, k)) j : col j (imcols T Y) = T (col j Y) by apply/matrixP => s t; rewrite !mxE ord1.
have EE : (inner B W (imcols T W))^h = inner B W (imcols T W).
  by apply/matrixP => i j; rewrite ctrE !(inner_entry hB) !cE -(ip_conj hip) sa.
have col_id1 (z : 'cV[C]_N) i : col i z = z by apply/matrixP => s t; rewrite !mxE !ord1.
have adj z : inner B z (imcols T W) = (inner B W (T z))^h.
  apply/matrixP => i j; rewrite ctrE !(inner_entry hB) cE -(ip_conj hip) -sa.
  by rewrite !col_id1.
rewrite /defl_P (ipBr hip) (ip_conj hip) (ipBr hip) rmorphB -(ip_conj hip) sa; congr (_ - _).
rewrite -!mulmxA !ip1X !(innerMr hB) !adj.
by rewrite -ctrE !ctrM ctrK invmx_ctr EE mulmxA.
Qed.
