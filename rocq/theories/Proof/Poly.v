(** Proofs about NormalizedRootsPolynomial and strakos. *)
From mathcomp Require Import all_ssreflect all_algebra zify.
From mathcomp Require Import polyrcf.
From Verif Require Import Base Model.Poly.

Set Implicit Arguments.
Unset Strict Implicit.
Unset Printing Implicit Defensive.
Import Order.TTheory GRing.Theory Num.Theory.
Local Open Scope ring_scope.

Section Poly.
Variable C : numClosedFieldType.
Variable argsort : seq C -> seq nat.
Hypothesis argsortP : forall s, perm_eq (argsort s) (iota 0 (size s)).

(** Where position i of the interlaced list comes from. *)
Definition src n i := (if odd i then n - 1 - i./2 else i./2)%N.

Lemma interlaceE (vals : seq C) :
  interlace argsort vals =
    Ok [seq nth 0%N (argsort [seq `|v| | v <- vals]) (src (size vals) i) | i <- iota 0 (size vals)].
Proof.
rewrite /interlace; set l := argsort _.
have sl : size l = size vals by rewrite (perm_size (argsortP _)) size_iota size_map.
rewrite -sl; set n := size l.
have un : (uphalf n <= n)%N by rewrite uphalf_half; lia.
rewrite /set_stride2 size_nseq subn0 size_takel // eqxx /= size_mkseq size_rev size_drop -/n.
have -> : (n - uphalf n)%N = uphalf (n - 1) by rewrite !uphalf_half; lia.
rewrite eqxx /=; congr Ok; apply: (@eq_from_nth _ 0%N); rewrite size_mkseq ?size_map ?size_iota // => i lin.
rewrite nth_mkseq // (nth_map 0%N) ?size_iota // nth_iota // add0n /src.
case: (boolP (odd i)) => oi; last first.
  have -> : (0 < i)%N && ~~ odd (i - 1) = false by apply/negP => /andP[]; lia.
  rewrite nth_mkseq // subn0 oi /=; case: eqP => [e1|_]; rewrite nth_take //.
  - by have -> : i./2 = 0%N by rewrite uphalf_half in e1; lia.
  - by rewrite uphalf_half in e1 *; lia.
  - rewrite uphalf_half; lia.
have -> : (0 < i)%N && ~~ odd (i - 1) by lia.
have -> : (if uphalf (n - 1) == 1%N then 0 else (i - 1)./2)%N = i./2.
  by rewrite uphalf_half; case: eqP; lia.
rewrite nth_rev ?size_drop -/n; last by rewrite uphalf_half; lia.
rewrite nth_drop; congr nth; rewrite uphalf_half; lia.
Qed.

Lemma src_perm n : perm_eq [seq src n i | i <- iota 0 n] (iota 0 n).
Proof.
have li i : i \in iota 0 n -> (src n i < n)%N by rewrite mem_iota /src; case: ifP; lia.
have inj : {in iota 0 n &, injective (src n)}.
  by move=> i j; rewrite !mem_iota /src; case: ifP; case: ifP; lia.
apply: uniq_perm; rewrite ?iota_uniq ?map_inj_in_uniq ?iota_uniq //.
apply: (uniq_min_size _ _ _).2; rewrite ?map_inj_in_uniq ?iota_uniq ?size_map //.
by move=> k /mapP[i /li hi ->]; rewrite mem_iota.
Qed.

(** The reordering is a permutation. *)
Lemma interlace_perm (vals : seq C) :
  exists2 p, interlace argsort vals = Ok p & perm_eq p (iota 0 (size vals)).
Proof.
eexists; first exact: interlaceE.
set l := argsort _; have pl : perm_eq l (iota 0 (size vals)) by rewrite -(size_map (fun v => `|v|)) argsortP.
have sl : size l = size vals by rewrite (perm_size pl) size_iota.
apply: perm_trans pl; rewrite -[X in perm_eq _ X](mkseq_nth 0%N l) /mkseq sl.
by rewrite (map_comp (nth 0%N l) (src _)) perm_map // src_perm.
Qed.

Lemma foldl_prod (a : C) s : foldl *%R a s = a * \prod_(v <- s) v.
Proof.
by elim: s a => [|x s IH] a; rewrite ?big_nil ?mulr1 //= IH big_cons mulrA.
Qed.

Lemma eval_atE roots x : all (fun r => r != 0) roots ->
  eval_at argsort roots x = Ok (\prod_(r <- roots) (1 - x / r)).
Proof.
move=> nz; rewrite /eval_at; have -> : has (fun r => r == 0) roots = false.
  by apply/negP => /hasP[r /(allP nz)/negP ? /eqP e]; move: (e); apply/eqP/negP.
set vals := [seq _ | r <- roots].
have [p -> pp] /= := interlace_perm vals.
have ap : all (fun i => (i < size vals)%N) p.
  by apply/allP => i; rewrite (perm_mem pp) mem_iota add0n.
rewrite /take_idx ap /= -(big_map (fun r => 1 - x / r) xpredT id) -/vals.
congr Ok; rewrite foldl_prod mul1r big_map (perm_big _ pp) /=.
by rewrite -[in RHS](mkseq_nth 0 vals) big_map.
Qed.

Lemma eval_allE roots points : all (fun r => r != 0) roots ->
  eval_all argsort roots points = Ok [seq \prod_(r <- roots) (1 - x / r) | x <- points].
Proof. by move=> nz; elim: points => //= x points ->; rewrite eval_atE. Qed.
End Poly.

Section Strakos.
Variable R : realFieldType.
Variables (n : nat) (l_min l_max rho : R).
Hypotheses (n2 : (1 < n)%N) (lt_l : l_min < l_max) (rho0 : 0 < rho) (rho1 : rho <= 1).

Definition stra (i : nat) : R := l_min + i%:R / n.-1%:R * (l_max - l_min) * rho ^+ (n.-1 - i).

Lemma strakos_dE : exists2 d, strakos_d n l_min l_max rho = Ok d &
  size d = n /\ forall i, (i < n)%N -> nth 0 d i = stra i.
Proof.
rewrite /strakos_d; have -> : (n == 1%N) = false by case: (n) n2 => [|[]].
eexists; first reflexivity; split=> [|i lin]; first by rewrite size_map size_iota.
rewrite (nth_map 0%N) ?size_iota // nth_iota // add1n -[in i.+1%:R]addn1 natrD addrK /stra.
have -> : (n - i.+1 = n.-1 - i)%N by lia.
by have -> : n%:R - 1 = n.-1%:R :> R by rewrite -subn1 natrB // ltnW.
Qed.

Lemma stra_mono i j : (i < j)%N -> (j < n)%N -> stra i < stra j.
Proof.
move=> lij ljn; rewrite /stra ltr_add2l.
have h : 0 < (l_max - l_min) / n.-1%:R by rewrite divr_gt0 ?subr_gt0 // ltr0n; lia.
have E k r : k%:R / n.-1%:R * (l_max - l_min) * r = k%:R * ((l_max - l_min) / n.-1%:R * r).
  by rewrite -!mulrA; congr (_ * _); rewrite mulrCA.
rewrite !E; apply: (@le_lt_trans _ _ (i%:R * ((l_max - l_min) / n.-1%:R * rho ^+ (n.-1 - j)))).
  rewrite ler_wpmul2l ?ler0n // ler_wpmul2l //; first exact: ltW.
  by rewrite ler_wiexpn2l // ?ltW //; lia.
by rewrite ltr_pmul2r ?ltr_nat // pmulr_rgt0 // exprn_gt0.
Qed.

Lemma stra0 : stra 0 = l_min.
Proof. by rewrite /stra !mul0r addr0. Qed.

Lemma straN : stra n.-1 = l_max.
Proof.
rewrite /stra subnn expr0 mulr1 divff ?mul1r; first by rewrite addrC subrK.
by rewrite pnatr_eq0; lia.
Qed.
End Strakos.

Section Candidates.
Variable R : rcfType.
Implicit Types (q : {poly R}) (a b l u x : R).

(** A polynomial without critical points inside [l,u] has no interior local peak. *)
Lemma no_peak q l u x : l < x -> x < u -> (forall c, l < c -> c < u -> q^`().[c] != 0) ->
  q.[l] < q.[x] -> q.[u] < q.[x] -> False.
Proof.
move=> lx xu nc ql qu.
have [luq|ulq] := leP q.[l] q.[u].
  have [|y] := @poly_ivt _ (q - q.[u]%:P) l x (ltW lx).
    by rewrite !hornerE subr_le0 luq subr_ge0 ltW.
  move=> /andP[ly yx] /rootP; rewrite !hornerE => /eqP; rewrite subr_eq0 => /eqP e.
  have [c] := @rolle _ y u q (le_lt_trans yx xu) e.
  rewrite in_itv /= => /andP[yc cu] /eqP; apply/negP; apply: nc => //; exact: le_lt_trans yc.
have [|y] := @poly_ivt _ (q.[l]%:P - q) x u (ltW xu).
  by rewrite !hornerE subr_le0 ltW //= subr_ge0 ltW.
move=> /andP[xy yu] /rootP; rewrite !hornerE => /eqP; rewrite subr_eq0 => /eqP e.
have [c] := @rolle _ l y q (lt_le_trans lx xy) e.
rewrite in_itv /= => /andP[lc cy] /eqP; apply/negP; apply: nc => //; exact: lt_le_trans yu.
Qed.

Lemma peak q l u x : l <= x <= u -> (forall c, l < c -> c < u -> q^`().[c] != 0) ->
  (`|q.[x]| <= `|q.[l]|) \/ (`|q.[x]| <= `|q.[u]|).
Proof.
move=> /andP[]; rewrite le_eqVlt => /orP[/eqP-> _ _|lx]; first by left.
rewrite le_eqVlt => /orP[/eqP-> _|xu nc]; first by right.
have [h|h] := leP `|q.[x]| `|q.[l]|; first by left.
have [h'|h'] := leP `|q.[x]| `|q.[u]|; first by right.
have [p|p] := leP 0 q.[x]; case: (@no_peak (if 0 <= q.[x] then q else - q) l u x lx xu).
- by case: ifP => _ c lc cu; rewrite ?derivN ?hornerN ?oppr_eq0 nc.
- by rewrite p; rewrite (ger0_norm p) in h; exact: le_lt_trans (ler_norm _) h.
- by rewrite p; rewrite (ger0_norm p) in h'; exact: le_lt_trans (ler_norm _) h'.
- by case: ifP => _ c lc cu; rewrite ?derivN ?hornerN ?oppr_eq0 nc.
- rewrite leNgt p !hornerN; rewrite (ltr0_norm p) in h.
  by apply: le_lt_trans h; rewrite -normrN ler_norm.
- rewrite leNgt p !hornerN; rewrite (ltr0_norm p) in h'.
  by apply: le_lt_trans h'; rewrite -normrN ler_norm.
Qed.

Lemma candidates_max q x (cs : seq R) l u : l <= x <= u ->
  (forall c, l < c -> c < u -> q^`().[c] = 0 -> c \in cs) ->
  exists2 c, c \in [:: l, u & [seq c <- cs | l <= c <= u]] & `|q.[x]| <= `|q.[c]|.
Proof.
elim: cs l u => [|d cs IH] l u lxu hc.
  have nc c : l < c -> c < u -> q^`().[c] != 0 by move=> lc cu; apply/eqP => /(hc _ lc cu).
  case: (peak lxu nc) => h.
  - by exists l; rewrite ?inE ?eqxx.
  - by exists u; rewrite ?inE ?eqxx ?orbT.
case: (boolP (l < d < u)) => [/andP[ld du]|nd]; last first.
  have [|c cc le] := IH l u lxu.
    move=> c lc cu /(hc _ lc cu); rewrite inE => /orP[/eqP e|//].
    by rewrite -e lc cu in nd.
  exists c => //; move: cc; rewrite !inE !mem_filter inE.
  by case/or3P=> [->|->|/andP[-> ->]]; rewrite ?orbT.
case/andP: lxu => lx xu; have [dx|xd] := leP d x.
  have [||c cc le] := IH d u; first by rewrite dx.
    move=> c dc cu /(hc _ (lt_trans ld dc) cu); rewrite inE => /orP[/eqP e|//].
    by rewrite e ltxx in dc.
  exists c => //; move: cc; rewrite !inE !mem_filter inE.
  case/or3P=> [/eqP->|->|/andP[/andP[dc ->] ->]]; rewrite ?orbT //.
    by rewrite eqxx (ltW ld) (ltW du) !orbT.
  by rewrite (le_trans (ltW ld) dc) !orbT.
have [||c cc le] := IH l d; first by rewrite lx ltW.
  move=> c lc cd /(hc _ lc (lt_trans cd du)); rewrite inE => /orP[/eqP e|//].
  by rewrite e ltxx in cd.
exists c => //; move: cc; rewrite !inE !mem_filter inE.
case/or3P=> [->|/eqP->|/andP[/andP[-> cd] ->]]; rewrite ?orbT //.
  by rewrite eqxx (ltW ld) (ltW du) !orbT.
by rewrite (le_trans cd (ltW du)) !orbT.
Qed.

(** p(x) = prod (1 - x/r) is a multiple of prod (x - r). *)
Lemma prod_horner (roots : seq R) x : all (fun r => r != 0) roots ->
  \prod_(r <- roots) (1 - x / r) =
    \prod_(r <- roots) (- r^-1) * (\prod_(r <- roots) ('X - r%:P)).[x].
Proof.
elim: roots => [_|r roots IH /= /andP[r0 /IH e]]; first by rewrite !big_nil mul1r hornerC.
rewrite !big_cons e hornerM [RHS]mulrACA; congr (_ * _); rewrite !hornerE.
by rewrite mulrBr !mulNr opprK mulVf // addrC [_ * x]mulrC.
Qed.

Variable proots : {poly R} -> seq R.
Hypothesis prootsP : forall q x, q != 0 -> root q x -> x \in proots q.

Lemma deriv_prod_neq0 (roots : seq R) : roots != [::] ->
  (\prod_(r <- roots) ('X - r%:P))^`() != 0.
Proof.
case: roots => // r roots _; set q := \prod_(r <- _) _; apply/eqP => /(congr1 (fun p : {poly R} => p`_(size roots))).
rewrite coef_deriv coef0; have -> : q`_(size roots).+1 = lead_coef q.
  by rewrite lead_coefE size_prod_XsubC.
by rewrite (monicP (monic_prod_XsubC _ _ _)) => /eqP; rewrite pnatr_eq0.
Qed.

Lemma minmax_candidatesP (roots : seq R) a b x : all (fun r => r != 0) roots -> a <= x <= b ->
  exists2 c, c \in [:: a, b & [seq c <- minmax_candidates proots roots | a <= c <= b]] &
    `|\prod_(r <- roots) (1 - x / r)| <= `|\prod_(r <- roots) (1 - c / r)|.
Proof.
move=> nz axb; case: roots nz => [_|r0 rs] /=.
  by exists a; rewrite ?inE ?eqxx // !big_nil.
set roots := r0 :: rs => nz.
have [|c cc le] := @candidates_max (\prod_(r <- roots) ('X - r%:P)) x
  (minmax_candidates proots roots) a b axb.
  by move=> c _ _ h; apply: prootsP; rewrite ?deriv_prod_neq0 //; apply/rootP.
exists c => //; rewrite !prod_horner // !normrM ler_wpmul2l //.
Qed.
End Candidates.
