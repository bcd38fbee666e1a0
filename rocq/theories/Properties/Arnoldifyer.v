(** C54: the matrices of Arnoldifyer.  C56: Arnoldifyer.get computes Arnoldi relations for
    deflated Krylov subspaces. *)
From mathcomp Require Import all_ssreflect all_algebra perm ring.
From Verif Require Import Base Spec.LinAlg Proof.Algebra Model.Inner Spec.Inner Proof.Inner Proof.IpTheory.
From Verif Require Import Model.Arnoldi Spec.Arnoldi Proof.ArnoldiAll Proof.ArnoldiExample Model.Solver Model.LinearSystem Model.Krylov Spec.Krylov Spec.Solver Proof.Solver.
From Verif Require Import Proof.SolverInv Proof.Gmres Proof.Logged Proof.LinearSystem Proof.Cg.
From Verif Require Import Model.Projection Spec.Projection Model.Deflation Spec.Deflation Proof.Qr Proof.QrExist Proof.Projection Proof.Deflation.
From Verif Require Import Model.DeflRitz Spec.DeflRitz Proof.DeflRitz Proof.DeflRel Model.Arnoldifyer Spec.Arnoldifyer Proof.Arnoldifyer.
From Verif Require Properties.Solver Properties.Deflation Properties.DeflRitz.

Set Implicit Arguments.
Unset Strict Implicit.
Unset Printing Implicit Defensive.
Import Order.TTheory GRing.Theory Num.Theory.
Local Open Scope ring_scope.

Local Arguments norm : simpl never.

(** Reading guide.  As in C31, [b] are the attributes of a deflated solver and [defl_rel] the
    relations that its runs satisfy; X = [V_n, U]. *)
Section Attributes.
Variable C : numClosedFieldType.
Variable N : nat.
Local Notation vec := 'cV[C]_N.
Variable sqr : forall n k, 'M[C]_(n, k) -> 'M[C]_(n, k) * 'M[C]_k.
Variable fqr : forall n k, 'M[C]_(n, k) -> 'M[C]_n.
Variable pqr : forall n k, 'M[C]_(n, k) -> 'M[C]_(n, minn n k) * 'M[C]_(minn n k, k) * {perm 'I_k}.
Variable hess : forall n, 'M[C]_n -> 'M[C]_n * 'M[C]_n.
Variables nrm2 smin : forall n, 'M[C]_n -> C.
Hypothesis hsqr : qr_spec sqr.
Variables (l : lsys C N) (Minv : option (vec -> vec)) (m : nat) (ob : obl C N m) (n_ n : nat).
Variables (b : byprod C N n_ n m) (hn : (n <= n_)%N) (Bm : ipB C N).
Hypothesis eBm : get_ip_Minv_B l Minv = Ok Bm.
Local Notation A := (lMlAMr l).
Local Notation M := (lMop l).
Local Notation U := (o_U ob).
Local Notation V := (bp_V b).
Local Notation E := (d_E ob).
Local Notation X := (row_mx (firstn hn V) U).
Local Notation MA := (fun x => M (A x)).
Local Notation VA := (row_mx V (imcols M (imcols A U))).
Local Notation init := (mk_arnf sqr pqr nrm2 l Minv ob b).
Local Notation get a t u := (arnf_get sqr fqr hess smin l Minv ob b a t u).

(** The attributes J, L, M: J L = M, and M is the compression of M Ml A Mr to [V_n, U].  The
    remainder W is arbitrary. *)
Theorem C54_gram W EC : defl_rel (lB l) Bm A M hn V U (bp_H b) E (bp_C b) (bp_B b) W -> EinvC ob b = Ok EC ->
  aJ ob b *m dL b EC = dM ob b EC /\ dM ob b EC = inner Bm X (imcols MA X).
Proof.
move=> hr; rewrite (EinvCE hr) => -[<-]; split; last exact: dME hr.
rewrite /aJ /dL /dM mulmx_block !mulmx0 !mul0mx !add0r !(rows_eye hn) eye1 !mulmx1.
by rewrite mulKVmx // (dr_unit hr).
Qed.

(** Without a row and a column of M its norm raises ValueError. *)
Theorem C54_empty W : defl_rel (lB l) Bm A M hn V U (bp_H b) E (bp_C b) (bp_B b) W -> (n + m = 0)%N ->
  init = Err ValueError.
Proof. by move=> hr /eqP e; rewrite /mk_arnf (EinvCE hr) /= e. Qed.

Hypothesis hr : defl_rel (lB l) Bm A M hn V U (bp_H b) E (bp_C b) (bp_B b) 0.
Hypothesis hAU : o_AU ob = imcols A U.
Hypothesis ra : rank_args pqr nrm2 l ob b Bm.
Let hBm := dr_Bm hr.

(** The constructor.  The columns of Z are orthonormal and orthogonal to [V_n, U], and
    [V, MAU] = [V_n, U] J + Z N. *)
Theorem C54_init : (0 < n + m)%N -> exists2 a, init = Ok a &
  [/\ inner Bm (af_Z a) (af_Z a) = 1%:M, inner Bm X (af_Z a) = 0 & VA = X *m aJ ob b + af_Z a *m af_N a].
Proof.
move=> nm; have [a ea [Q1 hQ]] := mk_arnfE sqr eBm hr hAU nm ra.
by exists a => //; have [h1 h2] := arnf_Z hr hQ; split=> //; apply: (arnf_VA hn hAU hQ).
Qed.

Section Get.
Variables (k r : nat) (Wt : 'M[C]_(n + m, k)).
Hypothesis hkr : (k + r.+1 = n + m)%N.
Hypothesis hD : inner Bm (X *m Wt) (imcols MA (X *m Wt)) \in unitmx.
Hypothesis hfqr : fqr_ok Wt (fqr Wt).
Hypothesis hhess : forall A : 'M[C]_r.+1, hess_ok A (hess A).1 (hess A).2.
Hypothesis hsmin : (0 < k)%N -> forall G : 'M[C]_k, smin_ok G (smin G).
Variables (r0norm : C) (UMlr : 'cV[C]_m).
(** The projection P_{W^perp, MAW} for the deflation vectors W = [V_n, U] Wt *)
Local Notation Pw := (defl_P Bm MA (X *m Wt)).

Let nm : (0 < n + m)%N. Proof. by rewrite -hkr addnS. Qed.

(** get(Wt, full=True): an Arnoldi relation for a perturbation of the deflated operator
    P_{W^perp, MAW} M Ml A Mr, on the part of the space that is orthogonal to W. *)
Theorem C56_get a : init = Ok a -> (0 < n_)%N -> exists2 g, get a r0norm UMlr Wt r = Ok g &
  arnoldi_like Bm (fun x => Pw (MA x)) (fun x => in_cols (firstn hn V) U x /\ inner Bm (X *m Wt) x = 0)
    (ag_Vh g) (ag_Hh g) (af_Z a) (ag_Rh g) (ag_F g).
Proof.
have [a' -> [Q1 hQ]] := mk_arnfE sqr eBm hr hAU nm ra => -[<-] n0.
by have [g eg [h _ _]] := arnf_getE hsqr eBm hr hAU hQ hD hkr hfqr hhess hsmin r0norm UMlr n0; exists g.
Qed.

(** PWAW_norm is the operator norm of the projection. *)
Theorem C56_PWAW a g : init = Ok a -> (0 < n_)%N -> get a r0norm UMlr Wt r = Ok g -> op_norm (ip1 Bm) Pw (ag_PWAW g).
Proof.
have [a' -> [Q1 hQ]] := mk_arnfE sqr eBm hr hAU nm ra => -[ea] n0; subst a.
by have [g' -> [_ _ h]] := arnf_getE hsqr eBm hr hAU hQ hD hkr hfqr hhess hsmin r0norm UMlr n0 => -[<-].
Qed.

(** The start vector: with a residual whose parts are given by MMlr0_norm and UMlr, the
    projection of M r is (alpha q_norm) vh_1 plus a vector in the span of Z of norm
    vdiff_norm, where |alpha| = 1. *)
Theorem C56_start a g w : init = Ok a -> (0 < n_)%N -> get a r0norm UMlr Wt r = Ok g ->
  (forall i : 'I_n_, i = 0%N :> nat -> w - imcols M (imcols A U) *m (invmx E *m UMlr) = r0norm *: col i V) ->
  exists al d, [/\ `|al| = 1, 0 <= ag_q g, Pw w = (al * ag_q g) *: col 0 (ag_Vh g) + af_Z a *m d
    & ag_vdiff g = ipnorm (ip1 Bm) (af_Z a *m d)].
Proof.
have [a' -> [Q1 hQ]] := mk_arnfE sqr eBm hr hAU nm ra => -[ea] n0 + hw; subst a.
have [g' -> [_ [al [d [h1 h2 h3 h4]]] _]] := arnf_getE hsqr eBm hr hAU hQ hD hkr hfqr hhess hsmin r0norm UMlr n0 => -[<-].
exists al, d; split=> //; rewrite -h3; congr (defl_P _ _ _ _).
rewrite /tstart mul_row_col -[LHS](subrK (imcols M (imcols A U) *m (invmx E *m UMlr))); congr (_ + _).
rewrite (hw (Ordinal n0)) //; apply/matrixP => i j; rewrite !mxE (bigD1 (Ordinal n0)) //= big1 ?mxE ?addr0 1?mulrC //.
by move=> t; rewrite -val_eqE mxE /= => /negbTE->; rewrite mulr0.
Qed.

(** get raises ValueError if H has no row, that is if the projected initial residual is 0. *)
Theorem C56_no_rows_refuted a : init = Ok a -> n_ = 0%N -> get a r0norm UMlr Wt r = Err ValueError.
Proof.
have [a' -> [Q1 hQ]] := mk_arnfE sqr eBm hr hAU nm ra => -[<-] n0.
exact: (arnf_get_empty hess smin hsqr Minv hr hQ hD hkr hfqr).
Qed.
End Get.
End Attributes.

(** Runs of the deflated solvers.  [exact] holds unless the Arnoldi process was stopped with an
    invariant subspace up to 1e-14 only. *)
Section Runs.
Variable C : numClosedFieldType.
Variable sqr : forall n k, 'M[C]_(n, k) -> 'M[C]_(n, k) * 'M[C]_k.
Variable fqr : forall n k, 'M[C]_(n, k) -> 'M[C]_n.
Variable pqr : forall n k, 'M[C]_(n, k) -> 'M[C]_(n, minn n k) * 'M[C]_(minn n k, k) * {perm 'I_k}.
Variable hess : forall n, 'M[C]_n -> 'M[C]_n * 'M[C]_n.
Variables nrm2 smin : forall n, 'M[C]_n -> C.
Hypothesis hsqr : qr_spec sqr.
Variable N m : nat.
Local Notation vec := 'cV[C]_N.
Variable l : lsys C N.
Hypothesis hl : lsys_ok l.
Variables (Minv : option (vec -> vec)) (same : bool) (U : 'M[C]_(N, m)) (kw : pkwargs).
Hypothesis ha : defl_args sqr l Minv same U kw.
Local Notation A := (lMlAMr l).
Local Notation M := (lMop l).
Local Notation MA := (fun x => M (A x)).
Local Notation P := (defl_P (lB l) A U).
Variables (snorm : nat -> nat -> (nat -> nat -> C) -> C).
Variables (o : opts C) (ortho : ortho_t) (x0 : option vec) (fl : bool).
Variable Bm : ipB C N.
Hypothesis eBm : get_ip_Minv_B l Minv = Ok Bm.
Hypothesis vBm : valid_ip Bm.
Hypothesis hadj : forall x y, ip1 Bm x (M y) = ip1 (lB l) x y.
Hypothesis hsep : separated (ip1 Bm) (eps15 C) U.
Hypothesis hfl : fl -> self_adjoint (ip1 (lB l)) A.
Hypothesis hMr : forall c, lMr l (U *m c) = U *m c.
Hypothesis nb : lMl l (lb l) <> 0.
Variable ob : obl C N m.
Hypothesis hob : mk_oblique sqr l Minv same U kw = Ok ob.
Local Notation r0 := (resid l (x0_of x0)).
Local Notation K := (in_krylov (fun v => P (A v)) M (P r0)).
Local Notation init b := (mk_arnf sqr pqr nrm2 l Minv ob b).

(** The result of the constructor and of get for a run of n iterations.  The deflation
    vectors W are linear combinations of the basis [V_n, U] of K_n + span U with coefficients Wt; the start
    vector is the one of the system with these deflation vectors. *)
Definition arnoldifies n_ n (b : byprod C N n_ n m) : Prop :=
  rank_args pqr nrm2 l ob b Bm -> (0 < n_)%N -> forall k r (Wt : 'M[C]_(n + m, k)) v w r0norm,
  let W := dbasis ob b *m Wt in let Pw := defl_P Bm MA W in
  (k + r.+1 = n + m)%N -> inner Bm W (imcols MA W) \in unitmx -> fqr_ok Wt (fqr Wt) ->
  (forall A : 'M[C]_r.+1, hess_ok A (hess A).1 (hess A).2) -> ((0 < k)%N -> forall G : 'M[C]_k, smin_ok G (smin G)) ->
  d_res0 l ob x0 = Ok (v, w, r0norm) ->
  exists a g, [/\ init b = Ok a, arnf_get sqr fqr hess smin l Minv ob b a r0norm (d_UMlr l ob x0) Wt r = Ok g,
    arnoldi_like Bm (fun x => Pw (MA x)) (fun x => (exists z c, K n z /\ x = z + U *m c) /\ inner Bm W x = 0)
      (ag_Vh g) (ag_Hh g) (af_Z a) (ag_Rh g) (ag_F g),
    exists al d, [/\ `|al| = 1, 0 <= ag_q g, Pw (M r0) = (al * ag_q g) *: col 0 (ag_Vh g) + af_Z a *m d
      & ag_vdiff g = ipnorm (ip1 Bm) (af_Z a *m d)]
  & op_norm (ip1 Bm) Pw (ag_PWAW g)].

Theorem C56_attributes n_ n (b : byprod C N n_ n m) (ex : Prop) :
  Properties.DeflRitz.rel_ok l U x0 Bm ob b ex -> ex -> arnoldifies b.
Proof.
move=> [hn [W [hr hAU he hs hS]]] /he W0 ra n0 k r Wt v w t; rewrite W0 in hr.
rewrite (dbasisE ob b hn) => /= hkr hD hf hh hm; rewrite -[d_res0 _ _ _]/(k_res0 (d_kdata l ob) x0) (ko_res (defl_kd hsqr hl ha hob hMr x0)) => -[_ _ et].
have nm : (0 < n + m)%N by rewrite -hkr addnS.
have [a ea _] := C54_init sqr eBm hr hAU ra nm.
have [g eg h] := C56_get hsqr eBm hr hAU ra hkr hD hf hh hm t (d_UMlr l ob x0) ea n0.
exists a, g; split=> //.
- case: h => l1 l2 l3 l4 l5 l6 l7 l8 l9; split=> //.
  by move=> x; rewrite l2; split=> -[/hS h1 h2]; split.
- apply: (C56_start hsqr eBm hr hAU ra hkr hD hf hh hm ea n0 eg) => i i0.
  rewrite -et /mnorm -/(ipnorm (mip (ip1 (lB l)) M) _) (PdE hl ha hob) -hs // /d_UMlr (d_YaE hsqr hl ha hob).
  rewrite -(PdE hl ha hob) /Pd (linB (lo_M hl)) -(d_EE hsqr hl ha hob) hAU (imcols_vec (lo_M hl)) mulmxA.
  by congr (M _ - _); case: x0 => //=; rewrite /resid (lin0 (lo_A hl)) subr0.
exact: (C56_PWAW hsqr eBm hr hAU ra hkr hD hf hh hm ea n0 eg).
Qed.

Theorem C56_gmres s : ortho_ok l ortho ->
  of_run (deflated_gmres sqr snorm l Minv same U kw o ortho x0) s ->
  let a := gm_a (s_st s).1 in a_inv a = false \/ a_H a (a_iter a) (a_iter a).-1 = 0 ->
  arnoldifies (arn_byprod l fl ob a (s_st s).2).
Proof.
move=> ho hs a; apply: C56_attributes.
exact: (Properties.DeflRitz.C31_gmres hsqr hl ha eBm vBm hadj hsep hfl hMr nb hob ho hs).
Qed.

Theorem C56_minres s : ortho_ok l ortho -> self_adjoint (ip1 (lB l)) A ->
  of_run (deflated_minres sqr snorm l Minv same U kw o ortho x0) s ->
  let a := mr_a (s_st s).1 in a_inv a = false \/ a_H a (a_iter a) (a_iter a).-1 = 0 ->
  arnoldifies (arn_byprod l fl ob a (s_st s).2).
Proof.
move=> ho sa hs a; apply: C56_attributes.
exact: (Properties.DeflRitz.C31_minres hsqr hl ha eBm vBm hadj hsep hfl hMr nb hob ho sa hs).
Qed.

Theorem C56_cg s : self_adjoint (ip1 (lB l)) A -> pos_def (ip1 (lB l)) A -> P r0 <> 0 ->
  deflated_cg sqr l Minv same U kw o true x0 = Returns s ->
  let t := (s_st s).1 in
  arnoldifies (mk_byprod l fl ob (cg_it t).+1 (cg_it t) (cg_V t) (cg_H t) (rev (s_st s).2.2)).
Proof.
move=> sa pd nr hs t; apply: (C56_attributes (ex := True)) => //.
exact: (Properties.DeflRitz.C31_cg hsqr hl ha eBm vBm hadj hsep hfl hMr nb hob sa pd nr hs).
Qed.
End Runs.

(** The same for a space [V, U] of full dimension, where the remainder vanishes. *)
Lemma full_zero (C : numClosedFieldType) N (B : ipB C N) n m k (V : 'M[C]_(N, n)) (U : 'M[C]_(N, m)) (Y : 'M[C]_(N, k)) :
  valid_ip B -> (n + m = N)%N -> inner B V V = 1%:M -> inner B U U = 1%:M -> inner B U V = 0 ->
  inner B V Y = 0 -> inner B U Y = 0 -> Y = 0.
Proof.
move=> hB e VV UU UV VY UY; pose X := row_mx V U.
have XX : inner B X X = 1%:M.
  by rewrite (inner_row hB) VV UU UV (innerC hB U V) UV ctr0 -scalar_mx_block.
have XY : inner B X Y = 0 by rewrite (inner_row_l hB) VY UY col_mx0.
move: XX XY; rewrite !(inner_gram hB); case: _ / e (X) (gramB _) Y {VY UY VV UU UV} => Z G Y' h1 h2.
have u : Z^h *m G \in unitmx by have [] := mulmx1_unit h1.
by rewrite -[Y'](mulKmx u) h2 mulmx0.
Qed.

(** An example: A = [[2,1],[1,2]], M = 5, Ml = 2, b = e_0, U = [e_0], without initial guess
    and with tol = 0.  GMRES does one step; then [V, U] spans the whole space.  W is the vector v_1. *)
Section Example.
Variable C : numClosedFieldType.
Local Notation l := (Properties.Deflation.dex_lsys C).
Local Notation Mi := (Properties.Deflation.dex_Minv C).
Local Notation kw := Properties.Deflation.dex_kw.
Local Notation hq := (@some_qr_spec C).
Let hip := valid_is_ip (B := @IpNone C 2) I.

Definition ex_fqr n k (_ : 'M[C]_(n, k)) : 'M[C]_n := 1%:M.
Definition ex_pqr n k (_ : 'M[C]_(n, k)) : 'M[C]_(n, minn n k) * 'M[C]_(minn n k, k) * {perm 'I_k} := (eye C _ _, 0, perm_one _).
Definition ex_hess n (A : 'M[C]_n) : 'M[C]_n * 'M[C]_n := (A, 1%:M).
Definition ex_nrm2 n (_ : 'M[C]_n) : C := 1.
Definition ex_smin n (G : 'M[C]_n) : C := `|\tr G|.

Lemma dex_res0 : defl_P IpNone (lMlAMr l) (e0 C) (resid l 0) != 0.
Proof.
apply/eqP => h; have := h; rewrite /defl_P -mulmxA (imcols_vec (lMlAMr_lin (Properties.Deflation.dex_ok C))).
move: (invmx _ *m _) => c; rewrite /resid /= /lMlAMr /= => /eqP; rewrite subr_eq0 => /eqP /matrixP e.
have := e ord0 0; have := e (lift ord0 ord0) 0.
rewrite /Properties.Cg.spd_op /swap_op /swap_mx /e0 !mxE !big_ord_recl !big_ord0 !mxE !big_ord_recl !big_ord0 !mxE /=.
move: (c ord0 0) => t; rewrite ?(mulr0, mul0r, addr0, mulr1, mul1r, add0r, subr0) => h1 h2.
have n2 : 2%:R != 0 :> C by rewrite pnatr_eq0.
have t0 : t = 0 by apply: (mulfI n2); rewrite -h1 oppr0.
by move: h2; rewrite t0 !mulr0 => /eqP; rewrite pnatr_eq0.
Qed.

Local Notation ex_Wt n := (\matrix_(i, j) (i == 0%N :> nat)%:R : 'M[C]_(n + 1, 1)).
Local Notation exMA := (fun x => lMop l (lMlAMr l x)).
Lemma ex_run : exists ob s B, let a := gm_a (s_st s).1 in let b := arn_byprod l true ob a (s_st s).2 in
  let W := dbasis ob b *m ex_Wt (a_iter a) in
  [/\ mk_oblique (@some_qr C) l Mi false (e0 C) kw = Ok ob,
      deflated_gmres (@some_qr C) (@frob C) l Mi false (e0 C) kw (Opts 0 2 false) Mgs None = Returns s,
      (a_iter a = 1 /\ arn_rows a = 1)%N,
      [/\ get_ip_Minv_B l Mi = Ok B, valid_ip B, forall x y, ip1 B x (lMop l y) = ip1 (lB l) x y,
          separated (ip1 B) (eps15 C) (e0 C) & Properties.DeflRitz.rel_ok l (e0 C) None B ob b True]
    & [/\ rank_args ex_pqr ex_nrm2 l ob b B, inner B W (imcols exMA W) \in unitmx, fqr_ok (ex_Wt (a_iter a)) (ex_fqr (ex_Wt (a_iter a))),
          forall A : 'M[C]_1, hess_ok A (ex_hess A).1 (ex_hess A).2 & forall G : 'M[C]_1, smin_ok G (ex_smin G)]].
Proof.
have ok := Properties.Deflation.dex_ok C; have args := Properties.Deflation.dex_args C.
have h5 : 5%:R != 0 :> C by rewrite pnatr_eq0.
have [|||B eB [vB hB]] := @Properties.Deflation.C43_Minv_inner_product C 2 l _ (fun x => 5%:R^-1 *: x) ok erefl.
- by move=> x; rewrite scalerA mulVf // scale1r.
- by move=> x; rewrite scalerA divff // scale1r.
- by [].
have hadj x y : ip1 B x (lMop l y) = ip1 (lB l) x y.
  by have [_ ->] := hB x (lMop l y); rewrite /lMop /= scalerA mulVf // scale1r.
have sep : separated (ip1 B) (eps15 C) (e0 C).
  move=> i c; rewrite big_pred0; last by move=> j; rewrite !ord1.
  rewrite subr0 ord1 col_id; apply: Properties.Deflation.eps_sqrt.
  by have [_ ->] := hB (e0 C) (e0 C); rewrite (ipZr hip) Properties.Deflation.e0_ip mulr1.
have [ob hob] := oblique_total hq ok args.
have mr (c : 'cV[C]_1) : lMr l (e0 C *m c) = e0 C *m c by [].
have nb := @Properties.Deflation.dex_nz C.
have sa : true -> self_adjoint (ip1 (lB l)) (lMlAMr l) by move=> _; apply: Properties.Deflation.dex_sa.
have [//|//|s E [_ hc]] := Properties.Deflation.C29_gmres_finite (o := Opts 0 2 false) (ortho := Mgs) hq ok args mr None I
  (@Properties.Deflation.dex_inj C) (@frob_bounds C) nb.
have R := Properties.DeflRitz.C31_gmres hq ok args eB vB hadj sep sa mr nb hob (I : ortho_ok l Mgs) (or_introl E).
set a := gm_a (s_st s).1 in hc R *; pose b := arn_byprod l true ob a (s_st s).2; rewrite -/b in R.
have rE : arn_rows a = if a_inv a then a_iter a else (a_iter a).+1 by rewrite /arn_rows /arn_get; case: (a_inv a).
have [hn [W [hr hAU _ hs hS]]] := R.
have le : (arn_rows a + 1 <= 2)%N.
  have h : inner B (row_mx (bp_V b) (o_U ob)) (row_mx (bp_V b) (o_U ob)) = 1%:M.
    rewrite (inner_row vB) (dr_VV hr) (dr_UU hr) (dr_UV hr) (innerC vB (o_U ob) _) (dr_UV hr) ctr0.
    by rewrite -scalar_mx_block.
  by move: h; rewrite (inner_gram vB) => /mulmx1_min.
have n1 : (0 < a_iter a)%N.
  case: (posnP (a_iter a)) => // i0; exfalso.
  have bn : y_bnorm (lsys_sys l (rhs_norm l)) != 0 by move/eqP: nb => nb'; rewrite /= rhs_norm_eq0.
  move: E; rewrite /deflated_gmres (bnorm_ok ok) /= hob /= => E0.
  have hs1 := @unlog_of C 2 _ (gmres (@frob C) (d_kdata l ob) 2 Mgs) _ _ _ _ _ s (or_introl E0).
  have [hi sz hmin _] := gmres_run (defl_kd hq ok args hob mr None) (defl_cfg hq ok args hob _ (I : ortho_ok l Mgs)) bn hs1.
  have sr : size (s_res s) = 1%N by rewrite sz; congr _.+1.
  case: hc => [|[j [ej _]]]; last by rewrite i0 in ej.
  rewrite -nth_last sr; have [|x hx ->] := hmin 0%N; first by [].
  have -> := min_res_unique hx (min_res0 (defl_kd hq ok args hob mr None)).
  have nz : Pd l ob (resid l (x0_of None)) != 0 by rewrite (PdE ok args hob); apply: dex_res0.
  rewrite -[mnorm _ _ _]/(ipnorm (mip (ip1 (lB l)) (lMop l)) _) lt_geF //; apply: divr_gt0.
    by rewrite lt_def (ipnorm_eq0 (lmip ok)) nz (ipnorm_ge0 (lmip ok)).
  by rewrite lt_def bn sqrtC_ge0; apply: (ip_ge0' (lmip ok)).
have e1 : arn_rows a = 1%N.
  by move: le (leq_trans n1 hn); rewrite addn1 ltnS => u1 u2; apply/eqP; rewrite eqn_leq u1.
have i1 : a_iter a = 1%N.
  by move: (hn); rewrite e1 => u1; apply/eqP; rewrite eqn_leq u1.
have full : (arn_rows a + 1 = 2)%N by rewrite e1.
have W0 : W = 0 := full_zero vB full (dr_VV hr) (dr_UU hr) (dr_UV hr) (dr_VW hr) (dr_UW hr).
rewrite W0 in hr; have ap : aproj l ob b = 0.
  by apply: (full_zero vB full (dr_VV hr) (dr_UU hr) (dr_UV hr)); [apply: V_aproj|apply: U_aproj].
exists ob, s, B; rewrite /= -/a -/b; split=> //; first by split=> //; exists hn, 0; split.
pose Wt := ex_Wt (a_iter a); rewrite -/Wt; split.
- move=> _; rewrite /ex_pqr ap /ex_nrm2; split.
  + split.
    * by rewrite eye_ctr eye_mul // geq_minl.
    * by move=> *; rewrite mxE.
    * by move=> *; rewrite mulmx0 !mxE.
    * move=> i j _; rewrite big1 ?mxE ?normr0 ?expr0n // => t _.
      by rewrite mxE normr0 expr0n.
  + exact: ler01.
  + by move=> i; left; rewrite mxE.
  + by move=> -[i hi]; exfalso; move: hi; rewrite /arank big1 // => t _; rewrite mxE normr0 lt_gtF ?mulr1 ?invr_gt0 ?exprn_gt0 ?ltr0n.
- rewrite (dbasisE ob b hn); set w := _ *m Wt.
  have ww : inner B w w = 1%:M.
    rewrite /w (innerMl vB) (innerMr vB) (gramX hr) mul1mx; apply/matrixP => i j; rewrite !ord1 !mxE.
    have h0 : (0 < a_iter a + 1)%N by rewrite addn1.
    rewrite (bigD1 (Ordinal h0)) //= big1 => [|t]; first by rewrite ctrE !mxE conjC1 mulr1 addr0.
    by rewrite -val_eqE /= => /negbTE ht; rewrite [X in _ * X]mxE ht mulr0.
  have w0 : w != 0 by apply: contraTneq isT => e; move/matrixP/(_ 0 0)/eqP: ww; rewrite e (inner0r vB) !mxE eq_sym oner_eq0.
  have p0 := Properties.Deflation.dex_pd w0; rewrite -hadj in p0.
  rewrite unitmxE det_mx11 unitfE; apply: lt0r_neq0; move: p0; congr (0 < _).
  by rewrite /ip1; congr (inner _ _ _ 0 0); apply/matrixP => i j; rewrite !mxE !ord1 col_id.
- split; first by rewrite ctr1 mulmx1.
  by exists Wt; rewrite ?mul1mx // => i j h; rewrite mxE gtn_eqF // (leq_ltn_trans _ h).
- move=> A; split=> /=; rewrite ?ctr1 ?mulmx1 ?mul1mx // => i j; rewrite !ord1 //.
  by rewrite mxE.
- move=> G; have Gc (c : 'cV[C]_1) : G *m c = \tr G *: c.
    by rewrite /mxtrace big_ord1; apply/matrixP => i j; rewrite !mxE big_ord1 !ord1.
  split; first exact: normr_ge0.
  + by move=> c; rewrite Gc (ipnormZ (valid_is_ip (B := @IpNone C 1) I)).
  exists 1%:M; first by rewrite oner_neq0.
  rewrite Gc -scalemxAr mulmx1 /ex_smin; apply/matrixP => i j; rewrite !mxE !ord1 eqxx mulr1 normCK.
  by rewrite /mxtrace big_ord1.
Qed.

Example C56_run : exists ob s, let a := gm_a (s_st s).1 in let b := arn_byprod l true ob a (s_st s).2 in
  [/\ mk_oblique (@some_qr C) l Mi false (e0 C) kw = Ok ob,
      deflated_gmres (@some_qr C) (@frob C) l Mi false (e0 C) kw (Opts 0 2 false) Mgs None = Returns s,
      (a_iter a = 1 /\ arn_rows a = 1)%N
    & exists f t g, mk_arnf (@some_qr C) ex_pqr ex_nrm2 l Mi ob b = Ok f /\
      arnf_get (@some_qr C) ex_fqr ex_hess ex_smin l Mi ob b f t (d_UMlr l ob None) (\matrix_(i, j) (i == 0%N :> nat)%:R : 'M[C]_(_, 1)) 0 = Ok g].
Proof.
have ok := Properties.Deflation.dex_ok C; have args := Properties.Deflation.dex_args C.
have [ob [s [B [hob E [i1 e1] [eB vB hadj sep R] [h1 h2 h3 h4 h5]]]]] := ex_run.
have mr (c : 'cV[C]_1) : lMr l (e0 C *m c) = e0 C *m c by [].
exists ob, s; split=> //.
have ar := C56_attributes (fqr := ex_fqr) (hess := ex_hess) (smin := ex_smin) hq ok args eB mr hob R I h1.
have [||f [g [k1 k2 _ _ _]]] := ar _ 1%N 0%N _ _ _ _ _ h2 h3 h4 (fun _ => h5) (ko_res (defl_kd hq ok args hob mr None)).
- by rewrite e1.
- by rewrite i1.
by exists f; eexists; exists g; split; [exact: k1|exact: k2].
Qed.
End Example.
