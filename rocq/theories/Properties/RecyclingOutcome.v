(** C84: the results and exceptions of solve() are those of the deflated solver, and
    RitzFactorySimple selects Ritz pairs by the values and residual norms of
    deflation.Ritz. *)
From mathcomp Require Import all_ssreflect all_algebra.
From Verif Require Import Base Spec.LinAlg Model.Ritz Model.Inner Proof.Inner Proof.IpTheory Model.Arnoldi Model.Solver Model.LinearSystem.
From Verif Require Import Model.Krylov Model.Projection Model.Deflation Model.DeflRitz Model.Recycling Spec.Recycling Proof.Recycling.
From Verif Require Import Model.RecyclingRun Spec.RecyclingRun Proof.RecyclingRun Proof.ArnoldiExample Proof.QrExist Proof.ArnoldiAll.
From Verif Require Properties.Recycling.

Set Implicit Arguments.
Unset Strict Implicit.
Unset Printing Implicit Defensive.
Import Order.TTheory GRing.Theory Num.Theory.
Local Open Scope ring_scope.

Section Outcome.
Variable C : numClosedFieldType.
Variable sqr : forall n k, 'M[C]_(n, k) -> 'M[C]_(n, k) * 'M[C]_k.
Variable snorm : nat -> nat -> (nat -> nat -> C) -> C.
Variable N : nat.
Local Notation vec := 'cV[C]_N.
Variable default : option (factory (dsolver C N) (seq vec)).

(** [vectors last c r]: the deflation vectors of the call c, or the exception of its factory,
    where last is the solver of the previous successful call *)
Definition vectors (last : option (dsolver C N)) (c : rcall C N) (r : res (seq vec)) : Prop :=
  match last, used default c with Some s, Some f => f s = r | _, _ => r = Ok [::] end.

(** [like o r]: r is what solve() does if the deflated solver does o. *)
Definition like T (o : outcome C vec T) (r : res (dsolver C N)) : Prop :=
  match o with
  | Returns t => exists2 s, r = Ok s & ds_xk s = s_xk t /\ ds_res s = s_res t
  | NoConvergence _ => r = Err ConvergenceErr
  | Raises e => r = Err e
  end.

(** The outcome r of the call c after the calls pre, and the new value of last_solver *)
Definition follows (T : seq vec -> Type) (solver : forall U, outcome C vec (T U)) (run : seq (rcall C N) -> seq (res (dsolver C N)) * option (dsolver C N))
    pre c post : Prop :=
  exists r v, [/\ nth None (map Some (run (pre ++ c :: post)).1) (size pre) = Some r,
    vectors (run pre).2 c v,
    (forall U, v = Ok U -> like (solver U) r),
    (forall e, v = Err e -> r = Err e) &
    (run (rcons pre c)).2 = if r is Ok s then Some s else (run pre).2].

Lemma follows_new (T : seq vec -> Type) (solver : rcall C N -> forall U, outcome C vec (T U)) new pre c post :
  (forall c U, like (solver c U) (new (c_sys c) U (c_args c))) ->
  follows (solver c) (rsolves (fun y => Ok y) [::] new default None) pre c post.
Proof.
move=> hn; set run := rsolves _ _ _ _ _.
pose v : res (seq vec) := match (run pre).2, used default c with Some s, Some f => f s | _, _ => Ok [::] end.
exists (rsolve (fun y => Ok y) [::] new default (run pre).2 c).1, v.
have step : (rsolve (fun y => Ok y) [::] new default (run pre).2 c).1 = let! U := v in new (c_sys c) U (c_args c).
  by rewrite /rsolve /v /used /=; case: (run pre).2.
split.
- by rewrite /run steps_cat.
- by rewrite /vectors /v; case: (run pre).2 => [s|//]; case: (used default c).
- by move=> U eU; rewrite step eU; exact: hn.
- by move=> e ee; rewrite step ee.
by rewrite /run steps_rcons.
Qed.

Theorem C84_minres pre c post :
  follows (T := fun U => mrst C N * seq 'cV[C]_(size U))%type (fun U => deflated_minres sqr snorm (rs_l (c_sys c)) (rs_Minv (c_sys c)) (rs_same (c_sys c)) (colmx U)
      (ra_kw (c_args c)) (ra_o (c_args c)) (ra_ortho (c_args c)) (ra_x0 (c_args c)))
    (recycling_minres sqr snorm default) pre c post.
Proof.
apply: (@follows_new (fun U => mrst C N * seq 'cV[C]_(size U))%type (fun c U => deflated_minres sqr snorm (rs_l (c_sys c)) (rs_Minv (c_sys c)) (rs_same (c_sys c)) (colmx U)
      (ra_kw (c_args c)) (ra_o (c_args c)) (ra_ortho (c_args c)) (ra_x0 (c_args c)))).
move=> {}c U; rewrite /new_minres /like; case E: (deflated_minres _ _ _ _ _ _ _ _ _ _) => [t|t|e] //.
move: E; rewrite /deflated_minres; case: (lMMlb_norm _) => //= bn.
by case: (mk_oblique _ _ _ _ _ _) => //= ob _; eexists.
Qed.

Theorem C84_gmres pre c post :
  follows (T := fun U => gmst C N * seq 'cV[C]_(size U))%type (fun U => deflated_gmres sqr snorm (rs_l (c_sys c)) (rs_Minv (c_sys c)) (rs_same (c_sys c)) (colmx U)
      (ra_kw (c_args c)) (ra_o (c_args c)) (ra_ortho (c_args c)) (ra_x0 (c_args c)))
    (recycling_gmres sqr snorm default) pre c post.
Proof.
apply: (@follows_new (fun U => gmst C N * seq 'cV[C]_(size U))%type (fun c U => deflated_gmres sqr snorm (rs_l (c_sys c)) (rs_Minv (c_sys c)) (rs_same (c_sys c)) (colmx U)
      (ra_kw (c_args c)) (ra_o (c_args c)) (ra_ortho (c_args c)) (ra_x0 (c_args c)))).
move=> {}c U; rewrite /new_gmres /like; case E: (deflated_gmres _ _ _ _ _ _ _ _ _ _) => [t|t|e] //.
move: E; rewrite /deflated_gmres; case: (lMMlb_norm _) => //= bn.
by case: (mk_oblique _ _ _ _ _ _) => //= ob _; eexists.
Qed.
End Outcome.

Section Choice.
Variable C : numClosedFieldType.
Variable N : nat.
Variables eig eigh : forall n, 'M[C]_n -> ('I_n -> C) * 'M[C]_n.
Variables geig geigh : forall n, 'M[C]_n -> 'M[C]_n -> ('I_n -> C) * 'M[C]_n.
Variable argsort : seq C -> seq nat.
Hypothesis argsortP : argsort_spec argsort.

(** RitzFactorySimple(n_vectors=k, which=w).get(s): the vectors of k Ritz pairs (all, if there
    are fewer) whose values (residual norms for 'smallest_res') are the smallest or largest
    ones *)
Theorem C84_choice k w (s : dsolver C N) (z : dritz C (ds_n s + ds_m s)) :
  mk_dritz eig eigh geig geigh (ds_l s) (ds_sa s) (ds_ob s) (ds_b s) DmRitz = Ok z ->
  (0 < ds_n s + ds_m s)%N -> w <> WOther ->
  exists values resnorms, [/\ forall i, dz_values z i = Some (values i),
    forall i, dz_resnorms z i = Some (resnorms i) /\ 0 <= resnorms i &
  let keys (f : 'I_(ds_n s + ds_m s) -> C) := [seq f i | i <- enum 'I_(ds_n s + ds_m s)] in
  exists2 idx, ritz_factory eig eigh geig geigh (simple_select argsort k.+1 w) s = dvectors (ds_ob s) (ds_b s) z (Some idx) &
  match w with
  | WLm => largest_k k.+1 (keys (fun i => `|values i|)) idx
  | WSm => smallest_k k.+1 (keys (fun i => `|values i|)) idx
  | WLr => largest_k k.+1 (keys (fun i => 'Re (values i))) idx
  | WSr => smallest_k k.+1 (keys (fun i => 'Re (values i))) idx
  | WLi => largest_k k.+1 (keys (fun i => 'Im (values i))) idx
  | WSi => smallest_k k.+1 (keys (fun i => 'Im (values i))) idx
  | WSmallestRes => smallest_k k.+1 (keys resnorms) idx
  | WOther => False
  end].
Proof.
move=> Ez nm hw.
have [values [resnorms [hv hr]]] : exists values resnorms, (forall i, dz_values z i = Some (values i)) /\
    forall i, dz_resnorms z i = Some (resnorms i) /\ 0 <= resnorms i.
  move: Ez; rewrite /mk_dritz eqn0Ngt nm /=; case: (EinvC _ _) => //= X.
  case: ((if ds_sa s then _ else _) _) => th Y [<-] /=; exists th; eexists; split=> // i; split; first by [].
  by rewrite /dresnorm sqrtC_ge0.
exists values, resnorms; split=> // keys; rewrite /ritz_factory Ez /= eqn0Ngt nm /= /simple_select.
have -> : [seq odflt 0 (dz_values z i) | i <- enum 'I_(ds_n s + ds_m s)] = keys values.
  by apply: eq_map => i; rewrite hv.
have -> : [seq odflt 0 (dz_resnorms z i) | i <- enum 'I_(ds_n s + ds_m s)] = keys resnorms.
  by apply: eq_map => i; have [-> _] := hr i.
have rk : all (fun x => x \is Num.real) (keys resnorms).
  by apply/allP => x /mapP[i _ ->]; have [_ /ger0_real] := hr i.
have km f : [seq f v | v <- keys values] = keys (fun i => f (values i)) by rewrite /keys -map_comp.
have [a1 a2 a3 a4] := Properties.Recycling.C47_smallest argsortP (keys values) k.+1 rk.
have [b1 b2 b3] := Properties.Recycling.C47_largest argsortP (keys values) (keys resnorms) k.
case: w hw => // _; [case: b1|case: a1|case: b2|case: a2|case: b3|case: a3|case: a4] => idx -> h; exists idx => //.
- by rewrite -km. - by rewrite -km. - by rewrite -km. - by rewrite -km. - by rewrite -km. - by rewrite -km.
Qed.
End Choice.

(** A system whose "preconditioner" M = i is not positive: norm() raises an
    InnerProductError, solve() passes it on and last_solver remains None.  And a solver after
    two iterations without deflation: one Ritz pair with the smallest residual norm. *)
Section Example.
Variable C : numClosedFieldType.
Definition out_lsys : lsys C 2 := LSys id (e0 C) (Some (fun x => 'i *: x)) id id IpNone None.
Definition out_call : rcall C 2 :=
  Call (RSys out_lsys None false true) None (RArgs (Opts 0 2 false) Mgs None (PKw 0 false 1)).

Lemma out_norm : lMMlb_norm out_lsys = Err InnerProductError.
Proof.
have hip := valid_is_ip (B := @IpNone C 2) I.
have p : 0 < ip1 (@IpNone C 2) (e0 C) (e0 C) by apply: (ip_pos hip); exact: e0_nz.
rewrite /lMMlb_norm /norm /lMlb /lMMlb /lMlb /lMop /= (ipZr hip) ifT //.
rewrite normrM normCi mul1r ImMil (Creal_ReP _ (gtr0_real p)).
by rewrite gtr_pmulr ?normr_gt0 ?gt_eqF // invf_lt1 ?exprn_gt0 ?ltr0n // -natrX ltr1n.
Qed.

Example C84_example :
  recycling_minres (@some_qr C) (@frob C) None [:: out_call] = ([:: Err InnerProductError], None) /\
  forall (eig : forall n, 'M[C]_n -> ('I_n -> C) * 'M[C]_n) geig (ob : obl C 2 0) (b : byprod C 2 3 2 0),
  let s := DSolver out_lsys true ob b None [::] false in
  exists2 u, ritz_factory eig eig geig geig (simple_select (some_argsort (C := C)) 1 WSmallestRes) s = Ok [:: u] & True.
Proof.
split.
  have [r [v [h1 h2 h3 h4 h5]]] := C84_minres (@some_qr C) (@frob C) None [::] out_call [::].
  have hv : v = Ok [::] by [].
  have := h3 _ hv; rewrite /deflated_minres [lMMlb_norm _]out_norm /like /= => er.
  have e2 : (recycling_minres (@some_qr C) (@frob C) None [:: out_call]).2 = None by rewrite h5 er.
  case E: (recycling_minres _ _ _ _) h1 e2 => [rs la] /=; rewrite er.
  have : size rs = 1%N by have := congr1 (fun x => size x.1) E; rewrite /recycling_minres steps_cons.
  by case: rs {E} => [|x [|]] //= _ [->] ->.
move=> eig geig ob b s.
have [z Ez] : exists z, mk_dritz eig eig geig geig (ds_l s) (ds_sa s) (ds_ob s) (ds_b s) DmRitz = Ok z.
  by rewrite /mk_dritz /= ; case: (eig _ _) => th Y; eexists.
have [th [rn [_ _ [idx -> [h1 h2 h3 _]]]]] := C84_choice (@some_argsortP C) 0 Ez isT (w := WSmallestRes) ltac:(by []).
rewrite /dvectors ifT; last first.
  by apply/allP => i /h2; rewrite size_map size_enum_ord.
by case: idx h3 {h1 h2} => [|i [|j idx]]; rewrite size_map size_enum_ord //= => _; eexists.
Qed.
End Example.

Print Assumptions C84_minres.
Print Assumptions C84_gmres.
Print Assumptions C84_choice.
Print Assumptions C84_example.
