(** C75: how arguments become linear operators, vectors and linear systems. *)
From mathcomp Require Import all_ssreflect all_algebra.
From Verif Require Import Base Spec.LinAlg Proof.Algebra Model.Inner Proof.Inner Model.Measures Model.Solver Model.LinearSystem.
From Verif Require Import Model.LinearOperator Spec.OperatorExpr Proof.LinearOperator Model.Construct.

Set Implicit Arguments.
Unset Strict Implicit.
Unset Printing Implicit Defensive.
Import Order.TTheory GRing.Theory Num.Theory.
Local Open Scope ring_scope.

Local Arguments norm {C N} x y B : simpl never.

Section Construct.
Variable C : numClosedFieldType.
Variable nrm : forall m n, 'M[C]_(m, n) -> C.
(** The spectral norm of a matrix with a single entry *)
Hypothesis nrm11 : forall x : 'M[C]_1, nrm x = `|x 0 0|.

(** What a vector argument becomes *)
Definition as_column (o : obj C) : obj C := if o is PNd (Nd1 n v) then PNd (Nd2 (Arr v)) else o.
Definition two_axes (o : obj C) : bool := if o is PNd (Nd2 _) then true else false.

(** shape_vecs: arrays with one axis become columns with the same entries, nothing else changes, and flat_vecs tells if there is no
    array with two axes (so it is true if there is no array at all). *)
Theorem C75_shape_vecs (args : seq (obj C)) : shape_vecs args = (~~ has two_axes args, map as_column args).
Proof. by elim: args => //= a s ->; case: a => // -[]. Qed.

(** shape_vec accepts arrays with one axis, columns, and empty arrays. *)
Theorem C75_shape_vec (x : nd C) (a : arr C) : shape_vec x = Ok a ->
  ncol a = 1%N /\ nrow a = nd_len x /\ forall i, (i < nrow a)%N -> entry a i 0 = if x is Nd2 b then entry b i 0 else if x is @Nd1 _ n v then (if insub i is Some j then v j 0 else 0) else 0.
Proof.
case: x => [n v|b] /=; last first.
  case: ifP => // _ [<-] /=; do 2!split=> //.
  by move=> i hi; rewrite [LHS]/entry !insubT //= mxE.
move=> [<-] /=; do 2!split=> //.
move=> i hi; rewrite /entry (insubT (fun k => k < 1)%N (isT : (0 < 1)%N)) /=.
by case: insubP => // j _ _; congr (v j _); apply: val_inj.
Qed.

Theorem C75_shape_vec_accepts (x : nd C) :
  if is_ok (shape_vec x) then (if x is Nd2 a then ncol a = 1%N \/ nrow a = 0%N else True)
  else shape_vec x = Err ValueError /\ (if x is Nd2 a then ncol a <> 1%N /\ nrow a <> 0%N else False).
Proof.
case: x => [n v|a] //=; case e: (nrow a * ncol a == nrow a)%N => /=.
  case: (posnP (nrow a)) => h; first by right.
  by left; apply/eqP; rewrite -(eqn_pmul2l h) muln1.
by split=> //; split=> h; move: e; rewrite ?h ?muln1 ?mul0n eqxx.
Qed.

(** get_linearoperator returns an operator with the shape that was asked for, or raises an exception. *)
Theorem C75_shape m n (A : obj C) a : get_linearoperator m n A = Ok a -> lrow a = m /\ lcol a = n.
Proof.
rewrite /get_linearoperator; case: (match A with PNone => _ | _ => _ end) => //= b.
by case: ifP => // /norP[/negPn/eqP e1 /negPn/eqP e2] [<-].
Qed.

(** Which objects are accepted. *)
Theorem C75_accepts m n (A : obj C) :
  match A with
  | PNone => get_linearoperator m n A = Ok (mkId C m n)
  | PNd (Nd1 _ _) => get_linearoperator m n A = Err LinearOperatorError
  | PNd (Nd2 a) | PSparse a => get_linearoperator m n A = if (nrow a == m) && (ncol a == n) then Ok (mkMat a) else Err LinearOperatorError
  | PLop a => get_linearoperator m n A = if (lrow a == m) && (lcol a == n) then Ok a else Err LinearOperatorError
  | PSci s => (sc_dtype s = false -> get_linearoperator m n A = Err ArgumentError) /\
     (sc_dtype s -> is_ok (get_linearoperator m n A) = (sc_row s == m) && (sc_col s == n))
  | PFun _ | POther => get_linearoperator m n A = Err TypeError
  end.
Proof.
case: A => [|[k v|a]|a|s|a|f|] //=; rewrite /get_linearoperator /= ?eqxx // -?negb_and; try by case: (_ && _).
by split=> ->//=; rewrite -negb_and; case: (_ && _).
Qed.

(** Matrices act on blocks of any number of columns. *)
Theorem C75_matrix m n (A : 'M[C]_(m, n)) o : o = PNd (Nd2 (Arr A)) \/ o = PSparse (Arr A) ->
  exists2 a, get_linearoperator m n o = Ok a & forall k (X : 'M[C]_(n, k)), (0 < k)%N -> dot a (Arr X) = Ok (Arr (A *m X)).
Proof.
move=> ho; exists (mkMat (Arr A)); first by case: ho => ->; rewrite /get_linearoperator /= !eqxx.
by move=> k X k0; rewrite /dot /= eqxx gtn_eqF //= arr_dotE.
Qed.

(** A scipy LinearOperator is applied to a single column, but not to a block with several columns. *)
Theorem C75_scipy_refuted (s : sciop C) : sc_dtype s ->
  exists2 a, get_linearoperator (sc_row s) (sc_col s) (PSci s) = Ok a &
    (forall x, dot a (Arr x) = Ok (Arr (sc_mv (s := s) x))) /\
    forall k (X : 'M[C]_(sc_col s, k)), (1 < k)%N -> dot a (Arr X) = Err ValueError.
Proof.
move=> hd; eexists; first by rewrite /get_linearoperator hd /= !eqxx.
split=> [x|k X k1]; rewrite /dot /= eqxx /= /sci_apply ?as_mx_id //.
have -> : as_mx (sc_col s) 1 (Arr X) = None.
  by case E: (as_mx _ _ _) => [Y|] //; move: k1; have /(congr1 (@ncol C))/= -> := as_mx_some E.
by rewrite gtn_eqF // (ltn_trans _ k1).
Qed.

Variable N : nat.
Local Notation vec := 'cV[C]_N.

(** The object o is the linear operator that maps x to f x: None, a matrix, a scipy LinearOperator, or a LinearOperator.  [i] tells if it is
    an IdentityLinearOperator afterwards. *)
Inductive denotes : obj C -> (vec -> vec) -> bool -> Prop :=
| DenNone : denotes (PNone C) id true
| DenArr (A : 'M[C]_N) : denotes (PNd (Nd2 (Arr A))) (mulmx A) false
| DenSparse (A : 'M[C]_N) : denotes (PSparse (Arr A)) (mulmx A) false
| DenSci f g : denotes (PSci (@SciOp C N N true f g)) f false
| DenId : denotes (PLop (mkId C N N)) id true
| DenLop a f : lrow a = N -> lcol a = N -> is_id a = false -> (forall x : vec, dot a (Arr x) = Ok (Arr (f x))) -> denotes (PLop a) f false.

(** The argument ip_B denotes an inner product. *)
Inductive ip_denotes : obj C -> ipB C N -> Prop :=
| IpdNone o : denotes o id true -> ip_denotes o IpNone
| IpdOp o B : denotes o (mulmx B) false -> ip_denotes o (IpOp B)
| IpdFun f g : (forall m n (X : 'M[C]_(N, m)) (Y : 'M[C]_(N, n)), f (Arr X) (Arr Y) = Ok (Arr (g m n X Y))) -> ip_denotes (PFun f) (IpCall g).

(** Vectors may be given with one or two axes. *)
Definition column (x : nd C) (v : vec) : Prop := x = Nd1 v \/ x = Nd2 (Arr v).

(** The operator object acts as f. *)
Definition lop_is (a : lop C) (f : vec -> vec) (i : bool) : Prop :=
  [/\ lrow a = N, lcol a = N, is_id a = i, i -> f =1 id & forall x, dot a (Arr x) = Ok (Arr (f x))].

Lemma get_lop o f i : denotes o f i -> exists2 a, get_linearoperator N N o = Ok a & lop_is a f i.
Proof.
case=> [|A|A|g h||a g h1 h2 h3 h4].
- by eexists; [by rewrite /get_linearoperator /= !eqxx|split=> //= x; rewrite /dot /= eqxx].
- by eexists; [by rewrite /get_linearoperator /= !eqxx|split=> //= x; rewrite /dot /= eqxx arr_dotE].
- by eexists; [by rewrite /get_linearoperator /= !eqxx|split=> //= x; rewrite /dot /= eqxx arr_dotE].
- by eexists; [by rewrite /get_linearoperator /= !eqxx|split=> //= x; rewrite /dot /= eqxx /sci_apply as_mx_id].
- by eexists; [by rewrite /get_linearoperator /= !eqxx|split=> //= x; rewrite /dot /= eqxx].
by exists a; [rewrite /get_linearoperator /= h1 h2 !eqxx|split].
Qed.

Lemma lop_mul a f i (x : vec) : lop_is a f i -> op_mul_arr a (Arr x) = Ok (Arr (f x)).
Proof. by case=> _ _ hi hf h; rewrite /op_mul_arr hi h; case: (i) hf => // hf; rewrite hf. Qed.

Lemma dotE m n f da i (X : arr C) : nrow X = n -> ncol X != 0%N -> dot (Lop m n (Some f) da i) X = f X.
Proof. by move=> e1 e2; rewrite /dot /= e1 eqxx (negbTE e2). Qed.

Lemma lop_prod a f i b g j : lop_is a f i -> lop_is b g j -> exists2 c, op_mul a b = Ok c & lop_is c (f \o g) (i && j).
Proof.
case=> a1 a2 a3 a4 a5 [b1 b2 b3 b4 b5]; rewrite /op_mul a3 b3.
case: j b3 b4 => b3 b4; first by exists a; rewrite ?andbT //; split=> //; [move=> /a4 h x /=; rewrite b4 // h|move=> x /=; rewrite b4].
case: i a3 a4 => a3 a4; first by exists b => //; split=> // x /=; rewrite b5 a4.
rewrite /mkProd a2 b1 eqxx /=; eexists => //; split=> //= x.
by rewrite dotE //= b5 /= a5.
Qed.

Lemma entry0 (M : 'M[C]_1) : entry (Arr M) 0 0 = M 0 0.
Proof. by rewrite /entry (insubT (fun k => k < 1)%N (isT : (0 < 1)%N)) /=; congr (M _ _); apply: val_inj. Qed.

Lemma pnorm_norm (x y : vec) o p B : pinner (Arr x) (Arr y) o = Ok (Arr (p : 'M[C]_1)) -> p 0 0 = ip1 B x y ->
  pnorm nrm (Arr x) (Arr y) o = norm x (Some y) B.
Proof.
move=> E ep; rewrite /pnorm E /= /norm -ep /np_norm /= nrm11.
have n1 (d : 'cV[C]_(minn 1 1)) : norm2 d = `|d 0 0| by rewrite /norm2 big_ord1 sqrCK // normr_ge0.
by rewrite !n1 !mxE entry0; case: ifP.
Qed.

Lemma adjE m n (X : 'M[C]_(m, n)) : arr_adj (Arr X) = Arr (tconj X). Proof. by []. Qed.

Lemma get_ip_ok o B : ip_denotes o B -> exists2 q, get_ip N o = Ok q & forall x y : vec, pnorm nrm (Arr x) (Arr y) q = norm x (Some y) B.
Proof.
case=> [{}o /get_lop[a E [a1 a2 a3 _ _]]|{}o {}B /get_lop[a E h]|f g h].
- exists (PLop a) => [|x y]; first by rewrite /get_ip E.
  by apply: (@pnorm_norm x y _ (tconj x *m y) IpNone) => //; rewrite /pinner a3 adjE arr_dotE.
- exists (PLop a) => [|x y]; first by rewrite /get_ip E.
  apply: (@pnorm_norm x y _ (tconj x *m (B *m y)) (IpOp B)) => //.
  have [a1 a2 a3 _ _] := h; rewrite /pinner a3 /get_linearoperator /= a1 a2 eqxx /= (lop_mul y h) /=.
  by rewrite adjE arr_dotE.
exists (PFun f) => // x y.
by apply: (@pnorm_norm x y _ (g 1%N 1%N x y) (IpCall g)) => //; rewrite /pinner /= h.
Qed.

(** The attributes of a LinearSystem are those of l. *)
Record represents (s : lsobj C) (l : lsys C N) (fi : vec -> vec) (bn : C) : Prop := Represents {
  rp_N : sN s = N;
  rp_A : forall x, op_mul_arr (sA s) (Arr x) = Ok (Arr (lA l x));
  rp_M : forall x, op_mul_arr (sM s) (Arr x) = Ok (Arr (lMop l x));
  rp_Mid : is_id (sM s) = ~~ isSome (lM l);
  rp_Minv : forall x, op_mul_arr (sMinv s) (Arr x) = Ok (Arr (fi x));
  rp_Ml : forall x, op_mul_arr (sMl s) (Arr x) = Ok (Arr (lMl l x));
  rp_Mr : forall x, op_mul_arr (sMr s) (Arr x) = Ok (Arr (lMr l x));
  rp_MlAMr : forall x, op_mul_arr (sMlAMr s) (Arr x) = Ok (Arr (lMlAMr l x));
  rp_ip : forall x y, pnorm nrm (Arr x) (Arr y) (sip s) = norm x (Some y) (lB l);
  rp_b : sb s = PNd (Nd2 (Arr (lb l)));
  rp_exact : sexact s = if lexact l is Some e then PNd (Nd2 (Arr e)) else PNone C;
  rp_Mlb : sMlb s = Arr (lMlb l);
  rp_MMlb : sMMlb s = Arr (lMMlb l);
  rp_norm : sMMlb_norm s = bn }.

Section System.
Variables (g : lsargs C) (fA fM fMi fMl fMr : vec -> vec) (iA iM iMi iMl iMr : bool) (b : vec) (B : ipB C N) (e : option vec).
Hypothesis hA : denotes (gA g) fA iA.
Hypothesis hM : denotes (gM g) fM iM.
Hypothesis hMi : denotes (gMinv g) fMi iMi.
Hypothesis hMl : denotes (gMl g) fMl iMl.
Hypothesis hMr : denotes (gMr g) fMr iMr.
Hypothesis hb : column (gb g) b.
Hypothesis hB : ip_denotes (gip g) B.
Hypothesis he : match gexact g, e with Some x, Some v => column x v | None, None => True | _, _ => False end.

(** The linear system of the theorems on solvers *)
Definition the_system : lsys C N := LSys fA b (if iM then None else Some fM) fMl fMr B e.

(** LinearSystem(A, b, M, ...) is an object with the attributes of this system; it raises the exception of the norm of M Ml b if
    there is one, and no other, whatever normal and self_adjoint are. *)
Theorem C75_system :
  match lMMlb_norm the_system with
  | Ok bn => exists2 s, linear_system nrm g = Ok s & represents s the_system fMi bn
  | Err x => linear_system nrm g = Err x
  end.
Proof.
have [A EA lA] := get_lop hA; have [M EM lM] := get_lop hM; have [Mi EMi lMi] := get_lop hMi.
have [Ml EMl lMl] := get_lop hMl; have [Mr EMr lMr] := get_lop hMr; have [q Eq hq] := get_ip_ok hB.
have [MlA E1 l1] := lop_prod lMl lA; have [MlAMr E2 l2] := lop_prod l1 lMr.
have len : nd_len (gb g) = N by case: hb => ->.
have Mop x : lMop the_system x = fM x by rewrite /lMop /=; case: (iM) lM => // -[_ _ _ h _]; rewrite h.
have E : shape_vecs [:: PNd (gb g); odflt_nd (gexact g)] = (~~ two_axes (PNd (gb g)) && ~~ two_axes (odflt_nd (gexact g)),
   [:: PNd (Nd2 (Arr b)); if e is Some v then PNd (Nd2 (Arr v)) else PNone C]).
  rewrite C75_shape_vecs /= orbF negb_or; congr (_, [:: _; _]); first by case: hb => ->.
  by move: he; case: (gexact g) => [x|]; case: (e) => // v [] ->.
have main : linear_system nrm g = rmap (fun n => LsObj N A M Mi Ml Mr MlAMr q (~~ two_axes (PNd (gb g)) && ~~ two_axes (odflt_nd (gexact g)))
     (PNd (Nd2 (Arr b))) (if e is Some v then PNd (Nd2 (Arr v)) else PNone C) (gsa g) (gsa g || (gnormal g == Some true)) (gpd g)
     (Arr (lMlb the_system)) (Arr (lMMlb the_system)) n) (lMMlb_norm the_system).
  rewrite /linear_system len E EA /= EM /= EMi /= EMl /= EMr /= E1 /= E2 /= Eq /=.
  have -> : (if gsa g then true else if gnormal g is Some n then n else false) = gsa g || (gnormal g == Some true).
    by case: (gsa g) => //; case: (gnormal g) => // -[].
  have -> : gsa g && ~~ (gsa g || (gnormal g == Some true)) = false by case: (gsa g).
  rewrite /= (lop_mul b lMl) /= (lop_mul _ lM) /= hq /lMMlb_norm /lMMlb Mop -[lMlb _]/(fMl b).
  by case: (norm _ _ _).
rewrite main; case: (lMMlb_norm the_system) => //= bn; eexists => //; split=> //=.
- by move=> x; exact: lop_mul lA.
- by move=> x; rewrite Mop; exact: lop_mul lM.
- by have [_ _ -> _ _] := lM; case: (iM).
- by move=> x; exact: lop_mul lMi.
- by move=> x; exact: lop_mul lMl.
- by move=> x; exact: lop_mul lMr.
by move=> x; exact: lop_mul l2.
Qed.
End System.

(** get_residual of this object is that of the system, so the theorems about the systems hold for the object. *)
Theorem C75_residual s l fi bn (z : option vec) : represents s l fi bn ->
  ls_residual nrm s (omap (fun x => Arr x) z) = rmap (fun t => (Arr t.1.1, Arr t.1.2, t.2)) (get_residual l bn z).
Proof.
move=> h; case: z => [z|] /=; last by rewrite (rp_MMlb h) (rp_Mlb h) (rp_norm h).
rewrite (rp_A h) /= (rp_b h) /arr_sub /arr_scale /= arr_addE scaleN1r /= (rp_Ml h) /= (rp_M h) /= (rp_ip h).
by case: (norm _ _ _).
Qed.

(** Whatever the arguments are: if the constructor returns then all operators have the shape (N, N) with N = len(b), b and the exact solution
    have two axes, self_adjoint implies normal, and the flags are otherwise those given (normal is False by default).  flat_vecs
    tells if neither b nor the exact solution has two axes. *)
Theorem C75_checked (g : lsargs C) s : linear_system nrm g = Ok s ->
  [/\ forall a, List.In a [:: sA s; sM s; sMinv s; sMl s; sMr s] -> lrow a = sN s /\ lcol a = sN s,
    sN s = nd_len (gb g) /\ two_axes (sb s), (sexact s = PNone C) \/ two_axes (sexact s) &
    [/\ ssa s = gsa g, spd s = gpd g, snormal s = gsa g || (gnormal g == Some true) &
      sflat s = (if gb g is Nd1 _ _ then true else false) && (if gexact g is Some (Nd2 _) then false else true)]].
Proof.
rewrite /linear_system C75_shape_vecs; set n := nd_len _.
case EA: (get_linearoperator n n (gA g)) => [A|] //=; case EM: (get_linearoperator n n (gM g)) => [M|] //=.
case EMi: (get_linearoperator n n (gMinv g)) => [Mi|] //=; case EMl: (get_linearoperator n n (gMl g)) => [Ml|] //=.
case EMr: (get_linearoperator n n (gMr g)) => [Mr|] //=; case: (op_mul Ml A) => //= MlA; case: (op_mul MlA Mr) => //= MlAMr.
case: (get_ip n _) => [q|] //=.
case: ifP => // _; case: (mul_obj _ _) => //= Mlb; case: (op_mul_arr _ _) => //= MMlb; case: (pnorm _ _ _ _) => //= bn [<-] /=.
split=> //.
- by move=> a; do 5?[case=> [<-|]] => //; [exact: C75_shape EA|exact: C75_shape EM|exact: C75_shape EMi|exact: C75_shape EMl|exact: C75_shape EMr].
- by case: (gb g).
- by case: (gexact g) => [[]|] /=; auto.
split=> //; first by case: (gsa g) => //; case: (gnormal g) => // -[].
by case: (gb g) => //= *; case: (gexact g) => // -[].
Qed.


(** The initial guess of a solver: a vector becomes a column; flat_vecs is also true if no initial guess is given. *)
Theorem C75_x0 (x0 : option (nd C)) (v : vec) :
  solver_x0 x0 = (if x0 is Some (Nd2 _) then false else true, if x0 is Some x then as_column (PNd x) else PNone C) /\
  (if x0 is Some x then column x v -> (solver_x0 x0).2 = PNd (Nd2 (Arr v)) else True).
Proof. by rewrite /solver_x0 C75_shape_vecs; case: x0 => [x|] //=; split; [case: x|case=> ->]. Qed.
End Construct.

(** Examples: a system with a matrix A, a flat b, a scipy operator Ml, a LinearOperator Mr and a function ip_B *)
Section Examples.
Variable C : numClosedFieldType.
Let A : 'M[C]_2 := const_mx 1 + 1%:M.
Let b : 'cV[C]_2 := delta_mx 0 0.
Let Ml : sciop C := @SciOp C 2 2 true (fun x => 2%:R *: x) (fun x => 2%:R *: x).
Let f (X Y : arr C) : res (arr C) := arr_dot (arr_adj X) Y.
Let nrm m n (X : 'M[C]_(m, n)) : C := \sum_i \sum_j `|X i j|.
Let g := LsArgs (PNd (Nd2 (Arr A))) (Nd1 b) (PNone C) (PNone C) (PSci Ml) (PLop (mkMat (Arr (3%:R *: 1%:M : 'M[C]_2)))) (PFun f) (Some false) true false
  (Some (Nd2 (Arr b))).

Example C75_example :
  [/\ forall x : 'M[C]_1, nrm x = `|x 0 0|,
    [/\ denotes (gA g) (mulmx A) false, denotes (gM g) (@id 'cV[C]_2) true, denotes (gMinv g) (@id 'cV[C]_2) true,
      denotes (gMl g) (fun x : 'cV[C]_2 => 2%:R *: x) false & denotes (gMr g) (mulmx (3%:R *: 1%:M : 'M[C]_2)) false],
    column (gb g) b & ip_denotes (gip g) (IpCall (fun m n (X : 'M[C]_(2, m)) (Y : 'M[C]_(2, n)) => tconj X *m Y))] /\
  exists s, [/\ linear_system nrm g = Ok s, snormal s, ~~ sflat s & sMMlb_norm s = 2%:R].
Proof.
have n1 (x : 'M[C]_1) : nrm x = `|x 0 0| by rewrite /nrm !big_ord1.
have dA : denotes (gA g) (mulmx A) false by exact: DenArr.
have dM : denotes (gM g) (@id 'cV[C]_2) true by exact: DenNone.
have dMl : denotes (gMl g) (fun x : 'cV[C]_2 => 2%:R *: x) false by exact: DenSci.
have dMr : denotes (gMr g) (mulmx (3%:R *: 1%:M : 'M[C]_2)) false.
  by apply: DenLop => // x; rewrite dotE // arr_dotE.
have cb : column (gb g) b by left.
have dB : ip_denotes (gip g) (IpCall (fun m n (X : 'M[C]_(2, m)) (Y : 'M[C]_(2, n)) => tconj X *m Y)).
  by apply: IpdFun => m n X Y; rewrite /f adjE arr_dotE.
split=> //; have := C75_system n1 dA dM dM dMl dMr cb dB (e := Some b) (or_intror erefl).
have -> : lMMlb_norm (the_system (mulmx A) id (fun x : 'cV[C]_2 => 2%:R *: x) (mulmx (3%:R *: 1%:M : 'M[C]_2)) true b
    (IpCall (fun m n (X : 'M[C]_(2, m)) (Y : 'M[C]_(2, n)) => tconj X *m Y)) (Some b)) = Ok 2%:R.
  rewrite /lMMlb_norm /norm /lMMlb /lMop /lMlb /ip1 /=.
  have -> : (tconj (2%:R *: b) *m (2%:R *: b)) 0 0 = 4%:R.
    by rewrite !mxE !big_ord_recl big_ord0 !mxE /= ?mulr0 !mulr1 ?rmorph0 ?mul0r ?mulr0 !addr0 conjC_nat -natrM.
  rewrite normr_nat (Creal_ImP _ _) ?realn // normr0.
  have e0 : 0 <= 4%:R * eps10 C by rewrite mulr_ge0 ?ler0n // invr_ge0 exprn_ge0 ?ler0n.
  rewrite (le_gtF e0).
  by rewrite -[4%N]/(2 * 2)%N natrM -expr2 sqrCK // ler0n.
move=> [s E h]; exists s; split=> //; last exact: rp_norm h.
  by have [_ _ _ [_ _ -> _]] := C75_checked E.
by have [_ _ _ [_ _ _ ->]] := C75_checked E.
Qed.
End Examples.

Print Assumptions C75_shape_vecs.
Print Assumptions C75_shape_vec.
Print Assumptions C75_shape_vec_accepts.
Print Assumptions C75_shape.
Print Assumptions C75_accepts.
Print Assumptions C75_matrix.
Print Assumptions C75_scipy_refuted.
Print Assumptions C75_system.
Print Assumptions C75_residual.
Print Assumptions C75_checked.
Print Assumptions C75_x0.
Print Assumptions C75_example.
