(** C13-C18: the Arnoldi process. *)
From mathcomp Require Import all_ssreflect all_algebra.
From Verif Require Import Base Spec.LinAlg Model.Inner Spec.Inner
  Proof.IpTheory Model.Arnoldi Spec.Arnoldi Proof.ArnoldiRel Proof.Arnoldi Proof.HouseArnoldi
  Proof.ArnoldiAll Proof.ArnoldiExample.

Set Implicit Arguments.
Unset Strict Implicit.
Unset Printing Implicit Defensive.
Import Order.TTheory GRing.Theory Num.Theory.
Local Open Scope ring_scope.

(** Reading guide.  [arn_cfg c]: A is linear and either ortho is mgs/dmgs, or
    lanczos with A self-adjoint in the inner product (and then ip_B is an inner
    product and M, if given, is linear, self-adjoint and positive definite), or
    ortho is house with M = None and ip_B = None and N > 0.
    [init_args]: optional Mv, Mv_norm, if given, are M v and the norm of v.
    [arn_advance_n n a0 = Ok a]: n calls of advance on a0 succeed and give a.
    [Mop c] is M or the identity; [Pb c a] is P, or V if M is None. *)
Section Properties.
Variable C : numClosedFieldType.
Variable N : nat.
Local Notation vec := 'cV[C]_N.
Variable snorm : nat -> nat -> (nat -> nat -> C) -> C.
Implicit Types (c : acfg C N) (v : vec) (a : arn C N).

Section Reach.
Variables (c : acfg C N) (v : vec) (Mv : option vec) (nv : option C) (n : nat) (a0 a : arn C N).
Hypothesis hc : arn_cfg c.
Hypothesis hi : init_args c v Mv nv.
Hypothesis h0 : arn_init c v Mv nv = Ok a0.
Hypothesis h1 : arn_advance_n snorm c n a0 = Ok a.

(** C13.  After n advance() calls: n = iter; V, P, H satisfy the Arnoldi relation;
    invariance was flagged exactly if H_(n,n-1) <= 1e-14 ||H||. *)
Theorem C13_arnoldi_relation :
  a_iter a = n /\
  arnoldi_rel (cip c) (cA c) (Mop c) v n (n + ~~ a_inv a) (a_V a) (Pb c a) (a_H a) /\
  a_inv a = (if n is k.+1 then a_H a k.+1 k / snorm k.+2 k.+1 (a_H a) <= (10%:R ^+ 14)^-1 else v == 0).
Proof.
have [[h _] e _ _ h'] := arn_reach hc hi h0 h1; split=> //; split=> //.
by move: h; rewrite /arn_ok /ncols e.
Qed.

(** The same in matrix form: A V_n = P_(n+1) H, V = M P, H_(j+1,j) > 0, H_ij = 0 for
    i > j+1. *)
Theorem C13_matrix_form : a_inv a = false ->
  [/\ forall j, (j < n)%N -> cA c (a_V a j) = \sum_(i < n.+1) a_H a i j *: Pb c a i,
      forall j, (j <= n)%N -> a_V a j = Mop c (Pb c a j),
      forall j, (j < n)%N -> 0 < a_H a j.+1 j
    & forall i j, (j.+1 < i)%N -> a_H a i j = 0].
Proof.
move=> hinv; have [_ [R _]] := C13_arnoldi_relation; rewrite hinv addn1 in R; split.
- by move=> j hj; apply: (rel_fullsum R).
- by move=> j hj; apply: (ar_V R).
- by move=> j hj; have [w [_ _ _ h4]] := ar_step R hj; have [|_ ->] := h4 _; rewrite ?ltnS.
- by move=> i j hij; rewrite (ar_hess R) // hij.
Qed.

(** When invariance is flagged: the truncated relation A V_n = P_n H_n + w e_n^T with
    w orthogonal to the basis and ||w|| = H_(n,n-1). *)
Theorem C13_truncated k : a_inv a = true -> n = k.+1 ->
  (forall j, (j < k)%N -> cA c (a_V a j) = \sum_(i < n) a_H a i j *: Pb c a i) /\
  (exists w, [/\ cA c (a_V a k) = \sum_(i < n) a_H a i k *: Pb c a i + w,
                 ipnorm (cmip c) w = a_H a n k
               & forall i, (i < n)%N -> cip c (a_V a i) w = 0]).
Proof.
move=> hinv en; have [_ [R _]] := C13_arnoldi_relation; move: R; rewrite hinv addn0 en => R.
exact (rel_trunc R).
Qed.

(** C14.  The basis is orthonormal; with a preconditioner in the inner product
    <x, y>_(M^-1), i.e. <P_i, V_j> = delta_ij; in particular it has at most N
    members. *)
Theorem C14_orthonormal :
  (forall i j, (i < n + ~~ a_inv a)%N -> (j < n + ~~ a_inv a)%N ->
     cip c (Pb c a i) (a_V a j) = (i == j)%:R) /\ (n + ~~ a_inv a <= N)%N.
Proof.
have [_ [R _]] := C13_arnoldi_relation; split=> [i j hi' hj|].
  by rewrite (ar_V R) // -(ar_orth R).
exact (rel_size (cfg_ip hc) (cfg_M hc) (cfg_Msa hc) (cfg_Mpd hc) R).
Qed.

(** C15/C16 are stated for all variants: whatever the variant, the result is the one
    of any other variant with the same A, M, ip_B, v (uniqueness). *)
Theorem C15_C16_same_as c' Mv' nv' n' a0' a' :
  arn_cfg c' -> init_args c' v Mv' nv' -> arn_init c' v Mv' nv' = Ok a0' ->
  arn_advance_n snorm c' n' a0' = Ok a' ->
  cA c' = cA c -> cM c' = cM c -> cB c' = cB c -> v != 0 ->
  forall j, (j < n + ~~ a_inv a)%N -> (j < n' + ~~ a_inv a')%N ->
  [/\ Pb c a j = Pb c' a' j, a_V a j = a_V a' j
    & (j < n)%N -> (j < n')%N -> forall i, a_H a i j = a_H a' i j].
Proof.
move=> hc' hi' h0' h1' eA eM eB v0 j hj hj'.
have [_ [R _]] := C13_arnoldi_relation.
have [[R' _] e' _ _ _] := arn_reach hc' hi' h0' h1'.
have eMop : Mop c' = Mop c by rewrite /Mop eM.
have ecip : cip c' = cip c by rewrite /cip eB.
rewrite /arn_ok /ncols e' eA eMop ecip in R'.
apply: (rel_unique (cfg_ip hc) (cfg_M hc) (cfg_Msa hc) (cfg_Mpd hc) R R' v0 (k := j.+1)) => //.
  by apply: leq_trans hj _; rewrite -addn1 leq_add2l leq_b1.
by apply: leq_trans hj' _; rewrite -addn1 leq_add2l leq_b1.
Qed.

(** C15.  For an operator that is self-adjoint in the inner product (the
    precondition of lanczos) H is real, symmetric, tridiagonal. *)
Theorem C15_H_symmetric_tridiagonal : self_adjoint (cip c) (cA c) ->
  [/\ forall i j, (i < n)%N -> (j < n)%N -> a_H a i j \is Num.real,
      forall i j, (i < n)%N -> (j < n)%N -> a_H a i j = a_H a j i
    & forall i j, (i.+1 < j)%N || (j.+1 < i)%N -> a_H a i j = 0].
Proof.
move=> hsa; have [_ [R _]] := C13_arnoldi_relation.
have [|h2 h3 h4] := rel_herm (cfg_ip hc) (cfg_M hc) (cfg_Msa hc) (cfg_Mpd hc) hsa R.
  by rewrite leq_addr.
split=> // i j /orP[]; first exact: h4.
by move=> h; rewrite (ar_hess R) ?h.
Qed.

(** C18.  span(V_0..V_(k-1)) = K_k(M A, M v), for every k up to the number of basis
    vectors. *)
Theorem C18_krylov_span k : v != 0 -> (k <= n + ~~ a_inv a)%N ->
  forall x, in_span (a_V a) k x <->
            in_span (krylov (fun y => Mop c (cA c y)) (Mop c v)) k x.
Proof.
move=> v0 hk; have [_ [R _]] := C13_arnoldi_relation.
have [|k1 k2] := rel_krylov (cfg_ip hc) (cfg_A hc) (cfg_M hc) (cfg_Msa hc) (cfg_Mpd hc) R hk _ v0.
  by apply: leq_trans hk _; rewrite -addn1 leq_add2l leq_b1.
have eK j : Mop c (krylov (fun y => cA c (Mop c y)) v j) =
            krylov (fun y => Mop c (cA c y)) (Mop c v) j.
  by elim: j => //= j ->.
have hM := cfg_M hc.
have VK j : (j < k)%N -> in_span (krylov (fun y => Mop c (cA c y)) (Mop c v)) k (a_V a j).
  move=> hj; rewrite (ar_V R) ?(leq_trans hj) //.
  have := span_map hM (k2 j hj); move=> /(span_widen hj) [d ->].
  by exists d; apply: eq_bigr => i _; rewrite eK.
have KV j : (j < k)%N -> in_span (a_V a) k (krylov (fun y => Mop c (cA c y)) (Mop c v) j).
  move=> hj; rewrite -eK.
  have := span_map hM (k1 j hj); move=> /(span_widen hj) [d ->].
  by exists d; apply: eq_bigr => i _; rewrite (ar_V R) // (leq_trans (ltn_ord i)).
by move=> x; split=> hx; [exact: span_trans hx VK|exact: span_trans hx KV].
Qed.

(** C17.  The counter never exceeds maxiter. *)
Theorem C17_iter_bound : (n <= cmaxiter c)%N.
Proof. by have [_ _ _ [//|->] _] := arn_reach hc hi h0 h1. Qed.

(** get() returns as many columns of V (and P) and rows of H as there are orthonormal
    basis vectors, and n columns of H; get_last() returns the newest vector, or None
    if the space is invariant. *)
Theorem C17_get_shapes :
  arn_get a = (n + ~~ a_inv a, n + ~~ a_inv a, n)%N /\
  arn_get_last a = (if a_inv a then None else Some n, n + ~~ a_inv a)%N.
Proof.
by have [e _] := C13_arnoldi_relation; rewrite /arn_get /arn_get_last e; case: (a_inv a);
  rewrite ?addn0 ?addn1.
Qed.
End Reach.

(** C15, C16: which arguments are admissible for lanczos and house, so that the
    theorems above apply. *)
Theorem C15_lanczos_admissible c : cortho c = Lanczos ->
  valid_ip (cB c) -> is_linear (cA c) -> is_linear (Mop c) ->
  self_adjoint (cip c) (Mop c) -> pos_def (cip c) (Mop c) ->
  self_adjoint (cip c) (cA c) -> arn_cfg c.
Proof. by move=> e h1 h2 h3 h4 h5 h6; left; split=> //; rewrite e. Qed.

Theorem C13_mgs_admissible c : cortho c = Mgs \/ cortho c = Dmgs ->
  valid_ip (cB c) -> is_linear (cA c) -> is_linear (Mop c) ->
  self_adjoint (cip c) (Mop c) -> pos_def (cip c) (Mop c) -> arn_cfg c.
Proof. by move=> e h1 h2 h3 h4 h5; left; split=> //; case: e => ->. Qed.

Theorem C16_house_admissible c : (0 < N)%N -> cortho c = Householder ->
  cM c = None -> cB c = IpNone -> is_linear (cA c) -> arn_cfg c.
Proof. by move=> h0 h1 h2 h3 h4; right; split. Qed.

(** C16: house rejects preconditioners and other inner products. *)
Theorem C16_house_rejects c v Mv nv : cortho c = Householder ->
  cM c <> None \/ cB c <> IpNone -> arn_init c v Mv nv = Err ArgumentError.
Proof.
move=> e h; rewrite /arn_init e /init_house; case: (cM c) (cB c) h => [M|] [|B|f] //= [|] //.
Qed.

(** C17.  The constructor rejects unknown values of ortho, and otherwise succeeds on
    admissible arguments. *)
Theorem C17_unknown_ortho c v Mv nv : cortho c = OrthoOther ->
  arn_init c v Mv nv = Err ArgumentError.
Proof. by move=> e; rewrite /arn_init e. Qed.

Theorem C17_init c v Mv nv : arn_cfg c -> init_args c v Mv nv ->
  exists a, [/\ arn_init c v Mv nv = Ok a, a_iter a = 0%N, a_inv a = (v == 0)
              & a_vnorm a = ipnorm (cmip c) v].
Proof. by move=> hc hi; have [a [h1 _ h2 h3 h4]] := arn_init_ok hc hi; exists a. Qed.

(** advance raises ArgumentError exactly if maxiter is reached or the space is
    invariant; the error value carries no new object: the object is unchanged. *)
Theorem C17_advance_misuse c a :
  advance snorm c a = Err ArgumentError <-> (cmaxiter c <= a_iter a)%N || a_inv a.
Proof.
split=> [E|h].
  by have := advance_cases snorm c a; rewrite E => -[[_ ->]| | |].
by rewrite /advance; case: leqP h => //= _ ->.
Qed.

(** arnoldi() terminates: it performs at most maxiter iterations, and stops only if
    maxiter is reached or the space is invariant (no hypothesis on the arguments). *)
Theorem C17_terminates c v Mv nv :
  arnoldi snorm c v Mv nv <> Err OutOfFuel /\
  forall a, arnoldi snorm c v Mv nv = Ok a ->
    (a_iter a <= cmaxiter c)%N /\ (a_iter a = cmaxiter c \/ a_inv a).
Proof.
have it0 a : arn_init c v Mv nv = Ok a -> a_iter a = 0%N.
  rewrite /arn_init => E; have [[v' a1] _ [<-]] := bind_ok E.
  by case: ifP.
rewrite /arnoldi; case E: (arn_init c v Mv nv) => [a0|e] /=.
  split=> [|a E1]; first by apply: loop_fuel; rewrite leq_subr.
  have [] := loop_iter E1; rewrite (it0 _ E) max0n => h1 /orP[h2|h2]; split=> //; last by right.
  by left; apply/eqP; rewrite eqn_leq h1.
split=> // -[e']; move: E; rewrite e' /arn_init; set m := (X in bind X _).
case Em: m => [[v' a']|e1] //= [e2]; move: Em; rewrite e2 /m.
have hn y : norm v y (cB c) <> Err OutOfFuel by move=> /norm_errs.
have hb y (f : C -> vec * arn C N) :
    (let! r := (if nv is Some r then Ok r else norm v y (cB c)) in Ok (f r)) <> Err OutOfFuel.
  by case: (nv) => [r|] //=; case E: (norm v y (cB c)) (hn y) => [r|e3] //= h [e4]; apply: h; rewrite e4.
have gs : init_gs c v Mv nv <> Err OutOfFuel.
  by rewrite /init_gs; case: (cM c) => [M|]; apply: hb.
case: (cortho c) => //; rewrite /init_house; case: (cM c) => //; case: (cB c) => //.
suff h (k : nat) (x : vec * arn C N) : (if k is 0 then Err IndexError else Ok x) <> Err OutOfFuel.
  exact: h.
by case: k.
Qed.

(** On admissible arguments with A M v nonzero (and a matrix norm that bounds the
    entries) every run succeeds. *)
Theorem C17_total c v Mv nv : bounds_entries snorm -> arn_cfg c -> init_args c v Mv nv ->
  (v != 0 -> cA c (Mop c v) != 0) -> exists a, arnoldi snorm c v Mv nv = Ok a.
Proof. by move=> h1 h2 h3; apply: arnoldi_total. Qed.

(** ... but if A M v = 0 the first step divides by the norm of a zero matrix (in
    floating point: nan, the test is false and nan enters the basis). *)
Theorem C17_zero_operator_divides_by_zero c v Mv nv a : arn_cfg c -> init_args c v Mv nv ->
  (forall r k H, (forall i j, H i j = 0) -> snorm r k H = 0) ->
  v != 0 -> cA c (Mop c v) = 0 ->
  arn_init c v Mv nv = Ok a -> forall a', advance snorm c a <> Ok a'.
Proof. exact: zero_av_divides. Qed.

(** The result of arnoldi() is a state reached by advance() calls, so that all
    theorems above apply to it. *)
Theorem C13_arnoldi_function c v Mv nv a : arnoldi snorm c v Mv nv = Ok a ->
  exists a0 n, arn_init c v Mv nv = Ok a0 /\ arn_advance_n snorm c n a0 = Ok a.
Proof.
rewrite /arnoldi => E; have [a0 E0 E1] := bind_ok E.
by have [n En] := arn_loop_reach E1; exists a0, n.
Qed.

End Properties.

(** Non-vacuity: A = [[0,1],[1,0]], v = e_0, every variant: the hypotheses hold and
    one advance() call succeeds without flagging invariance. *)
Example C13_C18_run (C : numClosedFieldType) o m : o <> OrthoOther -> (0 < m)%N ->
  arn_cfg (swap_cfg C o m) /\ init_args (swap_cfg C o m) (e0 C) None None /\
  e0 C != 0 /\
  exists a0 a, [/\ arn_init (swap_cfg C o m) (e0 C) None None = Ok a0,
    arn_advance_n (@frob C) (swap_cfg C o m) 1 a0 = Ok a & a_inv a = false].
Proof.
move=> ho hm; split; first exact: swap_cfg_ok.
by split=> //; split; [exact: e0_nz|exact: swap_run].
Qed.

Example C17_frobenius (C : numClosedFieldType) : bounds_entries (@frob C).
Proof. exact: frob_bounds. Qed.

Example C15_self_adjoint (C : numClosedFieldType) o m :
  self_adjoint (cip (swap_cfg C o m)) (cA (swap_cfg C o m)).
Proof. exact: swap_sa. Qed.

Print Assumptions C13_arnoldi_relation.
Print Assumptions C14_orthonormal.
Print Assumptions C15_C16_same_as.
Print Assumptions C15_H_symmetric_tridiagonal.
Print Assumptions C16_house_rejects.
Print Assumptions C17_advance_misuse.
Print Assumptions C17_terminates.
Print Assumptions C17_total.
Print Assumptions C18_krylov_span.
Print Assumptions C13_C18_run.
