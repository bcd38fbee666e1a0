(** C62: the time estimates. *)
From mathcomp Require Import all_ssreflect all_algebra ring zify.
From Verif Require Import Base Spec.LinAlg Model.Inner Spec.Inner Proof.Inner.
From Verif Require Import Model.Timings Proof.Timings Model.Interval Spec.Interval.
From Verif Require Import Proof.Interval Proof.IntervalSpec Model.Evaluators Proof.Evaluators.
From Verif Require Import Model.Arnoldi Spec.Arnoldi Proof.ArnoldiAll Proof.ArnoldiExample Model.Solver Spec.Solver Model.LinearSystem Model.Krylov Spec.Krylov.
From Verif Require Import Proof.Gmres Proof.LinearSystem Model.Calls Spec.Calls Proof.Calls Properties.Calls.
From Verif Require Properties.Gmres Properties.Minres.

Set Implicit Arguments.
Unset Strict Implicit.
Unset Printing Implicit Defensive.
Import Order.TTheory GRing.Theory Num.Theory.
Local Open Scope ring_scope.

Section C62.
Variable F : rcfType.
Variable K : eqType.
Variables (kA kM kMl kMr kB kX : K).
Implicit Type tm : timings F K.

Local Notation estimate := (@estimate_time F K kA kM kMl kMr kB kX).

(** The key of a kind of call; the keys differ. *)
Definition key (k : kind) : K :=
  match k with KA => kA | KM => kM | KMl => kMl | KMr => kMr | KIp => kB end.
Definition kinds := [:: KA; KM; KMl; KMr; KIp].

(** The recorded times for a key *)
Definition recorded tm k : seq F := if tm k is Some t then t_list t else [::].
Definition nonneg tm := forall k, all (fun x => 0 <= x) (recorded tm k).

Let tget0 tm k : recorded tm k = [::] -> tget tm k = 0.
Proof. by rewrite /recorded /tget; case: (tm k) => [[t0 [|x s]]|]. Qed.

(** C62.  Without timings no time can be estimated. *)
Theorem C62_untimed s n d w : estimate None s n d w = Err RuntimeErr.
Proof. by []. Qed.

Let triangle n : ((n * (n + 1)) %/ 2)%:R = n%:R * (n%:R + 1) / 2%:R :> F.
Proof.
have e : (2 %| n * (n + 1))%N by rewrite dvdn2 oddM oddD; case: (odd n).
have n2 : 2%:R != 0 :> F by rewrite pnatr_eq0.
by rewrite -[n%:R + 1](natrD _ n 1) -natrM -[in RHS](divnK e) natrM mulfK.
Qed.

(** The numbers of calls that operations(n) announces *)
Let announced (s : solver_class) : nat -> kind -> nat :=
  match s with SCg => cg_operations | SMinres => minres_operations | SGmres => gmres_operations end.

Let estimate0 tm s (n : nat) w : recorded tm kX = [::] ->
  estimate (Some tm) s n%:R 0 w = Ok (\sum_(k <- kinds) tget tm (key k) * (announced s n k)%:R).
Proof.
move=> hX; rewrite /estimate_time !tget_opsE; congr Ok.
rewrite /proj_operations /ops_Ml !big_cons !big_nil /= (tget0 hX).
case: s; rewrite /= /ops_Ml !big_cons !big_nil /= (tget0 hX) ?natrD ?natrM ?triangle; ring.
Qed.

Section Runs.
Variable C : numClosedFieldType.
Variable N : nat.
Variable snorm : nat -> nat -> (nat -> nat -> C) -> C.
Variables (l : lsys C N) (o : opts C).
Hypothesis hl : lsys_ok l.
Hypothesis hex : lexact l = None.
Hypothesis nb : lMl l (lb l) <> 0.
Hypothesis hexp : o_explicit o = false.
Variables (tm : timings F K) (w : F).
(** Nothing ever uses a timer "axpy". *)
Hypothesis hX : recorded tm kX = [::].

(** C62.  Without deflation vectors, the time estimated for n steps is the number of calls in
    a run of n steps of each kind times the shortest recorded time of one such call. *)
Theorem C62_gmres s n : lM l <> None ->
  of_run (gmres_solve snorm l o Mgs None) s -> size (s_res s) = n.+2 -> stopped o (s_res s) ->
  estimate (Some tm) SGmres n.+1%:R 0 w =
  Ok (\sum_(k <- kinds) tget tm (key k) * (calls l k (gmres_prog snorm l o Mgs None))%:R).
Proof.
move=> hM hr hn hs; rewrite estimate0 //; congr Ok; apply: eq_bigr => k _.
by rewrite (C49_gmres_operations hl hex nb hexp k hM hr hn hs).
Qed.

Theorem C62_minres s n : lM l <> None -> self_adjoint (ip1 (lB l)) (lMlAMr l) ->
  of_run (minres_solve snorm l o Lanczos None) s -> size (s_res s) = n.+2 -> stopped o (s_res s) ->
  estimate (Some tm) SMinres n.+1%:R 0 w =
  Ok (\sum_(k <- kinds) tget tm (key k) * (calls l k (minres_prog snorm l o Lanczos None))%:R).
Proof.
move=> hM sa hr hn hs; rewrite estimate0 //; congr Ok; apply: eq_bigr => k _.
by rewrite (C49_minres_operations hl hex nb hexp k hM sa hr hn hs).
Qed.

Theorem C62_cg store s n : o_tol o \is Num.real ->
  self_adjoint (ip1 (lB l)) (lMlAMr l) -> pos_def (ip1 (lB l)) (lMlAMr l) ->
  of_run (cg_solve l o store None) s -> size (s_res s) = n.+2 ->
  estimate (Some tm) SCg n.+1%:R 0 w =
  Ok (\sum_(k <- kinds) tget tm (key k) * (calls l k (cg_prog l o store None))%:R).
Proof.
move=> tr sa pd hr hn; rewrite estimate0 //; congr Ok; apply: eq_bigr => k _.
by rewrite (C49_cg_operations hl hex nb hexp k tr sa pd hr hn).
Qed.

End Runs.

(** C62.  If the timers hold exactly one time for each call of such a run, then this is at
    most the total recorded time. *)
Theorem C62_lower tm (count : kind -> nat) : (forall k, size (recorded tm (key k)) = count k) ->
  \sum_(k <- kinds) tget tm (key k) * (count k)%:R <= \sum_(k <- kinds) \sum_(x <- recorded tm (key k)) x.
Proof.
move=> hs; apply: ler_sum => k _; rewrite -hs /recorded.
case E: (tm (key k)) => [t|]; first exact: tget_le E.
by rewrite mulr0 big_nil.
Qed.

(** C62.  Every deflation vector is charged one application of each operator; d of them are
    charged d (d + 1) / 2 inner products for their orthonormalisation, d^2 for the projected
    operator and 2 d for each of the n + 2 applications of the projection. *)
Theorem C62_deflation tm s (n : F) (d : nat) w : recorded tm kX = [::] ->
  exists t0 td, [/\ estimate (Some tm) s n 0 w = Ok t0, estimate (Some tm) s n d w = Ok td &
    td = t0 + w * ((tget tm kA + tget tm kM + tget tm kMl + tget tm kMr) *+ d
                   + tget tm kB * ('C(d.+1, 2)%:R + (d ^ 2)%:R + (2 * d)%:R * (n + 2%:R)))].
Proof.
move=> hX; do 2!eexists; split; first by []; first by [].
rewrite /proj_operations /ops_Ml !tget_opsE !big_cons !big_nil /= (tget0 hX).
have -> : 'C(d.+1, 2)%:R = d%:R * (d%:R + 1) / 2%:R :> F.
  by rewrite bin2 -triangle /= addn1 mulnC -divn2.
rewrite -[(tget tm kA + _ + _ + _) *+ d]mulr_natr natrX natrM; ring.
Qed.

Let tge0 tm k : nonneg tm -> 0 <= tget tm k.
Proof.
move=> h; apply: tget_ge0 => t E; by have := h k; rewrite /recorded E.
Qed.

Let sum_le tm (o o' : seq (K * F)) : nonneg tm ->
  [seq oc.1 | oc <- o] = [seq oc.1 | oc <- o'] -> all2 <=%R [seq oc.2 | oc <- o] [seq oc.2 | oc <- o'] ->
  tget_ops tm o <= tget_ops tm o'.
Proof.
move=> ht; rewrite !tget_opsE; elim: o o' => [|[k x] o IH] [|[k' x'] o'] //= [<- ho] /andP[hx hs].
by rewrite !big_cons ler_add ?IH //= ler_wpmul2l // tge0.
Qed.

Let sum_ge0 tm (o : seq (K * F)) : nonneg tm -> all (fun oc => 0 <= oc.2) o -> 0 <= tget_ops tm o.
Proof.
move=> ht /allP ho; rewrite tget_opsE big_seq sumr_ge0 // => oc h.
by rewrite mulr_ge0 ?tge0 // ho.
Qed.

Let half0 (x : F) : 0 <= x -> 0 <= x * (x + 1) / 2%:R.
Proof. by move=> x0; rewrite divr_ge0 ?ler0n // mulr_ge0 // addr_ge0 // ler01. Qed.
Let half_le (x y : F) : 0 <= x -> x <= y -> x * (x + 1) / 2%:R <= y * (y + 1) / 2%:R.
Proof.
move=> x0 xy; rewrite ler_pmul2r ?invr_gt0 ?ltr0n // ler_pmul //; first by rewrite addr_ge0 // ler01.
by rewrite ler_add2r.
Qed.

(** C62.  The estimate is not negative and grows with the number of steps, of deflation
    vectors, and the weight. *)
Theorem C62_monotone tm s (n n' : F) (d d' : nat) w w' : nonneg tm ->
  0 <= n <= n' -> (d <= d')%N -> 0 <= w <= w' ->
  exists t t', [/\ estimate (Some tm) s n d w = Ok t, estimate (Some tm) s n' d' w' = Ok t'
                 & 0 <= t <= t'].
Proof.
move=> ht /andP[n0 nn] dd /andP[w0 ww]; do 2!eexists; split; first by []; first by [].
have n0' : 0 <= n' := le_trans n0 nn.
have dr : d%:R <= d'%:R :> F by rewrite ler_nat.
have d0 : 0 <= d%:R :> F by apply: ler0n.
move: (d%:R : F) (d'%:R : F) dr d0 => e e' dr d0.
have a0 (a : nat) (x : F) : 0 <= x -> 0 <= a%:R + x by move=> ?; rewrite addr_ge0 ?ler0n.
have m0 (a : nat) (x : F) : 0 <= x -> 0 <= a%:R * x by move=> ?; rewrite mulr_ge0 ?ler0n.
have ml (a : nat) (x y : F) : x <= y -> a%:R * x <= a%:R * y by move=> ?; rewrite ler_wpmul2l ?ler0n.
have o0 (x : F) : 0 <= x -> 0 <= 1 + x := a0 1%N x.
have p0 : 0 <= tget_ops tm (proj_operations kA kM kMl kMr kB kX e (ops_Ml n)).
  apply: sum_ge0 => //=; rewrite d0 /= andbT /ops_Ml; apply/andP; split.
    by apply: addr_ge0; [apply: addr_ge0; [exact: half0|exact: sqr_ge0]|rewrite mulr_ge0 ?m0 ?a0].
  apply: addr_ge0; first by apply: addr_ge0; [exact: half0|exact: mulr_ge0].
  by rewrite mulr_ge0 ?a0 // addr_ge0 ?m0 ?ler0n.
have s0 : 0 <= tget_ops tm (operations kA kM kMl kMr kB kX s n).
  apply: sum_ge0 => //; case: s => /=; rewrite /ops_Ml ?o0 ?a0 ?m0 //=.
  by apply/andP; split; [|rewrite andbT]; apply: addr_ge0; rewrite ?half0 ?a0 ?m0.
apply/andP; split; first by rewrite addr_ge0 // mulr_ge0.
apply: ler_add; last apply: (@ler_pmul F) => //.
  apply: sum_le => //; first by case: s {s0}.
  case: s {s0} => /=; rewrite /ops_Ml !ler_add2l nn /= ?ml //=.
  by apply/andP; split; [|rewrite andbT]; apply: ler_add; rewrite ?half_le // ler_add2l ?ml.
apply: sum_le => //=; rewrite dr /= /ops_Ml andbT; apply/andP; split.
  apply: ler_add; first apply: ler_add; first exact: half_le.
    by rewrite ler_pexpn2r ?nnegrE // (le_trans d0).
  by apply: ler_pmul; rewrite ?m0 ?a0 ?ml // ler_add2l.
apply: ler_add; first apply: ler_add; first exact: half_le.
  exact: ler_pmul.
by apply: ler_pmul; rewrite ?a0 ?ler_add2l ?ler_add2r ?ml // addr_ge0 ?m0 ?ler0n.
Qed.
End C62.

(** The GMRES run of C49_gmres_run_calls (one step; two products with A, three with M and Ml,
    two with Mr, four inner products), after which the timers hold the times given. *)
Section Example.
Variable F : rcfType.
Variable C : numClosedFieldType.
Import Properties.Gmres Properties.Minres.
Let tm : timings F nat_eqType := fun k => nth None [::
  Some (Timer 0 [:: 5%:R; 7%:R]);
  Some (Timer 0 [:: 1; 1; 1]);
  Some (Timer 0 [:: 1; 2%:R; 1]);
  Some (Timer 0 [:: 1; 1]);
  Some (Timer 0 [:: 3%:R; 2%:R; 2%:R; 2%:R])] k.

Example C62_example :
  estimate_time 0%N 1%N 2%N 3%N 4%N 5%N (Some tm) SGmres 1 0 1 = Ok (26%:R : F) /\
  forall k, size (recorded tm (key 0 1 2 3 4 k)%N) =
    calls (ex_lsys C false) k (gmres_prog (@frob C) (ex_lsys C false) (Opts 2%:R^-1 1 false) Mgs None).
Proof.
have [//|//|s hr [sz hst]] := @C49_gmres_run C Mgs false false.
have e k := C49_gmres_operations (o := Opts 2%:R^-1 1 false) (ex_ok C false) erefl (@ex_nz C false) erefl k
  (fun e => ltac:(discriminate e)) hr sz hst.
split; last by case; rewrite e.
have := C62_gmres (F := F) (K := nat_eqType) 0%N 1%N 2%N 3%N 4%N (kX := 5%N) (o := Opts 2%:R^-1 1 false) (ex_ok C false) erefl (@ex_nz C false) erefl
  (tm := tm) 1 erefl (fun e => ltac:(discriminate e)) hr sz hst.
move=> ->; congr Ok; rewrite !big_cons !big_nil !e -[gmres_operations 1 KIp]/4%N /tget /=.
have m12 : Num.min 1 2%:R = 1 :> F by rewrite minEle -[1]/1%:R ler_nat.
have m11 : Num.min 1 1 = 1 :> F by rewrite minEle if_same.
have m57 : Num.min 5%:R 7%:R = 5%:R :> F by rewrite minEle ler_nat.
have m32 : Num.min 3%:R 2%:R = 2%:R :> F by rewrite minEle ler_nat.
have m22 : Num.min 2%:R 2%:R = 2%:R :> F by rewrite minEle if_same.
rewrite m12 !m11 m57 m32 !m22; ring.
Qed.
End Example.

Print Assumptions C62_untimed.
Print Assumptions C62_gmres.
Print Assumptions C62_minres.
Print Assumptions C62_cg.
Print Assumptions C62_lower.
Print Assumptions C62_deflation.
Print Assumptions C62_monotone.
