(* Proofs about error terms for quadratic integrals. *)
From mathcomp Require Import all_ssreflect all_algebra.
From mathcomp.algebra_tactics Require Import ring.
From mathcomp.zify Require Import zify.
From Verif Require Import Prelude KnotModel KnotProofs IntegratorModel IntegratorProofs
  QuadIntModel QuadIntSpec.
Set Implicit Arguments.
Unset Strict Implicit.
Unset Printing Implicit Defensive.
Import GRing.Theory Num.Theory Order.Theory.
Local Open Scope ring_scope.

Lemma sum_iota (F : realFieldType) (f : nat -> F) N :
  \sum_(j <- iota 0 N) f j = \sum_(j < N) f j.
Proof. by rewrite -[in LHS](subn0 N) -/(index_iota 0 N) big_mkord. Qed.

Section Loop.
Variables (F : realFieldType) (T : ringType).
Variables (tdiv : T -> int -> T) (dbl : T -> F).
Variable Term : Type.
Implicit Types (alg : rule) (a b : T) (M i : nat).

Lemma qi_loopE alg k a b M (factory : T -> F -> outcome Term) fac fuel i problem :
  (i <= M.+1)%N -> (M.+1 - i < fuel)%N ->
  (forall j, (j <= M)%N -> factory (gsample tdiv a b M j) (k * weight F alg M j) =
     Ok (fac (gsample tdiv a b M j) (k * weight F alg M j))) ->
  qi_loop fuel alg k factory (at_point tdiv a b M i) problem =
  Ok (problem ++ [seq fac (gsample tdiv a b M j) (k * weight F alg M j)
                 | j <- iota i (M.+1 - i)]).
Proof.
move=> iM fu hf; elim: fuel i problem iM fu => [|fuel IH] i problem iM fu //=.
rewrite /isAtEnd /= ltz_nat; case: ifP => h.
  have -> : (M.+1 - i = 0)%N by move: h; clear; lia.
  by rewrite cats0.
have iM' : (i <= M)%N by move: h; rewrite ltnNge => /negbFE.
rewrite factorE scalarE hf //= -[next _]/(at_point tdiv a b M i.+1) IH; last 2 first.
- by [].
- by move: iM' fu; clear; lia.
by rewrite subSS [in RHS]subSn //= cat_rcons.
Qed.

Lemma not_at_end a b M : isAtEnd (at_point tdiv a b M 0) = false.
Proof. by []. Qed.

Lemma qi_loop_UB alg k (factory : T -> F -> outcome Term) fuel s problem :
  isAtEnd s = false -> factory (getIntegrationScalar s) (k * getValueFactor F alg s) = UB ->
  qi_loop fuel.+1 alg k factory s problem = UB.
Proof. by move=> h1 h2; rewrite /= h1 h2. Qed.

Lemma addE alg problem a b n (factory : T -> F -> outcome Term) fac : (2 <= n)%N -> a != b ->
  let M := intervals alg n in
  let k := getCommonFactor dbl alg (at_point tdiv a b M 0) in
  (forall j, (j <= M)%N -> factory (gsample tdiv a b M j) (k * weight F alg M j) =
     Ok (fac (gsample tdiv a b M j) (k * weight F alg M j))) ->
  addQuadraticIntegralErrorTerms tdiv dbl alg problem a b n factory =
  Ok (problem ++ [seq fac (gsample tdiv a b M j) (k * weight F alg M j) | j <- iota 0 M.+1]).
Proof.
move=> n2 ab M k hf; have [e M0] := getIntegratorE tdiv alg a b n2.
rewrite /addQuadraticIntegralErrorTerms (negbTE ab) e /obind /sm_assert not_at_end.
by rewrite (qi_loopE (fac := fac)) ?subn0 //=; clear; lia.
Qed.

(* any factory that keeps to its contract *)
Lemma total alg problem a b n (factory : T -> F -> outcome Term) fac (cost : Term -> F)
  (c : T -> F) : (2 <= n)%N -> (forall t w, factory t w = Ok (fac t w)) ->
  (forall t w, cost (fac t w) = w * c t) -> exists ts,
  addQuadraticIntegralErrorTerms tdiv dbl alg problem a b n factory = Ok (problem ++ ts) /\
  integrateFunctor tdiv dbl alg a b (c : T -> F^o) n 0 = Ok (\sum_(t <- ts) cost t : F^o).
Proof.
move=> n2 hf hc; have [ab|ab] := altP (a =P b).
  exists [::]; rewrite /addQuadraticIntegralErrorTerms /integrateFunctor ab eqxx cats0 big_nil.
  by split.
eexists; split; first by apply: (@addE alg problem a b n factory fac n2 _) => // j _; exact: hf.
rewrite integrate_gE // big_map sum_iota.
congr Ok; rewrite scaler_sumr; apply: eq_bigr => j _.
by rewrite hc scalerA.
Qed.

(* one term for each sample point of the integrator, in order *)
Lemma times alg problem a b n (factory : T -> F -> outcome Term) fac (time : Term -> T) :
  (2 <= n)%N -> a != b -> (forall t w, factory t w = Ok (fac t w)) ->
  (forall t w, time (fac t w) = t) -> exists ts,
  addQuadraticIntegralErrorTerms tdiv dbl alg problem a b n factory = Ok (problem ++ ts) /\
  samplePoints tdiv alg a b n = Ok (map time ts).
Proof.
move=> n2 ab hf ht.
eexists; split; first by apply: (@addE alg problem a b n factory fac n2 _) => // j _; exact: hf.
rewrite samplePoints_gE //; congr Ok; rewrite -map_comp; apply: eq_map => j /=.
by rewrite ht.
Qed.

Lemma equal_bounds alg problem a n (factory : T -> F -> outcome Term) :
  addQuadraticIntegralErrorTerms tdiv dbl alg problem a a n factory = Ok problem.
Proof. by rewrite /addQuadraticIntegralErrorTerms eqxx. Qed.

Lemma add_too_few alg problem a b n (factory : T -> F -> outcome Term) : a != b -> (n <= 1)%N ->
  addQuadraticIntegralErrorTerms tdiv dbl alg problem a b n factory =
  (if alg is Trapezoidal then if n == 0%N then Throw ExnRuntime else UB else UB).
Proof.
by rewrite /addQuadraticIntegralErrorTerms => /negbTE->; case: alg; case: n => [|[|]].
Qed.
End Loop.

Section Expr.
Variable F : realFieldType.
Variable dsqrt : F -> F.
Variables (d m : nat).
Implicit Types (alg : rule) (a b : F) (S : 'M[F]_(m, d)).
Local Notation term := (sqrt_term F d m).
Definition term_cost (t : term) : F := sq_cost (st_sqrtInvR t) (st_error t).

Lemma sq_costZ k S e : sq_cost (k *: S) e = k ^+ 2 * sq_cost S e.
Proof.
rewrite /sq_cost mulr_sumr; apply: eq_bigr => i _.
by rewrite -scalemxAl mxE exprMn.
Qed.

Lemma weight_gt0 alg M j : 0 < weight F alg M j.
Proof.
rewrite /weight; case: ifP => _; first by rewrite divr_gt0 ?ltr01 ?ltr0n.
by case: alg; [case: (odd j)|]; rewrite ?ltr01 ?ltr0n.
Qed.

Lemma common_gt0 alg a b M : (0 < M)%N -> a < b ->
  0 < getCommonFactor (@dbl_id F) alg (at_point (@dbl_div F) a b M 0).
Proof.
move=> M0 ab; have h : 0 < (b - a) / M%:Z%:~R.
  by rewrite divr_gt0 ?subr_gt0 // ltr0n.
case: alg; rewrite /= /dbl_id /dbl_div ?h //.
by apply: divr_gt0; [apply: mulr_gt0|]; rewrite ?h ?ltr0n.
Qed.
Lemma common_lt0 alg a b M : (0 < M)%N -> b < a ->
  getCommonFactor (@dbl_id F) alg (at_point (@dbl_div F) a b M 0) < 0.
Proof.
move=> M0 ab; have h : (b - a) / M%:Z%:~R < 0.
  by rewrite pmulr_llt0 ?subr_lt0 // invr_gt0 ltr0n.
case: alg; rewrite /= /dbl_id /dbl_div ?h //.
by rewrite -mulrA pmulr_llt0 // divr_gt0 ?ltr0n.
Qed.

Local Notation add := (addQuadraticIntegralExpressionErrorTerms (@dbl_div F) (@dbl_id F) dsqrt).

Lemma expr_total alg problem a b n (E : F -> 'cV[F]_d) S : (2 <= n)%N -> a <= b ->
  (forall j, (j <= intervals alg n)%N ->
     let w := getCommonFactor (@dbl_id F) alg (at_point (@dbl_div F) a b (intervals alg n) 0)
       * weight F alg (intervals alg n) j in dsqrt w ^+ 2 = w) -> exists ts,
  add alg problem a b n E S = Ok (problem ++ ts) /\
  integrateFunctor (@dbl_div F) (@dbl_id F) alg a b (fun t => sq_cost S (E t) : F^o) n 0 =
  Ok (\sum_(t <- ts) term_cost t : F^o).
Proof.
move=> n2 ab hs; have [e|nab] := altP (a =P b).
  exists [::]; rewrite e /add equal_bounds /integrateFunctor eqxx cats0 big_nil.
  by split.
have lt : a < b by rewrite lt_neqAle nab.
have [_ M0] := getIntegratorE (@dbl_div F) alg a b n2.
have kw j : 0 <= getCommonFactor (@dbl_id F) alg (at_point (@dbl_div F) a b (intervals alg n) 0)
    * weight F alg (intervals alg n) j.
  by rewrite ltW // mulr_gt0 ?weight_gt0 ?common_gt0.
eexists; split.
  apply: (@addE _ _ _ _ _ alg problem a b n _ (fun t f => SqrtTerm (E t) (dsqrt f *: S)) n2 nab) => j _.
  by rewrite /ub_unless kw.
rewrite integrate_gE // big_map sum_iota.
congr Ok; rewrite scaler_sumr; apply: eq_bigr => j _.
by rewrite /term_cost /= sq_costZ hs ?scalerA // -ltnS.
Qed.

(* exact integral when the weighted squared error is a polynomial of low degree *)
Lemma expr_exact alg problem a b n (E : F -> 'cV[F]_d) S (p P : {poly F}) :
  (2 <= n)%N -> a <= b ->
  (forall j, (j <= intervals alg n)%N ->
     let w := getCommonFactor (@dbl_id F) alg (at_point (@dbl_div F) a b (intervals alg n) 0)
       * weight F alg (intervals alg n) j in dsqrt w ^+ 2 = w) ->
  (forall t, sq_cost S (E t) = p.[t]) -> P^`() = p -> (size p <= (exact_degree alg).+1)%N ->
  exists ts, add alg problem a b n E S = Ok (problem ++ ts) /\
  \sum_(t <- ts) term_cost t = P.[b] - P.[a].
Proof.
move=> n2 ab hs hp dP sp; have [ts [e1 e2]] := expr_total problem E S n2 ab hs.
exists ts; split=> //.
have := poly_exact a b n2 dP sp.
have -> : integrateFunctor (@dbl_div F) (@dbl_id F) alg a b (fun x => p.[x] : F^o) n 0 =
  integrateFunctor (@dbl_div F) (@dbl_id F) alg a b (fun t => sq_cost S (E t) : F^o) n 0.
  by apply: integrate_ext => // x _; rewrite hp.
by rewrite e2 => -[].
Qed.

(* bounds in the wrong order: square roots of negative numbers *)
Lemma expr_reversed alg problem a b n (E : F -> 'cV[F]_d) S : (2 <= n)%N -> b < a ->
  add alg problem a b n E S = UB.
Proof.
move=> n2 ba; have nab : a != b by rewrite gt_eqF.
have [e M0] := getIntegratorE (@dbl_div F) alg a b n2.
rewrite /addQuadraticIntegralExpressionErrorTerms /addQuadraticIntegralErrorTerms (negbTE nab) e.
rewrite /obind /sm_assert not_at_end addn2; apply: qi_loop_UB; first exact: not_at_end.
rewrite /ub_unless factorE.
set k := getCommonFactor _ _ _; have k0 : k < 0 by exact: common_lt0.
by rewrite leNgt nmulr_rlt0 ?weight_gt0.
Qed.

(* the same with the textbook weights *)
Lemma panelsE alg n : (2 <= n)%N -> panels alg n = intervals alg n.
Proof. by case: alg => //= n2; rewrite modn2; case: odd; rewrite ?subn1 ?subn0. Qed.
Lemma rule_weightE alg a b M j : rule_weight alg ((b - a) / M%:R) M j =
  getCommonFactor (@dbl_id F) alg (at_point (@dbl_div F) a b M 0) * weight F alg M j.
Proof.
have e : M%:Z%:~R = M%:R :> F by [].
rewrite /weight; case: alg; rewrite /= /dbl_id /dbl_div e; set h := (b - a) / M%:R.
  by case: ifP => _; [field|case: ifP => _; field].
by case: ifP => _; field.
Qed.

Lemma main_terms (Term : Type) alg problem a b n (factory : F -> F -> outcome Term) fac :
  (2 <= n)%N -> a != b -> (forall t w, factory t w = Ok (fac t w)) ->
  let M := panels alg n in let h := (b - a) / M%:R in
  addQuadraticIntegralErrorTerms (@dbl_div F) (@dbl_id F) alg problem a b n factory =
  Ok (problem ++ [seq fac (a + h * j%:R) (rule_weight alg h M j) | j <- iota 0 M.+1]).
Proof.
move=> n2 ab hf M h; rewrite /h /M panelsE //.
have [_ M0] := getIntegratorE (@dbl_div F) alg a b n2.
rewrite (@addE _ _ _ _ _ alg problem a b n factory fac n2 ab (fun j _ => hf _ _)).
by congr (Ok (_ ++ _)); apply: eq_map => j; rewrite gsampleE // rule_weightE.
Qed.

Lemma main_expr_exact alg problem a b n (E : F -> 'cV[F]_d) S (p P : {poly F}) :
  (2 <= n)%N -> a <= b ->
  (forall j, (j <= panels alg n)%N ->
     let w := rule_weight alg ((b - a) / (panels alg n)%:R) (panels alg n) j in
     dsqrt w ^+ 2 = w) ->
  (forall t, sq_cost S (E t) = p.[t]) -> P^`() = p ->
  (size p <= if alg is Simpson then 4 else 2)%N ->
  exists ts, add alg problem a b n E S = Ok (problem ++ ts) /\
  \sum_(t <- ts) sq_cost (st_sqrtInvR t) (st_error t) = P.[b] - P.[a].
Proof.
move=> n2 ab; rewrite panelsE // => hs hp dP sp.
apply: (@expr_exact alg problem a b n E S p P) => //; last by case: alg sp {hs}.
by move=> j jM /=; have := hs j jM; rewrite /= rule_weightE.
Qed.

Lemma main_expr alg problem a b n (E : F -> 'cV[F]_d) S : (2 <= n)%N -> a < b ->
  let M := panels alg n in let h := (b - a) / M%:R in
  (forall j, 0 < rule_weight alg h M j) /\
  add alg problem a b n E S =
  Ok (problem ++ [seq SqrtTerm (E (a + h * j%:R)) (dsqrt (rule_weight alg h M j) *: S)
                 | j <- iota 0 M.+1]).
Proof.
move=> n2 lt M h; rewrite /h /M panelsE //.
have [_ M0] := getIntegratorE (@dbl_div F) alg a b n2.
have w0 j : 0 < rule_weight alg ((b - a) / (intervals alg n)%:R) (intervals alg n) j.
  by rewrite rule_weightE mulr_gt0 ?weight_gt0 ?common_gt0.
split=> //; have nab : a != b by rewrite lt_eqF.
rewrite /addQuadraticIntegralExpressionErrorTerms.
rewrite (@addE _ _ _ _ _ alg problem a b n _ (fun t f => SqrtTerm (E t) (dsqrt f *: S)) n2 nab).
  by congr (Ok (_ ++ _)); apply: eq_map => j; rewrite gsampleE // rule_weightE.
by move=> j _; rewrite -rule_weightE /ub_unless ltW.
Qed.
Lemma main_default problem a b n (E : F -> 'cV[F]_d) S : (2 <= n)%N -> a < b ->
  let M := (if odd n then n.-1 else n) in let h := (b - a) / M%:R in
  addQuadraticIntegralExpressionErrorTerms_default (@dbl_div F) (@dbl_id F) dsqrt problem a b n
    E S =
  Ok (problem ++ [seq SqrtTerm (E (a + h * j%:R)) (dsqrt (rule_weight Simpson h M j) *: S)
                 | j <- iota 0 M.+1]).
Proof. by move=> n2 lt; have [_] := main_expr Simpson problem E S n2 lt. Qed.
End Expr.
