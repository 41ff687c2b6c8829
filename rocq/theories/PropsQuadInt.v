(* Property C69: quadratic integrals as error terms. *)
From mathcomp Require Import all_ssreflect all_algebra.
From Verif Require Import Prelude KnotModel IntegratorModel QuadIntModel QuadIntSpec
  QuadIntProofs Examples.
Set Implicit Arguments.
Unset Strict Implicit.
Unset Printing Implicit Defensive.
Import GRing.Theory Num.Theory Order.Theory.
Local Open Scope ring_scope.

(* ------------------------------------------------------------------ C69 *)
(* one error term per integration point, made by the factory from the time of the point and the
   weight of the composite rule; earlier terms stay *)
Theorem C69_terms : forall (F : realFieldType) (Term : Type) alg (problem : seq Term) (a b : F) n
  (factory : F -> F -> outcome Term) (fac : F -> F -> Term),
  (2 <= n)%N -> a != b -> (forall t w, factory t w = Ok (fac t w)) ->
  let M := panels alg n in let h := (b - a) / M%:R in
  addQuadraticIntegralErrorTerms (@dbl_div F) (@dbl_id F) alg problem a b n factory =
  Ok (problem ++ [seq fac (a + h * j%:R) (rule_weight alg h M j) | j <- iota 0 M.+1]).
Proof. exact main_terms. Qed.
Print Assumptions C69_terms.

(* any time type, any factory that keeps its contract (cost proportional to the factor): the
   added cost is the numeric integral of the cost *)
Theorem C69_total : forall (F : realFieldType) (T : ringType) (tdiv : T -> int -> T)
  (dbl : T -> F) (Term : Type) alg (problem : seq Term) (a b : T) n
  (factory : T -> F -> outcome Term) fac (cost : Term -> F) (c : T -> F),
  (2 <= n)%N -> (forall t w, factory t w = Ok (fac t w)) ->
  (forall t w, cost (fac t w) = w * c t) -> exists ts,
  addQuadraticIntegralErrorTerms tdiv dbl alg problem a b n factory = Ok (problem ++ ts) /\
  integrateFunctor tdiv dbl alg a b (c : T -> F^o) n 0 = Ok (\sum_(t <- ts) cost t : F^o).
Proof. exact total. Qed.
Print Assumptions C69_total.

(* expressions: terms and their square root weights *)
Theorem C69_expression : forall (F : realFieldType) (dsqrt : F -> F) d m alg
  (problem : seq (sqrt_term F d m)) (a b : F) n (E : F -> 'cV[F]_d) (S : 'M[F]_(m, d)),
  (2 <= n)%N -> a < b ->
  let M := panels alg n in let h := (b - a) / M%:R in
  (forall j, 0 < rule_weight alg h M j) /\
  addQuadraticIntegralExpressionErrorTerms (@dbl_div F) (@dbl_id F) dsqrt alg problem a b n E S =
  Ok (problem ++ [seq SqrtTerm (E (a + h * j%:R)) (dsqrt (rule_weight alg h M j) *: S)
                 | j <- iota 0 M.+1]).
Proof. exact main_expr. Qed.
Print Assumptions C69_expression.

(* if |S E(t)|^2 is a polynomial of degree at most 3 (trapezoids: 1), then the added cost is its
   exact integral; the square root is exact at the weights *)
Theorem C69_exact : forall (F : realFieldType) (dsqrt : F -> F) d m alg
  (problem : seq (sqrt_term F d m)) (a b : F) n (E : F -> 'cV[F]_d) (S : 'M[F]_(m, d))
  (p P : {poly F}), (2 <= n)%N -> a <= b ->
  (forall j, (j <= panels alg n)%N ->
     let w := rule_weight alg ((b - a) / (panels alg n)%:R) (panels alg n) j in
     dsqrt w ^+ 2 = w) ->
  (forall t, sq_cost S (E t) = p.[t]) -> P^`() = p ->
  (size p <= if alg is Simpson then 4 else 2)%N ->
  exists ts,
  addQuadraticIntegralExpressionErrorTerms (@dbl_div F) (@dbl_id F) dsqrt alg problem a b n E S =
  Ok (problem ++ ts) /\
  \sum_(t <- ts) sq_cost (st_sqrtInvR t) (st_error t) = P.[b] - P.[a].
Proof. exact main_expr_exact. Qed.
Print Assumptions C69_exact.

(* the overload without algorithm uses Simpson's weights h/3 (1 4 2 4 ... 2 4 1) *)
Theorem C69_default : forall (F : realFieldType) (dsqrt : F -> F) d m
  (problem : seq (sqrt_term F d m)) (a b : F) n (E : F -> 'cV[F]_d) (S : 'M[F]_(m, d)),
  (2 <= n)%N -> a < b ->
  let M := (if odd n then n.-1 else n) in let h := (b - a) / M%:R in
  addQuadraticIntegralExpressionErrorTerms_default (@dbl_div F) (@dbl_id F) dsqrt problem a b n
    E S =
  Ok (problem ++ [seq SqrtTerm (E (a + h * j%:R)) (dsqrt (rule_weight Simpson h M j) *: S)
                 | j <- iota 0 M.+1]).
Proof. exact main_default. Qed.
Print Assumptions C69_default.

(* equal bounds add nothing, for any number of points *)
Theorem C69_equal_bounds : forall (F : realFieldType) (T : ringType) (tdiv : T -> int -> T)
  (dbl : T -> F) (Term : Type) alg (problem : seq Term) (a : T) n factory,
  addQuadraticIntegralErrorTerms tdiv dbl alg problem a a n factory = Ok problem.
Proof. move=> F T tdiv dbl Term; exact: equal_bounds. Qed.
Print Assumptions C69_equal_bounds.

(* the assertion "too few integration points" fires only for trapezoids without points; one
   point (Simpson: at most one) is a division by zero instead *)
Theorem C69_too_few : forall (F : realFieldType) (T : ringType) (tdiv : T -> int -> T)
  (dbl : T -> F) (Term : Type) alg (problem : seq Term) (a b : T) n factory,
  a != b -> (n <= 1)%N ->
  addQuadraticIntegralErrorTerms tdiv dbl alg problem a b n factory =
  (if alg is Trapezoidal then if n == 0%N then Throw ExnRuntime else UB else UB).
Proof. move=> F T tdiv dbl Term; exact: add_too_few. Qed.
Print Assumptions C69_too_few.

(* bounds in the wrong order: square root of a negative weight *)
Theorem C69_reversed : forall (F : realFieldType) (dsqrt : F -> F) d m alg
  (problem : seq (sqrt_term F d m)) (a b : F) n (E : F -> 'cV[F]_d) (S : 'M[F]_(m, d)),
  (2 <= n)%N -> b < a ->
  addQuadraticIntegralExpressionErrorTerms (@dbl_div F) (@dbl_id F) dsqrt alg problem a b n E S
  = UB.
Proof. exact expr_reversed. Qed.
Print Assumptions C69_reversed.

(* E(t) = (t) on [0, 6] with three points and S = (1): weights 1, 4, 1 at 0, 3, 6; the integral
   of t^2 is 72 *)
Definition c69_sqrt (x : Q) : Q := if x == 4%:R then 2%:R else x.
Definition c69_terms :=
  addQuadraticIntegralExpressionErrorTerms (@dbl_div Q) (@dbl_id Q) c69_sqrt (d := 1) (m := 1)
    Simpson [::] 0 6%:R 3 (fun t => const_mx t) 1%:M.
Example C69_ex_weights :
  all (fun j => let w := rule_weight Simpson ((6%:R - 0) / 2%:R : Q) 2 j in
                c69_sqrt w ^+ 2 == w) (iota 0 3) && (panels Simpson 3 == 2)%N.
Proof. by vm_compute. Qed.
Lemma c69_poly (t : Q) : sq_cost (1%:M : 'M_1) (const_mx t : 'cV_1) = ('X^2 : {poly Q}).[t].
Proof. by rewrite /sq_cost big_ord1 mul1mx mxE hornerXn. Qed.
Example C69_ex_exact : exists ts, c69_terms = Ok ts /\
  \sum_(t <- ts) sq_cost (st_sqrtInvR t) (st_error t) = 72%:R.
Proof.
have hs j : (j <= panels Simpson 3)%N ->
    let w := rule_weight Simpson ((6%:R - 0) / (panels Simpson 3)%:R : Q) (panels Simpson 3) j in
    c69_sqrt w ^+ 2 = w.
  have /andP[/allP h _] := C69_ex_weights.
  by move=> hj; apply/eqP; apply: h; rewrite mem_iota.
have dP : ((3%:R^-1)%:P * 'X^3)^`() = 'X^2 :> {poly Q}.
  rewrite derivM derivC mul0r add0r derivXn mulrnAr -mulrnAl -polyCMn.
  by rewrite (_ : (3%:R^-1 *+ 3 : Q) = 1) ?mul1r //; apply/eqP; vm_compute.
have [||ts [e1 e2]] := @C69_exact _ c69_sqrt 1 1 Simpson [::] 0 6%:R 3 (fun t => const_mx t) 1%:M
  _ _ isT _ hs c69_poly dP; first exact: isT.
  by rewrite size_polyXn.
exists ts; split; first exact: e1.
rewrite e2 !hornerE; apply/eqP; by vm_compute.
Qed.
