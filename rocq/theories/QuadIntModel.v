(* Model of aslam_splines/include/aslam/backend/QuadraticIntegralError.hpp (line numbers refer to
   it): an integral of a weighted squared error is added to an optimisation problem as one
   error term per integration point.  The problem is the sequence of its error terms, in the
   order of the calls of addErrorTerm; who deletes the terms (problemOwnsErrorTerms, 34-43) is
   not modelled.  Point counts are nonnegative.  The overload without Algorithm at 80-83, which
   calls itself by name with the same arguments, is not modelled.  No proofs in this file. *)
From mathcomp Require Import all_ssreflect all_algebra.
From Verif Require Import Prelude KnotModel IntegratorModel.
Set Implicit Arguments.
Unset Strict Implicit.
Unset Printing Implicit Defensive.
Import GRing.Theory Num.Theory.
Local Open Scope ring_scope.

Section QuadInt.
Variables (F : realFieldType) (T : ringType).
(* as in IntegratorModel.v *)
Variables (tdiv : T -> int -> T) (dbl : T -> F).

Section Terms.
Variable Term : Type.

(* 74-77: the loop, at most fuel iterations; the factory is user code and may fail *)
Fixpoint qi_loop (fuel : nat) (alg : rule) (commonFactor : F)
  (factory : T -> F -> outcome Term) (s : integrator T) (problem : seq Term)
  : outcome (seq Term) :=
  if fuel is fuel'.+1 then
    if isAtEnd s then Ok problem
    else
      let valueFactor := getValueFactor F alg s in
      do et <- factory (getIntegrationScalar s) (commonFactor * valueFactor) ;
      qi_loop fuel' alg commonFactor factory (next s) (rcons problem et)
  else Ok problem.

(* 65-78 addQuadraticIntegralErrorTerms.  The assertion of line 71 is not a debug one. *)
Definition addQuadraticIntegralErrorTerms (alg : rule) (problem : seq Term) (a b : T)
  (numberOfPoints : nat) (factory : T -> F -> outcome Term) : outcome (seq Term) :=
  if a == b then Ok problem
  else
    do s <- getIntegrator tdiv alg a b numberOfPoints ;
    assert ~~ isAtEnd s raise ExnRuntime ;
    qi_loop (`|in_maxIndex s| + 2)%N alg (getCommonFactor dbl alg s) factory s problem.
End Terms.

(* an error term made by toErrorTermSqrt (aslam_backend, not in this repository): the value of
   the expression and the square root of its inverse covariance *)
Record sqrt_term d m := SqrtTerm { st_error : 'cV[F]_d; st_sqrtInvR : 'M[F]_(m, d) }.

(* sqrt of double *)
Variable dsqrt : F -> F.

(* 100-109 addQuadraticIntegralExpressionErrorTerms; the square root of a negative number is
   nan, here UB *)
Definition addQuadraticIntegralExpressionErrorTerms d m (alg : rule)
  (problem : seq (sqrt_term d m)) (a b : T) (numberOfPoints : nat) (expr : T -> 'cV[F]_d)
  (sqrtInvR : 'M[F]_(m, d)) : outcome (seq (sqrt_term d m)) :=
  addQuadraticIntegralErrorTerms alg problem a b numberOfPoints
    (fun t f => need 0 <= f ; Ok (SqrtTerm (expr t) (dsqrt f *: sqrtInvR))).
(* 112-115: the overload with the default algorithm (NumericIntegrator.hpp:89) *)
Definition addQuadraticIntegralExpressionErrorTerms_default d m
  (problem : seq (sqrt_term d m)) (a b : T) (numberOfPoints : nat) (expr : T -> 'cV[F]_d)
  (sqrtInvR : 'M[F]_(m, d)) : outcome (seq (sqrt_term d m)) :=
  addQuadraticIntegralExpressionErrorTerms Simpson problem a b numberOfPoints expr sqrtInvR.
End QuadInt.
