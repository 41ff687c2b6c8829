(* Model of bsplines/include/bsplines/NumericIntegrator.hpp (line numbers refer to it) and of
   its use in implementation/DiffManifoldBSplineImpl.hpp.  double is an arbitrary real field F;
   the values of the integrand live in a vector space V over it.  The template parameter
   TArgScalar (double, or the integer time type of a spline) is a ring T with a division by an
   int and a conversion to double; overflow of integers is not modelled.  Point counts are
   nonnegative.  No proofs in this file. *)
From mathcomp Require Import all_ssreflect all_algebra.
From Verif Require Import Prelude KnotModel.
Set Implicit Arguments.
Unset Strict Implicit.
Unset Printing Implicit Defensive.
Import GRing.Theory Num.Theory.
Local Open Scope ring_scope.

Section Integrator.
Variables (F : realFieldType) (V : lmodType F).
Variables (T : ringType).
(* operator/ of TArgScalar with an int, implicit conversion of TArgScalar to double *)
Variables (tdiv : T -> int -> T) (dbl : T -> F).

(* 51-80: the two rules *)
Inductive rule := Simpson | Trapezoidal.

(* data members of AbstractIntegrator (33-34) and FixStepSizeIntegrator (61-62) *)
Record integrator := Integrator {
  in_a : T; in_b : T; in_maxIndex : int; in_stepSize : T; in_point : nat
}.
(* 29, 55: constructors of the base classes; division by zero gives inf or nan or traps (UB) *)
Definition fixStep_new (a b : T) (nIntegrationPoints : nat) : outcome integrator :=
  let maxIndex := nIntegrationPoints%:Z - 1 in
  need maxIndex != 0 ;
  Ok (Integrator a b maxIndex (tdiv (b - a) maxIndex) 0).
(* 68 SimpsonRuleIntegrator, 77 TrapezoidalRuleIntegrator: constructors *)
Definition getIntegrator (alg : rule) (a b : T) (n : nat) : outcome integrator :=
  match alg with
  | Simpson => fixStep_new a b (n + 1 - n %% 2)%N
  | Trapezoidal => fixStep_new a b n
  end.
(* 31 *)
Definition getNIntegrationPoints (s : integrator) : int := in_maxIndex s + 1.
(* 56 *)
Definition isAtEnd (s : integrator) : bool := in_maxIndex s < (in_point s)%:Z.
(* 57 *)
Definition next (s : integrator) : integrator :=
  Integrator (in_a s) (in_b s) (in_maxIndex s) (in_stepSize s) (in_point s).+1.
(* 58 *)
Definition getIntegrationScalar (s : integrator) : T :=
  if (in_point s)%:Z == in_maxIndex s then in_b s
  else in_a s + in_stepSize s * (in_point s)%:R.
(* 59 *)
Definition atBounds (s : integrator) : bool :=
  (in_point s == 0%N) || ((in_point s)%:Z == in_maxIndex s).
(* 69 and 78 *)
Definition getValueFactor (alg : rule) (s : integrator) : F :=
  match alg with
  | Simpson => if atBounds s then 1 / 2%:R else if (in_point s %% 2 == 1)%N then 2%:R else 1
  | Trapezoidal => if atBounds s then 1 / 2%:R else 1
  end.
(* 70 and 79 *)
Definition getCommonFactor (alg : rule) (s : integrator) : F :=
  match alg with
  | Simpson => dbl (in_stepSize s) * 2%:R / 3%:R
  | Trapezoidal => dbl (in_stepSize s)
  end.

(* 150-156, the loop, at most fuel iterations *)
Fixpoint integrate_loop (fuel : nat) (alg : rule) (f : T -> V) (s : integrator) (sum : V)
  : V * integrator :=
  if fuel is fuel'.+1 then
    if isAtEnd s then (sum, s)
    else
      let valueFactor := getValueFactor alg s in
      let sum' := if valueFactor == 1 then sum + f (getIntegrationScalar s)
                  else sum + valueFactor *: f (getIntegrationScalar s) in
      integrate_loop fuel' alg f (next s) sum'
  else (sum, s).
(* 140-157 integrateFunctor (the debug assertion is compiled out).  The loop runs at most
   maxIndex+1 times. *)
Definition integrateFunctor (alg : rule) (a b : T) (f : T -> V) (numberOfPoints : nat)
  (zero : V) : outcome V :=
  if a == b then Ok zero
  else
    do s <- getIntegrator alg a b numberOfPoints ;
    let sum := getValueFactor alg s *: f (getIntegrationScalar s) in
    let: (sum', s') := integrate_loop (`|in_maxIndex s| + 2)%N alg f (next s) sum in
    Ok (getCommonFactor alg s' *: sum').

(* the arguments with which f is called, in order *)
Fixpoint points_loop (fuel : nat) (s : integrator) : seq T :=
  if fuel is fuel'.+1 then
    if isAtEnd s then [::] else getIntegrationScalar s :: points_loop fuel' (next s)
  else [::].
Definition samplePoints (alg : rule) (a b : T) (n : nat) : outcome (seq T) :=
  do s <- getIntegrator alg a b n ;
  Ok (getIntegrationScalar s :: points_loop (`|in_maxIndex s| + 2)%N (next s)).

(* implementation/DiffManifoldBSplineImpl.hpp:723-729 evalFunctorIntegralNumerically: the time
   type of the spline is the integration scalar; lt is operator> of the time type, reversed.
   The recursive call is taken with the arguments in order, so it is unfolded here. *)
Definition evalFunctorIntegralNumerically (lt : T -> T -> bool) (t1 t2 : T) (f : T -> V)
  (numberOfPoints : nat) (zero : V) : outcome V :=
  if lt t2 t1 then
    do v <- integrateFunctor Simpson t2 t1 f numberOfPoints zero ; Ok (- v)
  else integrateFunctor Simpson t1 t2 f numberOfPoints zero.
End Integrator.

(* IntegrationScalar = double *)
Definition dbl_div (F : realFieldType) (x : F) (n : int) : F := x / n%:~R.
Definition dbl_id (F : realFieldType) (x : F) : F := x.
(* IntegrationScalar = an integer type (NsecTimePolicy.hpp: time_t is long long): C++ integer
   division truncates towards zero (quotz), conversion to double is exact *)
Definition int_dbl (F : realFieldType) (x : int) : F := x%:~R.
