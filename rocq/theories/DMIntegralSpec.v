(* Meaning of the integral of a Euclidean spline. *)
From mathcomp Require Import all_ssreflect all_algebra.
From Verif Require Import Prelude CoxDeBoor DMModel DMSpec.
Set Implicit Arguments.
Unset Strict Implicit.
Unset Printing Implicit Defensive.
Import GRing.Theory Num.Theory Order.Theory.
Local Open Scope ring_scope.

Section Spec.
Variables (F : realFieldType) (T : realDomainType).
Variables (dbl : T -> F) (one : T).

(* G is an antiderivative, on the valid interval, of component r of the curve as a function of
   the time in seconds: on every valid knot interval it is a polynomial whose derivative is the
   piece of the curve. *)
Definition dm_antiderivative (k : nat) (kps : seq (T * vec F)) (r : nat) (G : F -> F) : Prop :=
  forall i, (k <= i.+1)%N -> (i + k < size kps)%N ->
    exists2 P : {poly F}, P^`() = dm_piece dbl one k kps r i &
      forall x, sec dbl one (kp_knot kps i) <= x -> x <= sec dbl one (kp_knot kps i.+1) ->
        G x = P.[x].

(* No part of an integral from or to t is dropped by the threshold thr: the segment of t is
   longer than thr, and t lies at its start or more than the fraction thr behind it. *)
Definition dm_above (thr : F) (k : nat) (kps : seq (T * vec F)) (t : T) : Prop :=
  forall i, is_segment k kps t i -> kp_knot kps i < t ->
    thr < sec dbl one (kp_knot kps i.+1) - sec dbl one (kp_knot kps i) /\
    thr < (sec dbl one t - sec dbl one (kp_knot kps i)) /
          (sec dbl one (kp_knot kps i.+1) - sec dbl one (kp_knot kps i)).
End Spec.
