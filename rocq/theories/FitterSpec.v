(* Specification vocabulary for the spline fitter: the cost of a spline for the regularised
   least-squares problem, competitors, index resolvers. *)
From mathcomp Require Import all_ssreflect all_algebra.
From Verif Require Import Prelude CoxDeBoor DMModel DMSpec FitterModel.
Set Implicit Arguments.
Unset Strict Implicit.
Unset Printing Implicit Defensive.
Import GRing.Theory Num.Theory.
Local Open Scope ring_scope.

Section Spec.
Variables (F : realFieldType) (T : realDomainType).
Variables (dbl : T -> F) (one : T).
Notation points := (seq (T * vec F)).

(* G is an antiderivative (in seconds) of the function that equals the polynomial f i on each
   valid knot interval i *)
Definition dm_antiderivative_of (k : nat) (kps : points) (f : nat -> {poly F}) (G : F -> F)
  : Prop :=
  forall i, (k <= i.+1)%N -> (i + k < size kps)%N ->
    exists2 P : {poly F}, P^`() = f i &
      forall x, sec dbl one (kp_knot kps i) <= x -> x <= sec dbl one (kp_knot kps i.+1) ->
        G x = P.[x].

(* E is the cost of the spline with knots and points kps: the weighted squared residuals of
   the first D components plus lambda times the integral of the squared second derivative over
   the whole valid interval *)
Definition fitter_cost (k D : nat) (kps : points) (times : seq T) (pts : seq (vec F))
  (w : nat -> F) (lambda : F) (E : F) : Prop :=
  exists (sg : nat -> nat) (G : F -> F),
    [/\ forall i, (i < size pts)%N -> is_segment k kps (nth 0 times i) (sg i),
        dm_antiderivative_of k kps
          (fun i => \sum_(r < D) (dm_piece dbl one k kps r i)^`(2) ^+ 2) G
      & E = \sum_(i < size pts) \sum_(r < D)
              (w i * ((dm_piece dbl one k kps r (sg i)).[sec dbl one (nth 0 times i)]
                      - nth zerov pts i r)) ^+ 2
            + lambda * (G (sec dbl one (kp_knot kps (size kps - k)))
                        - G (sec dbl one (kp_knot kps (k - 1))))].

(* kps' has the knots of kps and may differ in the points a .. b-1 only *)
Definition competitor (D : nat) (kps kps' : points) (a b : nat) : Prop :=
  map fst kps' = map fst kps /\
  forall j r, (j < size kps)%N -> ~~ (a <= j < b)%N -> (r < D)%N ->
    (nth kp0 kps' j).2 r = (nth kp0 kps j).2 r.

(* kps' is a competitor of least cost *)
Definition best_fit (k D : nat) (kps kps' : points) (a b : nat) (times : seq T)
  (pts : seq (vec F)) (w : nat -> F) (lambda : F) : Prop :=
  competitor D kps kps' a b /\
  exists2 E, fitter_cost k D kps' times pts w lambda E &
    forall kps2 E2, competitor D kps kps2 a b ->
      fitter_cost k D kps2 times pts w lambda E2 -> E <= E2.

(* The knot index resolver numbers the knots consecutively: a time in [t0, tl] gets the
   number of the last knot that is not after it. *)
Definition numbers_knots (kps : points) (t0 tl : T) (rs : resolver T) : Prop :=
  exists z0 : int, forall t p, t0 <= t -> t <= tl -> (p < size kps)%N ->
    kp_knot kps p <= t -> ((p.+1 < size kps)%N -> t < kp_knot kps p.+1) ->
    rs t = Ok (z0 + p%:Z).

(* the weights of n data points; no function means weight 1 *)
Definition weights_are (n : nat) (wf : option (nat -> outcome F)) (w : nat -> F) : Prop :=
  forall i, (i < n)%N -> if wf is Some f then f i = Ok (w i) else w i = 1.

(* the times of a measurement batch: as many as points, at least one, all between the first
   and the last, and these inside the valid interval *)
Definition batch_ok (k : nat) (kps : points) (times : seq T) (pts : seq (vec F)) : Prop :=
  [/\ size times = size pts, (0 < size pts)%N,
      kp_knot kps (k - 1) <= head 0 times, last 0 times <= kp_knot kps (size kps - k)
    & forall t, t \in times -> head 0 times <= t <= last 0 times].

(* the knots and points after extendAndFitSpline has extended the spline: the knots gen t that
   the generator delivers for the last time t are appended if t is after the valid interval *)
Definition extended (D k : nat) (kps : points) (gen : T -> seq T) (times : seq T) : points :=
  if kp_knot kps (size kps - k) < last 0 times
  then append_points (euclidean F D) k kps (gen (last 0 times)) None else kps.
End Spec.
