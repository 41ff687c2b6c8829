(* Specification vocabulary for the BSpline class: well-formed states, the segment that
   belongs to a time. *)
From mathcomp Require Import all_ssreflect all_algebra.
From Verif Require Import Prelude CoxDeBoor BSplineModel.
Set Implicit Arguments.
Unset Strict Implicit.
Unset Printing Implicit Defensive.
Import GRing.Theory Num.Theory.
Local Open Scope ring_scope.

(* a^T A b for an n x m matrix A *)
Definition bil (F : fieldType) (n m : nat) (a : nat -> F) (A : nat -> nat -> F)
  (b : nat -> F) : F :=
  fsum n (fun x => fsum m (fun y => a x * A x y * b y)).

Section Spec.
Variable F : realFieldType.

(* A spline that was set up from a nondecreasing knot vector. *)
Record wf (s : bspline F) : Prop := WF {
  wf_order  : (2 <= bs_order s)%N;
  wf_size   : (2 * bs_order s <= size (bs_knots s))%N;
  wf_sorted : sorted <=%R (bs_knots s);
  wf_cols   : (bs_ncoef s + bs_order s = size (bs_knots s))%N;
  wf_basis  : bs_basis s = initializeBasisMatrices (bs_order s) (bs_knots s)
}.

(* end points of the valid interval *)
Definition tmin (s : bspline F) : F := kn s (bs_order s).-1.
Definition tmax (s : bspline F) : F := kn s (size (bs_knots s) - bs_order s).

(* length of the last valid knot interval *)
Definition last_len (s : bspline F) : F :=
  tmax s - kn s (size (bs_knots s) - bs_order s).-1.

(* Knot interval i is the one that belongs to time x; within eps of tmax the last valid
   interval is used. *)
Definition segment_of (eps : F) (s : bspline F) (x : F) (i : nat) : Prop :=
  if `|tmax s - x| < eps
  then tmin s <= x /\ i = (size (bs_knots s) - bs_order s).-1
  else [/\ (bs_order s <= i.+1)%N, (i + bs_order s < size (bs_knots s))%N
         & kn s i <= x < kn s i.+1].

(* Row r of the spline's curve on knot interval i, as a polynomial. *)
Definition spline_piece (s : bspline F) (r i : nat) : {poly F} :=
  curve_piece (kn s) (bs_order s).-1 (bs_ncoef s) (fun j => bs_coef s r j) i.

(* G is an antiderivative, on the valid interval, of the piecewise polynomial function
   that is f i on knot interval i: on every valid knot interval G coincides with a
   polynomial whose derivative is f i. *)
Definition antiderivative_of (s : bspline F) (f : nat -> {poly F}) (G : F -> F) : Prop :=
  forall i, (bs_order s <= i.+1)%N -> (i + bs_order s < size (bs_knots s))%N ->
    exists2 P : {poly F}, P^`() = f i &
      forall x, kn s i <= x -> x <= kn s i.+1 -> G x = P.[x].

(* ... of component r of the spline's curve *)
Definition curve_antiderivative (s : bspline F) (r : nat) (G : F -> F) : Prop :=
  antiderivative_of s (spline_piece s r) G.

(* No part of an integral up to x is dropped by the threshold thr of evalIntegral. *)
Definition above_threshold (thr : F) (s : bspline F) (x : F) : Prop :=
  forall i, (bs_order s <= i.+1)%N -> (i + bs_order s < size (bs_knots s))%N ->
    kn s i < x -> thr < x - kn s i.

(* Assumed behaviour of the linear solvers (Eigen's colPivHouseholderQr().solve and
   ldlt().solve, CHOLMOD): a solution is returned for every system that has one. *)
Definition exact_solver (solve : nat -> mat F -> vec F -> vec F) : Prop :=
  forall n A b, (exists x : vec F, forall i, (i < n)%N -> mulv n A x i = b i) ->
    forall i, (i < n)%N -> mulv n A (solve n A b) i = b i.

(* E is the cost of the spline s for the least-squares fit: squared distances to the data
   points plus lambda times the integral of the squared d-th derivative. *)
Definition fit_cost (eps : F) (s : bspline F) (times : dvec F) (pts : dmat F) (lambda : F)
  (d : nat) (E : F) : Prop :=
  exists (v : nat -> vec F) (G : F -> F),
  [/\ forall i, (i < dm_cols pts)%N -> eval eps s (times i) = Ok (v i),
      antiderivative_of s
        (fun i => fsum (bs_dim s) (fun r => (spline_piece s r i)^`(d) ^+ 2)) G
    & E = fsum (dm_cols pts) (fun i => fsum (bs_dim s) (fun r => (v i r - pts r i) ^+ 2))
        + lambda * (G (tmax s) - G (tmin s))].

(* The cost minimised by initSpline2: the integral is replaced by lambda^2 times the sum of
   the squared second derivatives at the knots of the valid interval. *)
Definition fit_cost2 (eps : F) (s : bspline F) (times : dvec F) (pts : dmat F) (lambda : F)
  (E : F) : Prop :=
  let k := bs_order s in let n := size (bs_knots s) in
  exists v a : nat -> vec F,
  [/\ forall i, (i < dm_cols pts)%N -> eval eps s (times i) = Ok (v i),
      forall i, (k <= i.+1 <= (n - k).+1)%N -> evalD eps s (kn s i) 2 = Ok (a i)
    & E = fsum (dm_cols pts) (fun i => fsum (bs_dim s) (fun r => (v i r - pts r i) ^+ 2))
        + lambda ^+ 2 * fsum (n - 2 * k + 2) (fun j =>
            fsum (bs_dim s) (fun r => a (k - 1 + j)%N r ^+ 2))].

(* no other coefficient vector on the same knots has a smaller cost *)
Definition is_best_fit (eps : F) (s : bspline F) (times : dvec F) (pts : dmat F) (lambda : F)
  (d : nat) : Prop :=
  exists2 E, fit_cost eps s times pts lambda d E &
    forall c s' E', setCoefficientVector s c = Ok s' ->
      fit_cost eps s' times pts lambda d E' -> E <= E'.

Definition nondecreasing (times : dvec F) : Prop :=
  forall i j, (i <= j)%N -> (j < dv_size times)%N -> times i <= times j.
End Spec.
