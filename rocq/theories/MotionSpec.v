(* Specification vocabulary for the motion error term. *)
From mathcomp Require Import all_ssreflect all_algebra.
From Verif Require Import Prelude BSplineModel.
Set Implicit Arguments.
Unset Strict Implicit.
Unset Printing Implicit Defensive.
Import GRing.Theory Num.Theory.
Local Open Scope ring_scope.

Section Spec.
Variable F : realFieldType.

(* the symmetric matrix a solver sees that reads the upper triangle only *)
Definition upper_sym (H : nat -> nat -> F) : nat -> nat -> F :=
  fun x y => if (x <= y)%N then H x y else H y x.

(* the active ones among n variables of D numbers have consecutive places in the unknown
   vector, in the order of the variables *)
Definition ascending (D n : nat) (active : nat -> bool) (pos : nat -> nat) : Prop :=
  forall i j, (i < j)%N -> (j < n)%N -> active i -> active j -> (pos i + D <= pos j)%N.

(* sum over the coordinates of the active variables *)
Definition active_sum (D n : nat) (active : nat -> bool) (f : nat -> nat -> F) : F :=
  fsum n (fun i => if active i then fsum D (fun r => f i r) else 0).

(* the coefficients after the active variables moved by their part of dx *)
Definition stepped (s : bspline F) (active : nat -> bool) (pos : nat -> nat) (dx : nat -> F)
  : bspline F :=
  with_coef s (fun r i => bs_coef s r i + if active i then dx (pos i + r)%N else 0).

(* dx solves the normal equations (H, rhs) of the active variables *)
Definition solves (D n : nat) (active : nat -> bool) (pos : nat -> nat)
  (H : nat -> nat -> F) (rhs dx : nat -> F) : Prop :=
  forall i r, (i < n)%N -> active i -> (r < D)%N ->
    active_sum D n active (fun j c => upper_sym H (pos i + r)%N (pos j + c)%N * dx (pos j + c)%N)
    = rhs (pos i + r)%N.
End Spec.
