(* What the angular expressions have to say: knots and control vertices as stored, the linear
   map given by a list of Jacobian blocks, and a chain rule matrix applied to a vector. *)
From mathcomp Require Import all_ssreflect all_algebra.
From Verif Require Import Prelude DMModel DMSpec QuatModel OptModel.
Set Implicit Arguments.
Unset Strict Implicit.
Unset Printing Implicit Defensive.
Import GRing.Theory.
Local Open Scope ring_scope.

Section Spec.
Variables (F : realFieldType) (T : realDomainType).
(* knots and control vertices of a spline *)
Definition contents (s : dspline F T) : seq (T * vec F) := [seq (sg_knot x, sg_pt x) | x <- ds_segs s].
(* all control vertices are unit quaternions *)
Definition unit_vertices (s : dspline F T) : Prop :=
  forall j, (j < size (contents s))%N -> qnorm2 (quat_of (nth (@kp0 F T) (contents s) j).2) = 1.
(* the rows that count: those of the chain rule matrix, or three *)
Definition rows (chain : option (nat * mat F)) : nat := if chain is Some (m, _) then m else 3.
Definition applied (chain : option (nat * mat F)) (v : v3 F) : vec F := fun r =>
  if chain is Some (_, C)
  then C r 0%N * vx v + C r 1%N * vy v + C r 2%N * vz v
  else vec_of3 v r.
(* the sum of all blocks, each applied to the perturbation of its variable *)
Definition blocks_apply (js : seq (ptr T * mat F)) (delta : nat -> v3 F) : vec F := fun r =>
  \sum_(c < size js) \sum_(q < 3) (nth ((0%N, 0), zerom) js c).2 r q * vec_of3 (delta c) q.
End Spec.
