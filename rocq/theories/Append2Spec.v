(* What addCurveSegment2 minimises. *)
From mathcomp Require Import all_ssreflect all_algebra.
From Verif Require Import Prelude BSplineModel BSplineSpec.
Set Implicit Arguments.
Unset Strict Implicit.
Unset Printing Implicit Defensive.
Import GRing.Theory Num.Theory Order.Theory.
Local Open Scope ring_scope.

Section Spec.
Variable F : realFieldType.

(* the spline s with other control vertices *)
Definition coef_spline (s : bspline F) (C : mat F) : bspline F :=
  BSpline (bs_order s) (bs_knots s) (DMat (bs_dim s) (bs_ncoef s) C) (bs_basis s).

(* C has the control vertices of s, the last two excepted *)
Definition same_but_two (s : bspline F) (C : mat F) : Prop :=
  forall r j, (j.+2 < bs_ncoef s)%N -> C r j = bs_coef s r j.

(* the share of the last two control vertices in the curve s *)
Definition tail_of (s : bspline F) : bspline F :=
  coef_spline s (fun r j => if (j.+2 < bs_ncoef s)%N then 0 else bs_coef s r j).

(* squared distances of the curve s at the times x0 and x1 from p0 and p1, plus lambda^2 times
   the squared accelerations of the share of the last two control vertices at these times *)
Definition append_cost (eps lambda x0 x1 : F) (p0 p1 : vec F) (s : bspline F) (E : F) : Prop :=
  exists v0 v1 a0 a1,
  [/\ evalD eps s x0 0 = Ok v0, evalD eps s x1 0 = Ok v1,
      evalD eps (tail_of s) x0 2 = Ok a0, evalD eps (tail_of s) x1 2 = Ok a1
    & E = fsum (bs_dim s) (fun r => (v0 r - p0 r) ^+ 2 + (v1 r - p1 r) ^+ 2
            + lambda ^+ 2 * (a0 r ^+ 2 + a1 r ^+ 2))].
End Spec.
