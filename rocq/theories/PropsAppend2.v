(* Property C71: appending a segment with a penalty on the acceleration. *)
From mathcomp Require Import all_ssreflect all_algebra.
From Verif Require Import Prelude CoxDeBoor BSplineModel BSplineSpec LinSolve PoseModel PoseSpec
  PoseBodyProofs BSplineAppendProofs Append2Spec Append2Proofs Append2Examples Examples.
Set Implicit Arguments.
Unset Strict Implicit.
Unset Printing Implicit Defensive.
Import GRing.Theory Num.Theory Order.Theory.
Local Open Scope ring_scope.

(* The end times of the curve, the kept control vertices, and the last two control vertices:
   they are the only minimiser of append_cost.  For lambda = 0 and for order 2 both end values
   are met exactly.  ext_kn: the old knots up to the old end, then equal steps t - tmax s. *)
Theorem C71_optimum : forall (F : realFieldType) (eps : F), 0 < eps -> forall (s : bspline F),
  wf s -> 0 < last_len s -> forall t, tmax s < t ->
  forall solve, exact_solver solve -> forall (p1 : dvec F) (lambda : F) junk,
  dv_size p1 = bs_dim s ->
  exists s' p0, [/\ addCurveSegment2 eps solve s t p1 lambda junk = Ok s',
      eval eps s (tmax s) = Ok p0,
      [/\ wf s', bs_order s' = bs_order s, size (bs_knots s') = (size (bs_knots s)).+1
        & bs_dim s' = bs_dim s],
      (forall j, (j < (size (bs_knots s)).+1)%N -> kn s' j = ext_kn s t j) /\
      (forall r j, (j.+1 < bs_ncoef s)%N -> bs_coef s' r j = bs_coef s r j)
    & exists2 E, append_cost eps lambda (tmax s) t p0 p1 s' E &
      [/\ forall C, same_but_two s' C -> exists2 E',
            append_cost eps lambda (tmax s) t p0 p1 (coef_spline s' C) E' &
            E <= E' /\ (E' <= E -> forall r j, (r < bs_dim s)%N -> (j < bs_ncoef s')%N ->
               C r j = bs_coef s' r j)
        & lambda = 0 \/ bs_order s = 2%N -> exists v0 v1,
            [/\ eval eps s' (tmax s) = Ok v0, eval eps s' t = Ok v1
              & forall r, (r < bs_dim s)%N -> v0 r = p0 r /\ v1 r = p1 r]]].
Proof. exact add2E. Qed.
Print Assumptions C71_optimum.

(* segments before the replaced knots and control vertices keep value and derivatives *)
Theorem C71_prefix : forall (F : realFieldType) (eps : F), 0 < eps -> forall (s : bspline F),
  wf s -> 0 < last_len s -> forall t, tmax s < t ->
  forall solve, exact_solver solve -> forall (p1 : dvec F) (lambda : F) junk s' x i d,
  addCurveSegment2 eps solve s t p1 lambda junk = Ok s' ->
  dv_size p1 = bs_dim s -> eps <= last_len s ->
  (bs_order s <= i.+1)%N -> (i.+1 + bs_order s < size (bs_knots s))%N ->
  (i + 2 * bs_order s <= (size (bs_knots s)).+1)%N -> kn s i <= x -> x < kn s i.+1 ->
  exists v v', [/\ evalD eps s x d = Ok v, evalD eps s' x d = Ok v' & forall r, v' r = v r].
Proof. exact add2_prefix. Qed.
Print Assumptions C71_prefix.

(* a time that is not behind the end and a point of the wrong dimension are refused *)
Theorem C71_refused : forall (F : realFieldType) (eps : F) solve (s : bspline F) t (p1 : dvec F)
  lambda junk, wf s -> t <= tmax s \/ dv_size p1 <> bs_dim s ->
  addCurveSegment2 eps solve s t p1 lambda junk = Throw ExnSpline.
Proof. exact add2_throws. Qed.
Print Assumptions C71_refused.

(* addPoseSegment2: the same for the curve value of the given pose *)
Theorem C71_pose : forall (F : realFieldType) (eps : F) (R : rotation F), 0 < eps ->
  forall solve, exact_solver solve -> forall (s : bspline F) t T lambda junk,
  wf s -> bs_dim s = 6%N -> 0 < last_len s -> tmax s < t ->
  exists s' p0, [/\ addPoseSegment2 R eps solve s t T lambda junk = Ok s',
      eval eps s (tmax s) = Ok p0,
      [/\ wf s', bs_dim s' = 6%N, size (bs_knots s') = (size (bs_knots s)).+1 & tmax s' = t]
    & exists2 E, append_cost eps lambda (tmax s) t p0 (transformationToCurveValue R T) s' E &
      forall C, same_but_two s' C -> exists2 E',
        append_cost eps lambda (tmax s) t p0 (transformationToCurveValue R T) (coef_spline s' C) E' &
        E <= E' /\ (E' <= E -> forall r j, (r < 6)%N -> (j < bs_ncoef s')%N ->
           C r j = bs_coef s' r j)].
Proof. exact add2_pose. Qed.
Print Assumptions C71_pose.

(* without penalty the new end has the given pose and the old end keeps its pose *)
Theorem C71_pose_ends : forall (F : realFieldType) (eps : F) (R : rotation F), 0 < eps ->
  forall solve, exact_solver solve -> forall (s : bspline F) t T lambda junk, rot_ext R ->
  wf s -> bs_dim s = 6%N -> 0 < last_len s -> tmax s < t -> representable R T ->
  lambda = 0 \/ bs_order s = 2%N ->
  exists s' A A' B, [/\ addPoseSegment2 R eps solve s t T lambda junk = Ok s',
    transformation R eps s (tmax s) = Ok A /\
        transformation R eps s' (tmax s) = Ok A', transformation R eps s' t = Ok B,
        eqm 4 4 A' A & eqm 4 4 B T].
Proof. exact add2_pose_exact. Qed.
Print Assumptions C71_pose_ends.

(* The documentation (BSpline.hpp:503-511) promises that the curve still passes through its old
   end and through the new point.  With a penalty it does not, not even when the constant
   curve 1 is continued to the point 1: the penalty is put on the share of the last two control
   vertices in the acceleration, not on the acceleration (which is zero for the constant). *)
Theorem C71_interpolates_refuted : forall solve : nat -> mat Q -> vec Q -> vec Q,
  exact_solver solve -> exists (s s' : bspline Q) (t : Q) (p1 : dvec Q) lambda junk v0 v1,
  [/\ wf s /\ 0 < last_len s, tmax s < t /\ dv_size p1 = bs_dim s,
      (forall r j, bs_coef s r j = 1) /\ (forall r, p1 r = 1),
      addCurveSegment2 eps0 solve s t p1 lambda junk = Ok s'
    & [/\ eval eps0 s' (tmax s) = Ok v0, eval eps0 s' t = Ok v1
        & ~ (v0 0%N = 1 /\ v1 0%N = 1)]].
Proof. exact interpolates_refuted. Qed.
Print Assumptions C71_interpolates_refuted.

(* ------------------------------------------------------------------ examples *)
(* the hypotheses hold for a curve of order 3 and lambda = 1; the minimum is not met by the
   constant curve *)
Example C71_ex : exists s' p0 E E',
  [/\ addCurveSegment2 eps0 (@pinv_solve Q) cc 4%:R cc_p1 1 zerov = Ok s',
      eval eps0 cc (tmax cc) = Ok p0,
      append_cost eps0 1 (tmax cc) 4%:R p0 cc_p1 s' E,
      append_cost eps0 1 (tmax cc) 4%:R p0 cc_p1 (coef_spline s' (fun _ _ => 1)) E'
    & E <= E'].
Proof.
have [s' [p0 [hs h0 [_ o1 n1 _] [_ hc] [E hE [H _]]]]] :=
  C71_optimum eps0_pos cc_wf cc_last cc_tm (@pinv_exact Q) 1 zerov (erefl : dv_size cc_p1 = bs_dim cc).
have same : same_but_two s' (fun _ _ => 1) by exact: cc_same hs.
have [E' hE' [le _]] := H _ same.
by exists s', p0, E, E'; split; [exact: hs|exact: h0|exact: hE|exact: hE'|exact: le].
Qed.
Example C71_ex_prefix : exists s' v v',
  [/\ addCurveSegment2 eps0 (@pinv_solve Q) (cu 0) 5%:R cc_p1 1 zerov = Ok s',
      evalD eps0 (cu 0) (5%:R / 2%:R) 1 = Ok v, evalD eps0 s' (5%:R / 2%:R) 1 = Ok v'
    & forall r, v' r = v r].
Proof.
have [s' [_ [hs _ _ _ _]]] := C71_optimum eps0_pos (cu_wf 0) cu_last cu_tm (@pinv_exact Q) 1 zerov
  (erefl : dv_size cc_p1 = bs_dim (cu 0)).
have [v [v' [h h' e]]] := C71_prefix (i := 2) eps0_pos (cu_wf 0) cu_last cu_tm (@pinv_exact Q) 1%N hs
  (erefl : dv_size cc_p1 = bs_dim (cu 0)) cu_eps isT isT isT cu_x1 cu_x2.
by exists s', v, v'; split; [exact: hs|exact: h|exact: h'|exact: e].
Qed.
