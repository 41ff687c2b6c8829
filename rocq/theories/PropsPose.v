(* Properties C41, C44, C46-C50: pose splines (bsplines/src/BSplinePose.cpp) and the
   body-frame acceleration expression (aslam_splines/src/BSplineExpressions.cpp). *)
From mathcomp Require Import all_ssreflect all_algebra.
From mathcomp.algebra_tactics Require Import ring.
From Verif Require Import Prelude CoxDeBoor BSplineModel BSplineSpec PoseModel PoseSpec DerivProofs
  PoseProofs PoseCayley PoseTimeProofs Examples PoseExamples PoseMainProofs.
Set Implicit Arguments.
Unset Strict Implicit.
Unset Printing Implicit Defensive.
Import GRing.Theory Num.Theory Order.Theory.
Local Open Scope ring_scope.

#[local] Opaque evalJ6 evalD6 evalD evalDAndJacobian qex pex lex zex eps0
  angularAccelerationBodyFrame orientation angularVelocity angularVelocityAndJacobian
  linearBodyFrame angularVelocityBodyFrame localCoefficientVectorIndices transformation
  inverseTransformation inverseTransformationAndJacobian transformationAndJacobian
  transformVectorAndJacobian angularBodyFrameAndJacobian angularAndJacobian.

(* ------------------------------------------------------------------ C41 *)
(* The reported Jacobian is not the derivative: quarter turn about the first axis. *)
Theorem C41_refuted : exists (R : rotation Q) (s : bspline Q) (t : Q),
  [/\ [/\ rot_ext R, rot_proper R, rot_deriv R & rot_av R],
      wf s, bs_dim s = 6%N, tmin s <= t <= tmax s &
    exists J idx, [/\ accelerationBodyFrameNode_J eps0 s t = Ok J,
      localCoefficientVectorIndices eps0 s t = Ok idx &
      ~ jacobian_of 3 (fun s' => accelerationBodyFrameNode_value R eps0 s' t) s J idx]].
Proof. exact acc_node_refuted. Qed.
Print Assumptions C41_refuted.

(* It is the derivative along the position coefficients when the orientation is the
   identity (missing: other orientations and the rotation parameters' coefficients). *)
Theorem C41_identity_partial : forall (F : realFieldType) (eps : F) (s : bspline F) x
  (R : rotation F) v J idx,
  wf s -> bs_dim s = 6%N -> 0 < eps -> tmin s <= x -> x < tmax s + eps ->
  rot_ext R -> rot_deriv R -> evalJ6 eps s x 0 = Ok (v, J, idx) ->
  eqm 3 3 (rotM R (tail3 v)) eyem ->
  exists2 J2, accelerationBodyFrameNode_J eps s x = Ok J2 &
    forall dC, (forall r j, (3 <= r)%N -> dC r j = 0) ->
    exists2 vf : F -> vec F,
      (forall h, accelerationBodyFrameNode_value R eps (moved s dC h) x = Ok (vf h)) &
      forall r, (r < 3)%N -> deriv_at (fun h => vf h r) 0 (dir s J2 idx dC r).
Proof.
by move=> F eps s x R v J idx a b c d e g h; exact: acc_node_identity.
Qed.
Print Assumptions C41_identity_partial.
Example C41_identity_ex : exists J2, accelerationBodyFrameNode_J eps0 zex 3%:R = Ok J2.
Proof.
have [z1 z2] := andP zex_range.
have [v0 [J0 [v1 [J1 [idx [h0 h1 _]]]]]] :=
  body_frame_jac zex_wf (erefl : bs_dim zex = 6%N) eps0_pos z1 z2 (@cay_ext Q) 2 (@cay_deriv Q).
have E : eqm 3 3 (rotM (cayley Q) (tail3 v0)) eyem.
  have t : if evalJ6 eps0 zex 3%:R 0 is Ok (v0, _, _) then
     all (fun r => all (fun c => cayM (tail3 v0) r c == eyem r c) (iota 0 3)) (iota 0 3)
     else false by vm_compute.
  move: t; rewrite h0 => /allP t r c r3 c3.
  have /t /allP t' : r \in iota 0 3 by rewrite mem_iota.
  by have /t' /eqP : c \in iota 0 3 by rewrite mem_iota.
have [J2 h _] := C41_identity_partial zex_wf (erefl : bs_dim zex = 6%N) eps0_pos z1 z2
  (@cay_ext Q) (@cay_deriv Q) h0 E.
by exists J2; exact: h.
Qed.

(* What the Jacobian would have to be: C^T (J_a - a x (S J_theta)). *)
Theorem C41_correct_jacobian : forall (F : realFieldType) (eps : F) (s : bspline F) x
  (R : rotation F),
  wf s -> bs_dim s = 6%N -> 0 < eps -> tmin s <= x -> x < tmax s + eps ->
  rot_ext R -> rot_deriv R -> exists v0 J0 v1 J1 idx,
  [/\ evalJ6 eps s x 0 = Ok (v0, J0, idx), evalJ6 eps s x 2 = Ok (v1, J1, idx) &
      jacobian_of 3 (fun s' => accelerationBodyFrameNode_value R eps s' x) s
        (body_frame_J (rotM R (tail3 v0)) (rotS R (tail3 v0)) v1 J0 J1) idx].
Proof. by move=> F eps s x R a b c d e g h; exact: body_frame_jac. Qed.
Print Assumptions C41_correct_jacobian.
Example C41_correct_ex : exists J idx,
  jacobian_of 3 (fun s' => accelerationBodyFrameNode_value cayQ eps0 s' 3%:R) qex J idx.
Proof.
have [q1 q2] := andP qex_range.
have [v0 [J0 [v1 [J1 [idx [_ _ H]]]]]] := C41_correct_jacobian qex_wf
  (erefl : bs_dim qex = 6%N) eps0_pos q1 q2 (@cay_ext Q) (@cay_deriv Q).
by do 2 eexists; exact: H.
Qed.

(* ------------------------------------------------------------------ C44 *)
Theorem C44_inverse : forall (F : realFieldType) (R : rotation F) (eps : F) (s : bspline F) t T,
  rot_orthonormal R -> transformation R eps s t = Ok T ->
  exists2 Ti, inverseTransformation R eps s t = Ok Ti &
    eqm 4 4 (mulm 4 T Ti) eyem /\ eqm 4 4 (mulm 4 Ti T) eyem.
Proof. exact transformation_inverse. Qed.
Print Assumptions C44_inverse.

(* curve value -> matrix -> curve value *)
Theorem C44_value_roundtrip : forall (F : realFieldType) (R : rotation F) (c : vec F),
  (forall M, eqm 3 3 M (rotM R (tail3 c)) -> eqv 3 (rotP R M) (tail3 c)) ->
  eqv 6 (transformationToCurveValue R (curveValueToTransformation R c)) c.
Proof. exact cv_roundtrip. Qed.
Print Assumptions C44_value_roundtrip.

(* matrix -> curve value -> matrix *)
Theorem C44_matrix_roundtrip : forall (F : realFieldType) (R : rotation F) (T : mat F),
  (forall p, eqv 3 p (rotP R T) -> eqm 3 3 (rotM R p) T) ->
  (forall c, (c < 4)%N -> T 3%N c = (c == 3%N)%:R) ->
  eqm 4 4 (curveValueToTransformation R (transformationToCurveValue R T)) T.
Proof. exact tf_roundtrip. Qed.
Print Assumptions C44_matrix_roundtrip.

Example C44_inverse_ex : exists T Ti, [/\ transformation cayQ eps0 pex 3%:R = Ok T,
  inverseTransformation cayQ eps0 pex 3%:R = Ok Ti & eqm 4 4 (mulm 4 T Ti) eyem].
Proof.
have [q1 q2] := andP pex_range.
have [T [T' [J [idx [_ hT _ _ _]]]]] := transformation_jac pex_wf (erefl : bs_dim pex = 6%N)
  eps0_pos q1 q2 (@cay_ext Q) (@cay_deriv Q).
have o : rot_orthonormal (cayley Q) by move=> p; have [] := cay_proper p.
have [Ti hi [H _]] := C44_inverse o hT.
by exists T', Ti; split; [exact: hT|exact: hi|exact: H].
Qed.
Example C44_value_ex (c : vec Q) :
  eqv 6 (transformationToCurveValue cayQ (curveValueToTransformation cayQ c)) c.
Proof. by apply: C44_value_roundtrip => M; exact: cay_round. Qed.
Example C44_matrix_ex (p : vec Q) (T := curveValueToTransformation cayQ p) :
  eqm 4 4 (curveValueToTransformation cayQ (transformationToCurveValue cayQ T)) T.
Proof.
apply: C44_matrix_roundtrip => [q hq r c r3 c3|c c4]; last exact: cvt_bot.
rewrite [RHS]cvt_rot //; apply: (rotM_ext (cay_ext Q)) => // j j3; rewrite hq //.
apply: cay_round => [a b a3 b3|]; [exact: cvt_rot|exact: j3].
Qed.

(* ------------------------------------------------------------------ C46 *)
(* Jacobians of orientation, transformation and their inverses with respect to the spline
   coefficients. *)
Theorem C46_orientation : forall (F : realFieldType) (eps : F) (s : bspline F) x (R : rotation F),
  wf s -> bs_dim s = 6%N -> 0 < eps -> tmin s <= x -> x < tmax s + eps ->
  rot_ext R -> rot_deriv R -> exists C C' J idx,
  [/\ orientationAndJacobian R eps s x = Ok (C, J, idx), orientation R eps s x = Ok C',
      eqm 3 3 C C', localCoefficientVectorIndices eps s x = Ok idx
    & rot_jacobian_of (fun s' => orientation R eps s' x) s J idx].
Proof. by move=> F eps s x R a b c d e g; exact: orientation_jac. Qed.
Print Assumptions C46_orientation.

Theorem C46_inverse_orientation : forall (F : realFieldType) (eps : F) (s : bspline F) x
  (R : rotation F),
  wf s -> bs_dim s = 6%N -> 0 < eps -> tmin s <= x -> x < tmax s + eps ->
  rot_ext R -> rot_deriv R -> rot_proper R -> exists C C' J idx,
  [/\ inverseOrientationAndJacobian R eps s x = Ok (C, J, idx),
      inverseOrientation R eps s x = Ok C',
      eqm 3 3 C C', localCoefficientVectorIndices eps s x = Ok idx
    & rot_jacobian_of (fun s' => inverseOrientation R eps s' x) s J idx].
Proof. by move=> F eps s x R a b c d e g; exact: inverse_orientation_jac. Qed.
Print Assumptions C46_inverse_orientation.

Theorem C46_transformation : forall (F : realFieldType) (eps : F) (s : bspline F) x
  (R : rotation F),
  wf s -> bs_dim s = 6%N -> 0 < eps -> tmin s <= x -> x < tmax s + eps ->
  rot_ext R -> rot_deriv R -> exists T T' J idx,
  [/\ transformationAndJacobian R eps s x = Ok (T, J, idx),
      transformation R eps s x = Ok T',
      eqm 4 4 T T', localCoefficientVectorIndices eps s x = Ok idx
    & pose_jacobian_of (fun s' => transformation R eps s' x) s J idx].
Proof. by move=> F eps s x R a b c d e g; exact: transformation_jac. Qed.
Print Assumptions C46_transformation.

Theorem C46_inverse_transformation : forall (F : realFieldType) (eps : F) (s : bspline F) x
  (R : rotation F),
  wf s -> bs_dim s = 6%N -> 0 < eps -> tmin s <= x -> x < tmax s + eps ->
  rot_ext R -> rot_deriv R -> rot_proper R -> exists T T' J idx,
  [/\ inverseTransformationAndJacobian R eps s x = Ok (T, J, idx),
      inverseTransformation R eps s x = Ok T',
      eqm 4 4 T T', localCoefficientVectorIndices eps s x = Ok idx
    & pose_jacobian_of (fun s' => inverseTransformation R eps s' x) s J idx].
Proof. by move=> F eps s x R a b c d e g; exact: inverse_transformation_jac. Qed.
Print Assumptions C46_inverse_transformation.

Theorem C46_transform_vector : forall (F : realFieldType) (eps : F) (s : bspline F) x
  (R : rotation F) (vt : vec F),
  wf s -> bs_dim s = 6%N -> 0 < eps -> tmin s <= x -> x < tmax s + eps ->
  rot_ext R -> rot_deriv R -> exists v T' J idx,
  [/\ transformVectorAndJacobian R eps s x vt = Ok (v, J, idx),
      transformation R eps s x = Ok T',
      eqv 4 v (mulv 4 T' vt), localCoefficientVectorIndices eps s x = Ok idx
    & jacobian_of 4 (fun s' => do T <- transformation R eps s' x ; Ok (mulv 4 T vt)) s J idx].
Proof. by move=> F eps s x R vt a b c d e g; exact: transformVector_jac. Qed.
Print Assumptions C46_transform_vector.

Example C46_ex : exists T T' J idx,
  [/\ inverseTransformationAndJacobian cayQ eps0 pex 3%:R = Ok (T, J, idx),
      inverseTransformation cayQ eps0 pex 3%:R = Ok T',
      eqm 4 4 T T', localCoefficientVectorIndices eps0 pex 3%:R = Ok idx
    & pose_jacobian_of (fun s' => inverseTransformation cayQ eps0 s' 3%:R) pex J idx].
Proof.
have [q1 q2] := andP pex_range.
exact: (C46_inverse_transformation pex_wf (erefl : bs_dim pex = 6%N) eps0_pos q1 q2
  (@cay_ext Q) (@cay_deriv Q) (@cay_proper Q)).
Qed.

(* ------------------------------------------------------------------ C47 *)
(* Body-frame angular velocity (d = 1) and angular acceleration (d = 2): value of the
   AndJacobian variant, and its Jacobian. *)
Theorem C47_angular_body : forall (F : realFieldType) (eps : F) (s : bspline F) x
  (R : rotation F) d,
  wf s -> bs_dim s = 6%N -> 0 < eps -> tmin s <= x -> x < tmax s + eps ->
  rot_ext R -> rot_deriv R -> rot_proper R -> rot_av R -> exists v v' J idx,
  [/\ angularBodyFrameAndJacobian R eps s x d = Ok (v, J, idx),
      angularBodyFrame R eps s x d = Ok v',
      eqv 3 v v', localCoefficientVectorIndices eps s x = Ok idx
    & jacobian_of 3 (fun s' => angularBodyFrame R eps s' x d) s J idx].
Proof. by move=> F eps s x R dd a b c d e g; exact: angular_body_jac. Qed.
Print Assumptions C47_angular_body.
Example C47_ex : exists v J idx,
  angularVelocityBodyFrameAndJacobian cayQ eps0 pex 3%:R = Ok (v, J, idx) /\
  jacobian_of 3 (fun s' => angularVelocityBodyFrame cayQ eps0 s' 3%:R) pex J idx.
Proof.
have [q1 q2] := andP pex_range.
have [v [v' [J [idx [h1 _ _ _ h2]]]]] := C47_angular_body 1 pex_wf
  (erefl : bs_dim pex = 6%N) eps0_pos q1 q2
  (@cay_ext Q) (@cay_deriv Q) (@cay_proper Q) (@cay_av Q).
by exists v, J, idx; split; [exact: h1|exact: h2].
Qed.

(* ------------------------------------------------------------------ C48 *)
(* angularVelocityAndJacobian and angularVelocity return different vectors. *)
Theorem C48_refuted : exists (R : rotation Q) (s : bspline Q) (t : Q),
  [/\ [/\ rot_ext R, rot_proper R, rot_deriv R & rot_av R],
      wf s, bs_dim s = 6%N, tmin s <= t <= tmax s &
    exists w v J idx, [/\ angularVelocity R eps0 s t = Ok w,
      angularVelocityAndJacobian R eps0 s t = Ok (v, J, idx) & v 0%N <> w 0%N]].
Proof. exact angular_sign_refuted. Qed.
Print Assumptions C48_refuted.

(* The value is S theta^(d) (the opposite of the angular velocity for d = 1) and the Jacobian
   is the derivative of that value. *)
Theorem C48_opposite_partial : forall (F : realFieldType) (eps : F) (s : bspline F) x
  (R : rotation F) d,
  wf s -> bs_dim s = 6%N -> 0 < eps -> tmin s <= x -> x < tmax s + eps ->
  rot_ext R -> rot_av R -> exists v v' J idx,
  [/\ angularAndJacobian R eps s x d = Ok (v, J, idx), S_theta R eps d s x = Ok v',
      eqv 3 v v', localCoefficientVectorIndices eps s x = Ok idx
    & jacobian_of 3 (fun s' => S_theta R eps d s' x) s J idx].
Proof. by move=> F eps s x R dd a b c d e g; exact: angular_jac. Qed.
Print Assumptions C48_opposite_partial.
Example C48_ex : exists v J idx, angularVelocityAndJacobian cayQ eps0 pex 3%:R = Ok (v, J, idx) /\
  jacobian_of 3 (fun s' => S_theta cayQ eps0 1 s' 3%:R) pex J idx.
Proof.
have [q1 q2] := andP pex_range.
have [v [v' [J [idx [h1 _ _ _ h2]]]]] := C48_opposite_partial 1 pex_wf
  (erefl : bs_dim pex = 6%N) eps0_pos q1 q2 (@cay_ext Q) (@cay_av Q).
by exists v, J, idx; split; [exact: h1|exact: h2].
Qed.

(* ------------------------------------------------------------------ C49 *)
(* Inside every knot interval: velocity and acceleration are the time derivatives of position
   and velocity, and the orientation turns with the reported angular velocity. *)
Theorem C49_kinematics : forall (F : realFieldType) (eps : F) (s : bspline F) i x
  (R : rotation F),
  wf s -> 0 < eps -> eps <= last_len s -> inside s i x -> bs_dim s = 6%N -> rot_deriv R ->
  exists v a C w, [/\ linearVelocity eps s x = Ok v, linearAcceleration eps s x = Ok a,
    orientation R eps s x = Ok C, angularVelocity R eps s x = Ok w &
    [/\ has_rate 3 (position eps s) x v, has_rate 3 (linearVelocity eps s) x a
      & has_mrate 3 3 (orientation R eps s) x (fun r c => cross w (fun y => C y c) r)]].
Proof. exact kinematics. Qed.
Print Assumptions C49_kinematics.

(* dC/dt = C [omega_b]x for the body-frame angular velocity *)
Theorem C49_body_rate : forall (F : realFieldType) (eps : F) (s : bspline F) i x
  (R : rotation F),
  wf s -> 0 < eps -> eps <= last_len s -> inside s i x -> bs_dim s = 6%N ->
  rot_deriv R -> rot_proper R ->
  exists C w, [/\ orientation R eps s x = Ok C, angularVelocityBodyFrame R eps s x = Ok w
  & has_mrate 3 3 (orientation R eps s) x (mulm 3 C (crossMx w))].
Proof. by move=> F eps s i x R a b c d e g; exact: (orientation_body_rate a b c d e g). Qed.
Print Assumptions C49_body_rate.
Example C49_ex : exists C w, orientation cayQ eps0 pex 3%:R = Ok C /\
  has_mrate 3 3 (orientation cayQ eps0 pex) 3%:R (mulm 3 C (crossMx w)).
Proof.
have [C [w [h _ H]]] := C49_body_rate pex_wf eps0_pos pex_last pex_inside
  (erefl : bs_dim pex = 6%N) (@cay_deriv Q) (@cay_proper Q).
by exists C, w; split; [exact: h|exact: H].
Qed.

(* ------------------------------------------------------------------ C50 *)
(* angularAccelerationBodyFrame is not the derivative of angularVelocityBodyFrame. *)
Theorem C50_refuted : exists (R : rotation Q) (s : bspline Q) (i : nat) (t : Q),
  [/\ [/\ rot_ext R, rot_proper R, rot_deriv R & rot_av R],
      wf s /\ bs_dim s = 6%N, eps0 <= last_len s, inside s i t &
    exists a, angularAccelerationBodyFrame R eps0 s t = Ok a /\
      ~ has_rate 3 (angularVelocityBodyFrame R eps0 s) t a].
Proof. exact angular_acc_refuted. Qed.
Print Assumptions C50_refuted.

(* What is missing is exactly - C^T (d(S theta')/d theta) theta'. *)
Theorem C50_missing_term_partial : forall (F : realFieldType) (eps : F) (s : bspline F) i x
  (R : rotation F),
  wf s -> 0 < eps -> eps <= last_len s -> inside s i x -> bs_dim s = 6%N ->
  rot_deriv R -> rot_ext R -> rot_proper R -> rot_av R -> exists C v0 v1 a,
  [/\ orientation R eps s x = Ok C, evalD6 eps s x 0 = Ok v0, evalD6 eps s x 1 = Ok v1,
      angularAccelerationBodyFrame R eps s x = Ok a
  & has_rate 3 (angularVelocityBodyFrame R eps s) x (fun r => a r -
      mulv 3 (trm C) (mulv 3 (rotAV R (tail3 v0) (tail3 v1)).2 (tail3 v1)) r)].
Proof. by move=> F eps s i x R a b c d e g h; exact: (angular_body_rate a b c d e g h). Qed.
Print Assumptions C50_missing_term_partial.
Example C50_ex : exists a, angularAccelerationBodyFrame cayQ eps0 lex lt0 = Ok a.
Proof.
have [C [v0 [v1 [a [_ _ _ ha _]]]]] := C50_missing_term_partial lex_wf eps0_pos lex_last
  lex_inside (erefl : bs_dim lex = 6%N) (@cay_deriv Q) (@cay_ext Q) (@cay_proper Q) (@cay_av Q).
by exists a; exact: ha.
Qed.
