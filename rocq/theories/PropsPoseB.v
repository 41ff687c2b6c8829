(* Properties C66, C67: construction of pose splines from poses, quantities in the body frame. *)
From mathcomp Require Import all_ssreflect all_algebra.
From mathcomp.algebra_tactics Require Import ring.
From mathcomp.zify Require Import zify.
From Verif Require Import Prelude CoxDeBoor BSplineModel BSplineSpec LinSolve PoseModel PoseSpec
  DerivProofs PoseProofs PoseCayley PoseTimeProofs PoseBodyProofs Examples PoseExamples.
Set Implicit Arguments.
Unset Strict Implicit.
Unset Printing Implicit Defensive.
Import GRing.Theory Num.Theory Order.Theory.
Local Open Scope ring_scope.

#[local] Opaque evalJ6 evalD6 evalD evalDAndJacobian pex eps0 orientation linearBodyFrame
  angularVelocityBodyFrame localCoefficientVectorIndices transformation initPoseSpline addPoseSegment
  linearAcceleration linearVelocity position linearAccelerationAndJacobian.

(* ------------------------------------------------------------------ C66 *)
(* initPoseSpline: one segment [t0, t1], the two poses at its ends, position on a straight line
   with constant velocity; every order, every pair of poses the parameterisation represents. *)
Theorem C66_init : forall (F : realFieldType) (eps : F) (R : rotation F), 0 < eps -> rot_ext R ->
  forall solve, exact_solver solve -> forall (s : bspline F) t0 t1 T0 T1,
  (2 <= bs_order s)%N -> (size (bs_knots s) <= 2 * bs_order s)%N -> t0 < t1 ->
  representable R T0 -> representable R T1 ->
  exists2 s', initPoseSpline R eps solve s t0 t1 T0 T1 = Ok s' &
  [/\ wf s', [/\ bs_order s' = bs_order s, bs_dim s' = 6%N
               & numValidTimeSegments (bs_order s') (size (bs_knots s')) = 1%N],
      tmin s' = t0 /\ tmax s' = t1,
      exists A B, [/\ transformation R eps s' t0 = Ok A, transformation R eps s' t1 = Ok B,
        eqm 4 4 A T0 & eqm 4 4 B T1]
    & forall x, t0 <= x <= t1 -> exists p v a,
        [/\ position eps s' x = Ok p, linearVelocity eps s' x = Ok v,
            linearAcceleration eps s' x = Ok a &
            forall r, (r < 3)%N ->
            [/\ p r = T0 r 3%N + (x - t0) / (t1 - t0) * (T1 r 3%N - T0 r 3%N),
                v r = (T1 r 3%N - T0 r 3%N) / (t1 - t0) & a r = 0]]].
Proof. exact init_poses. Qed.
Print Assumptions C66_init.

(* addPoseSegment: the new end has the given pose, the old end keeps its pose *)
Theorem C66_add : forall (F : realFieldType) (eps : F) (R : rotation F), 0 < eps -> rot_ext R ->
  forall solve, exact_solver solve -> forall (s : bspline F) t T junk,
  wf s -> bs_dim s = 6%N -> 0 < last_len s -> tmax s < t -> representable R T ->
  exists2 s', addPoseSegment R eps solve s t T junk = Ok s' &
  [/\ wf s', bs_dim s' = 6%N, size (bs_knots s') = (size (bs_knots s)).+1, tmax s' = t
    & exists A A' B, [/\ transformation R eps s (tmax s) = Ok A,
        transformation R eps s' (tmax s) = Ok A', transformation R eps s' t = Ok B,
        eqm 4 4 A' A & eqm 4 4 B T]].
Proof. exact add_pose. Qed.
Print Assumptions C66_add.

(* ------------------------------------------------------------------ C67 *)
(* velocity and acceleration in the body frame are those of the world turned by C^T *)
Theorem C67_body_world : forall (F : realFieldType) (eps : F) (s : bspline F), wf s ->
  bs_dim s = 6%N -> forall x, 0 < eps -> tmin s <= x -> x < tmax s + eps ->
  forall (R : rotation F), rot_orthonormal R -> exists C v vb a ab,
  [/\ orientation R eps s x = Ok C,
      linearVelocity eps s x = Ok v /\ linearVelocityBodyFrame R eps s x = Ok vb,
      linearAcceleration eps s x = Ok a /\ linearAccelerationBodyFrame R eps s x = Ok ab,
      eqv 3 (mulv 3 C vb) v & eqv 3 (mulv 3 C ab) a].
Proof. exact body_world. Qed.
Print Assumptions C67_body_world.

(* the body velocity changes by the body acceleration minus omega_b x v_b *)
Theorem C67_transport : forall (F : realFieldType) (eps : F) (s : bspline F), wf s -> 0 < eps ->
  eps <= last_len s -> forall i x, inside s i x -> bs_dim s = 6%N ->
  forall (R : rotation F), rot_deriv R -> rot_proper R -> exists w v a,
  [/\ angularVelocityBodyFrame R eps s x = Ok w, linearVelocityBodyFrame R eps s x = Ok v,
      linearAccelerationBodyFrame R eps s x = Ok a
    & has_rate 3 (linearVelocityBodyFrame R eps s) x (fun r => a r - cross w v r)].
Proof.
by move=> F eps s a b c i x d e R g h; have [C [w [v [acc [_ h1 h2 h3 h4]]]]] := body_transport a b c d e g h 1; exists w, v, acc.
Qed.
Print Assumptions C67_transport.

(* linearAccelerationAndJacobian: value and Jacobian of linearAcceleration *)
Theorem C67_acceleration_jacobian : forall (F : realFieldType) (eps : F) (s : bspline F), wf s ->
  bs_dim s = 6%N -> forall x, 0 < eps -> tmin s <= x -> x < tmax s + eps -> exists v v' J idx,
  [/\ linearAccelerationAndJacobian eps s x = Ok (v, J, idx), linearAcceleration eps s x = Ok v',
      eqv 3 v v', localCoefficientVectorIndices eps s x = Ok idx
    & jacobian_of 3 (fun s' => linearAcceleration eps s' x) s J idx].
Proof. exact linear_acc_jac. Qed.
Print Assumptions C67_acceleration_jacobian.

(* ------------------------------------------------------------------ examples *)
Lemma ex_representable (c : vec Q) : representable cayQ (curveValueToTransformation cayQ c).
Proof.
split=> [q hq r x r3 x3|x x4]; last exact: cvt_bot.
rewrite [RHS]cvt_rot //; apply: (rotM_ext (cay_ext Q)) => // j j3; rewrite hq //.
by apply: cay_round => [a b a3 b3|]; [exact: cvt_rot|exact: j3].
Qed.
Example C66_ex : exists s0 s1 s2,
  [/\ bs_new Q 4 = Ok s0,
      initPoseSpline cayQ eps0 (@pinv_solve Q) s0 0 1 (curveValueToTransformation cayQ (fun r => r%:R))
        (curveValueToTransformation cayQ (fun r => (r * r)%N%:R)) = Ok s1,
      addPoseSegment cayQ eps0 (@pinv_solve Q) s1 2%:R (curveValueToTransformation cayQ (fun r => 1 - r%:R)) zerov
        = Ok s2
    & exists B, transformation cayQ eps0 s2 2%:R = Ok B /\
        eqm 4 4 B (curveValueToTransformation cayQ (fun r => 1 - r%:R))].
Proof.
have [s0 h0 [o0 n0]] : exists2 s0, bs_new Q 4 = Ok s0 & bs_order s0 = 4%N /\ size (bs_knots s0) = 0%N.
  by eexists; first reflexivity.
have k2 : (2 <= bs_order s0)%N by rewrite o0.
have kn0 : (size (bs_knots s0) <= 2 * bs_order s0)%N by rewrite n0.
have l01 : (0 : Q) < 1 by vm_compute.
have l12 : (1 : Q) < 2%:R by vm_compute.
have [s1 h1 [w1 [k1 d1 n1] [ta tb] _ _]] := C66_init eps0_pos (cay_ext Q) (@pinv_exact Q) k2 kn0 l01
  (ex_representable (fun r => r%:R)) (ex_representable (fun r => (r * r)%N%:R)).
have ll : 0 < last_len s1.
  have sz := wf_size w1; move: n1 sz; rewrite /numValidTimeSegments k1 o0 => n1 sz.
  have e : (size (bs_knots s1) - bs_order s1).-1 = (bs_order s1).-1.
    by rewrite k1 o0; move: n1 sz; clear; lia.
  by rewrite /last_len e -[kn _ _]/(tmin s1) ta tb subr0.
have tl : tmax s1 < 2%:R by rewrite tb.
have [s2 h2 [_ _ _ _ [A [A' [B [_ _ hB _ eB]]]]]] := C66_add eps0_pos (cay_ext Q) (@pinv_exact Q) zerov
  w1 d1 ll tl (ex_representable (fun r => 1 - r%:R)).
exists s0, s1, s2; split; [exact: h0|exact: h1|exact: h2|].
by exists B; split; [exact: hB|exact: eB].
Qed.
Example C67_ex : exists w v a,
  [/\ angularVelocityBodyFrame cayQ eps0 pex 3%:R = Ok w, linearVelocityBodyFrame cayQ eps0 pex 3%:R = Ok v,
      linearAccelerationBodyFrame cayQ eps0 pex 3%:R = Ok a
    & has_rate 3 (linearVelocityBodyFrame cayQ eps0 pex) 3%:R (fun r => a r - cross w v r)].
Proof.
exact: (C67_transport pex_wf eps0_pos pex_last pex_inside (erefl : bs_dim pex = 6%N) (@cay_deriv Q) (@cay_proper Q)).
Qed.
Example C67_ex_world : exists C v vb, [/\ orientation cayQ eps0 pex 3%:R = Ok C,
  linearVelocity eps0 pex 3%:R = Ok v, linearVelocityBodyFrame cayQ eps0 pex 3%:R = Ok vb &
  eqv 3 (mulv 3 C vb) v].
Proof.
have [q1 q2] := andP pex_range.
have o : rot_orthonormal cayQ by move=> p; have [] := cay_proper p.
have [C [v [vb [a [ab [h1 [h2 h3] _ h4 _]]]]]] := C67_body_world pex_wf (erefl : bs_dim pex = 6%N) eps0_pos q1 q2 o.
by exists C, v, vb; split; [exact: h1|exact: h2|exact: h3|exact: h4].
Qed.
Example C67_ex_jacobian : exists v J idx, linearAccelerationAndJacobian eps0 pex 3%:R = Ok (v, J, idx) /\
  jacobian_of 3 (fun s' => linearAcceleration eps0 s' 3%:R) pex J idx.
Proof.
have [q1 q2] := andP pex_range.
have [v [v' [J [idx [h1 _ _ _ h2]]]]] := C67_acceleration_jacobian pex_wf (erefl : bs_dim pex = 6%N) eps0_pos q1 q2.
by exists v, J, idx; split; [exact: h1|exact: h2].
Qed.
