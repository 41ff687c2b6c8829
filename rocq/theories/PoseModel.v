(* Model of bsplines/src/BSplinePose.cpp (class bsplines::BSplinePose) and of the values and
   Jacobians of the expression nodes in aslam_splines/src/BSplineExpressions.cpp that only
   forward to it.  Line numbers refer to BSplinePose.cpp unless another file is named.
   A pose curve value has six rows: position (rows 0-2), rotation parameters (rows 3-5);
   the fixed-size accesses head<3>() and tail<3>() are undefined behaviour on other sizes
   (need ... == 6).  No proofs in this file. *)
From mathcomp Require Import all_ssreflect all_algebra.
From Verif Require Import Prelude BSplineModel.
Set Implicit Arguments.
Unset Strict Implicit.
Unset Printing Implicit Defensive.
Import GRing.Theory Num.Theory.
Local Open Scope ring_scope.

Section Pose.
Variable F : realFieldType.

(* sm::kinematics::RotationalKinematics (not part of the repository), the object behind
   rotation_ (BSplinePose.hpp): an arbitrary rotation parameterisation.
   rotM : parametersToRotationMatrix, rotS : parametersToSMatrix and the S output of
   parametersToRotationMatrix, rotP : rotationMatrixToParameters,
   rotAV : angularVelocityAndJacobian (value, 3x6 Jacobian). *)
Record rotation := Rotation {
  rotM  : vec F -> mat F;
  rotS  : vec F -> mat F;
  rotP  : mat F -> vec F;
  rotAV : vec F -> vec F -> vec F * mat F
}.
Variable R : rotation.
(* eps : the constant 1e-10 of BSpline.cpp:242 *)
Variable eps : F.

(* c.head<3>(), c.tail<3>() of a six-vector *)
Definition head3 (c : vec F) : vec F := c.
Definition tail3 (c : vec F) : vec F := get_segment c 3.
Definition oppm (A : mat F) : mat F := fun r c => - A r c.
Definition oppv (v : vec F) : vec F := fun r => - v r.
Definition addm (A B : mat F) : mat F := fun r c => A r c + B r c.
(* sm::kinematics::crossMx (library function, not in the repository): the matrix of the
   cross product v x _ *)
Definition crossMx (v : vec F) : mat F := fun r c =>
  match r, c with
  | 0, 1 => - v 2%N | 0, 2 => v 1%N
  | 1, 0 => v 2%N   | 1, 2 => - v 0%N
  | 2, 0 => - v 1%N | 2, 1 => v 0%N
  | _, _ => 0
  end.
(* sm::kinematics::boxTimes (library function): [C, -p^x C; 0, C] for T = [C p; 0 1] *)
Definition boxTimes (T : mat F) : mat F :=
  set_block (set_block (set_block zerom 0 0 3 3 T) 3 3 3 3 T) 0 3 3 3
    (mulm 3 (oppm (crossMx (fun r => T r 3%N))) T).
(* sm::kinematics::boxMinus (library function): [v_4 I, v^x; 0, 0], a 4x6 matrix *)
Definition boxMinus (v : vec F) : mat F :=
  set_block (set_block zerom 0 0 3 3 (fun r c => v 3%N * eyem r c)) 0 3 3 3 (crossMx v).

(* 384-392 curveValueToTransformation *)
Definition curveValueToTransformation (c : vec F) : mat F :=
  let T := set_block eyem 0 0 3 3 (rotM R (tail3 c)) in
  set_block T 0 3 3 1 (fun r _ => head3 c r).

(* 394-412 curveValueToTransformationAndJacobian (J given) *)
Definition curveValueToTransformationAndJacobian (p : vec F) : mat F * mat F :=
  let S := rotS R (tail3 p) in
  let T := set_block eyem 0 0 3 3 (rotM R (tail3 p)) in
  let T := set_block T 0 3 3 1 (fun r _ => head3 p r) in
  let J := set_block eyem 0 3 3 3 (mulm 3 (oppm (crossMx (head3 p))) S) in
  (T, set_block J 3 3 3 3 S).

(* 414-421 transformationToCurveValue *)
Definition transformationToCurveValue (T : mat F) : vec F :=
  let c := set_segment zerov 0 3 (fun r => T r 3%N) in
  set_segment c 3 3 (rotP R T).

(* 97-98 and 117-118, the in-place inversion: transpose the rotation block, then
   replace the translation by -(rotation block) * translation *)
Definition invertInPlace (T : mat F) : mat F :=
  let T1 := set_block T 0 0 3 3 (trm T) in
  set_block T1 0 3 3 1 (fun r _ => - fsum 3 (fun x => T1 r x * T1 x 3%N)).

(* eval / evalD with the six rows that every caller in this file needs *)
Definition evalD6 (s : bspline F) (t : F) (d : nat) : outcome (vec F) :=
  do v <- evalD eps s t d ;
  need bs_dim s == 6%N ;
  Ok v.
Definition evalJ6 (s : bspline F) (t : F) (d : nat) : outcome (vec F * mat F * seq nat) :=
  do vji <- evalDAndJacobian eps s t d ;
  need bs_dim s == 6%N ;
  Ok vji.
(* number of columns of the spline Jacobian *)
Definition jcols (s : bspline F) : nat := (bs_order s * bs_dim s)%N.

(* 21-24 transformation *)
Definition transformation (s : bspline F) (tk : F) : outcome (mat F) :=
  do c <- evalD6 s tk 0 ;
  Ok (curveValueToTransformation c).

(* 26-41 transformationAndJacobian; the Jacobian is 6 x kD *)
Definition transformationAndJacobian (s : bspline F) (tk : F)
  : outcome (mat F * mat F * seq nat) :=
  do ' (p, JS, idx) <- evalJ6 s tk 0 ;
  let '(T, JT) := curveValueToTransformationAndJacobian p in
  Ok (T, mulm 6 JT JS, idx).

(* 53-54 and 74-75: the 3 x 6 matrix [0 S] *)
Definition JO_of (S : mat F) : mat F := set_block zerom 0 3 3 3 S.

(* 43-62 orientationAndJacobian *)
Definition orientationAndJacobian (s : bspline F) (tk : F)
  : outcome (mat F * mat F * seq nat) :=
  do ' (p, JS, idx) <- evalJ6 s tk 0 ;
  Ok (rotM R (tail3 p), mulm 6 (JO_of (rotS R (tail3 p))) JS, idx).

(* 64-83 inverseOrientationAndJacobian *)
Definition inverseOrientationAndJacobian (s : bspline F) (tk : F)
  : outcome (mat F * mat F * seq nat) :=
  do ' (p, JS, idx) <- evalJ6 s tk 0 ;
  let C := trm (rotM R (tail3 p)) in
  Ok (C, mulm 6 (mulm 3 (oppm C) (JO_of (rotS R (tail3 p)))) JS, idx).

(* 86-112 inverseTransformationAndJacobian *)
Definition inverseTransformationAndJacobian (s : bspline F) (tk : F)
  : outcome (mat F * mat F * seq nat) :=
  do ' (p, JS, _idx) <- evalJ6 s tk 0 ;
  let '(T0, JT) := curveValueToTransformationAndJacobian p in
  let T := invertInPlace T0 in
  do idx <- localCoefficientVectorIndices eps s tk ;
  Ok (T, mulm 6 (mulm 6 (oppm (boxTimes T)) JT) JS, idx).

(* 114-120 inverseTransformation *)
Definition inverseTransformation (s : bspline F) (tk : F) : outcome (mat F) :=
  do c <- evalD6 s tk 0 ;
  Ok (invertInPlace (curveValueToTransformation c)).

(* 124-136 transformVectorAndJacobian *)
Definition transformVectorAndJacobian (s : bspline F) (tk : F) (v_tk : vec F)
  : outcome (vec F * mat F * seq nat) :=
  do ' (T, JT, idx) <- transformationAndJacobian s tk ;
  let v_n := mulv 4 T v_tk in
  Ok (v_n, mulm 6 (boxMinus v_n) JT, idx).

(* 139-142 position; BSplineExpressions.cpp:101-105 *)
Definition position (s : bspline F) (tk : F) : outcome (vec F) :=
  do c <- evalD6 s tk 0 ; Ok (head3 c).
(* 146-149 orientation *)
Definition orientation (s : bspline F) (tk : F) : outcome (mat F) :=
  do c <- evalD6 s tk 0 ; Ok (rotM R (tail3 c)).
(* 151-154 inverseOrientation *)
Definition inverseOrientation (s : bspline F) (tk : F) : outcome (mat F) :=
  do c <- evalD6 s tk 0 ; Ok (trm (rotM R (tail3 c))).
(* 158-161 linearVelocity *)
Definition linearVelocity (s : bspline F) (tk : F) : outcome (vec F) :=
  do c <- evalD6 s tk 1 ; Ok (head3 c).
(* 163-168 linearVelocityBodyFrame (d = 1), 175-180 linearAccelerationBodyFrame (d = 2) *)
Definition linearBodyFrame (s : bspline F) (tk : F) (d : nat) : outcome (vec F) :=
  do r <- evalD6 s tk 0 ;
  let C_wb := rotM R (tail3 r) in
  do a <- evalD6 s tk d ;
  Ok (mulv 3 (trm C_wb) (head3 a)).
Definition linearVelocityBodyFrame s tk := linearBodyFrame s tk 1.
Definition linearAccelerationBodyFrame s tk := linearBodyFrame s tk 2.
(* 170-173 linearAcceleration *)
Definition linearAcceleration (s : bspline F) (tk : F) : outcome (vec F) :=
  do c <- evalD6 s tk 2 ; Ok (head3 c).
(* 182-191 linearAccelerationAndJacobian: conservativeResize keeps the first three rows *)
Definition linearAccelerationAndJacobian (s : bspline F) (tk : F)
  : outcome (vec F * mat F * seq nat) :=
  do ' (a, J, idx) <- evalJ6 s tk 2 ;
  Ok (head3 a, J, idx).

(* 195-204 angularVelocity *)
Definition angularVelocity (s : bspline F) (tk : F) : outcome (vec F) :=
  do r <- evalD6 s tk 0 ;
  do v <- evalD6 s tk 1 ;
  Ok (mulv 3 (oppm (rotS R (tail3 r))) (tail3 v)).

(* 207-219 angularVelocityBodyFrame (d = 1), 288-300 angularAccelerationBodyFrame (d = 2) *)
Definition angularBodyFrame (s : bspline F) (tk : F) (d : nat) : outcome (vec F) :=
  do r <- evalD6 s tk 0 ;
  do v <- evalD6 s tk d ;
  let S := rotS R (tail3 r) in
  let C_w_b := rotM R (tail3 r) in
  Ok (mulv 3 (mulm 3 (oppm (trm C_w_b)) S) (tail3 v)).
Definition angularVelocityBodyFrame s tk := angularBodyFrame s tk 1.
Definition angularAccelerationBodyFrame s tk := angularBodyFrame s tk 2.

(* 238 / 271 / 319 / 349: the first three rows of Jpdot are replaced by the last three
   rows of Jp *)
Definition stackJ (s : bspline F) (Jp Jpdot : mat F) : mat F :=
  set_block Jpdot 0 0 3 (jcols s) (get_block Jp 3 0).

(* 222-253 angularVelocityBodyFrameAndJacobian (d = 1),
   303-331 angularAccelerationBodyFrameAndJacobian (d = 2) *)
Definition angularBodyFrameAndJacobian (s : bspline F) (tk : F) (d : nat)
  : outcome (vec F * mat F * seq nat) :=
  do ' (p, Jp, _i0) <- evalJ6 s tk 0 ;
  do ' (pdot, Jpdot, idx) <- evalJ6 s tk d ;
  do ' (C_w_b, Jr, _i1) <- inverseOrientationAndJacobian s tk ;
  let Jpdot := stackJ s Jp Jpdot in
  let '(av, Jo) := rotAV R (tail3 p) (tail3 pdot) in
  let omega := mulv 3 (oppm C_w_b) av in
  let Jo := mulm 3 (oppm C_w_b) Jo in
  Ok (omega, addm (mulm 6 Jo Jpdot) (mulm 3 (crossMx omega) Jr), idx).
Definition angularVelocityBodyFrameAndJacobian s tk := angularBodyFrameAndJacobian s tk 1.
Definition angularAccelerationBodyFrameAndJacobian s tk := angularBodyFrameAndJacobian s tk 2.

(* 257-285 angularVelocityAndJacobian (d = 1), 335-359 angularAccelerationAndJacobian (d = 2) *)
Definition angularAndJacobian (s : bspline F) (tk : F) (d : nat)
  : outcome (vec F * mat F * seq nat) :=
  do ' (p, Jp, _i0) <- evalJ6 s tk 0 ;
  do ' (pdot, Jpdot, idx) <- evalJ6 s tk d ;
  let Jpdot := stackJ s Jp Jpdot in
  let '(av, Jo) := rotAV R (tail3 p) (tail3 pdot) in
  Ok (av, mulm 6 Jo Jpdot, idx).
Definition angularVelocityAndJacobian s tk := angularAndJacobian s tk 1.

(* BSplineExpressions.cpp:228-231 (value) and 233-243 (the matrix J whose 3x6 blocks are
   handed out): the body-frame acceleration expression *)
Definition accelerationBodyFrameNode_value (s : bspline F) (t : F) : outcome (vec F) :=
  linearAccelerationBodyFrame s t.
Definition accelerationBodyFrameNode_J (s : bspline F) (t : F) : outcome (mat F) :=
  do ' (_v, J, _idx) <- evalJ6 s t 2 ;
  Ok J.

(* 361-367 initPoseSpline, 369-374 addPoseSegment, 376-381 addPoseSegment2 *)
Variables solveQr : nat -> mat F -> vec F -> vec F.
Variables solveLdlt : nat -> mat F -> vec F -> vec F.
Definition poseVec (T : mat F) : dvec F := DVec 6 (transformationToCurveValue T).
Definition initPoseSpline (s : bspline F) (t0 t1 : F) (T0 T1 : mat F) : outcome (bspline F) :=
  initSpline eps solveQr s t0 t1 (poseVec T0) (poseVec T1).
Definition addPoseSegment (s : bspline F) (tk : F) (T : mat F) (junk : vec F)
  : outcome (bspline F) :=
  addCurveSegment eps solveQr s tk (poseVec T) junk.
Definition addPoseSegment2 (s : bspline F) (tk : F) (T : mat F) (lambda : F) (junk : vec F)
  : outcome (bspline F) :=
  addCurveSegment2 eps solveLdlt s tk (poseVec T) lambda junk.
End Pose.
