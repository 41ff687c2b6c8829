(* Specification vocabulary for pose splines: derivatives (epsilon-delta), rigid
   transformations, what a rotation parameterisation is assumed to satisfy, and what it
   means that a matrix is the Jacobian of a value with respect to the spline
   coefficients. *)
From mathcomp Require Import all_ssreflect all_algebra.
From Verif Require Import Prelude BSplineModel PoseModel.
Set Implicit Arguments.
Unset Strict Implicit.
Unset Printing Implicit Defensive.
Import GRing.Theory Num.Theory.
Local Open Scope ring_scope.

Section Spec.
Variable F : realFieldType.

(* f has derivative D at x *)
Definition deriv_at (f : F -> F) (x D : F) : Prop :=
  forall e, 0 < e -> exists2 d, 0 < d &
    forall h, `|h| < d -> `|f (x + h) - f x - D * h| <= e * `|h|.

(* P holds in a neighbourhood of x *)
Definition near (x : F) (P : F -> Prop) : Prop :=
  exists2 d, 0 < d & forall t, `|t - x| < d -> P t.

(* C^T C = I for the upper left 3 x 3 block *)
Definition orthonormal (C : mat F) : Prop :=
  forall a b, (a < 3)%N -> (b < 3)%N ->
    fsum 3 (fun x => C x a * C x b) = (a == b)%:R.

(* equality of n x m matrices and of n-vectors *)
Definition eqm (n m : nat) (A B : mat F) : Prop :=
  forall r c, (r < n)%N -> (c < m)%N -> A r c = B r c.
Definition eqv (n : nat) (v w : vec F) : Prop := forall r, (r < n)%N -> v r = w r.

(* cross product and derivative of a rotation: the matrix of the map x |-> - phi x (C x) *)
Definition cross (a b : vec F) : vec F := fun r =>
  match r with
  | 0 => a 1%N * b 2%N - a 2%N * b 1%N
  | 1 => a 2%N * b 0%N - a 0%N * b 2%N
  | 2 => a 0%N * b 1%N - a 1%N * b 0%N
  | _ => 0
  end.
Definition turned (phi : vec F) (C : mat F) : mat F := fun r c =>
  - cross phi (fun x => C x c) r.

(* Assumptions on the rotation parameterisation used by individual theorems:
   - the oracles read three parameters only,
   - parametersToRotationMatrix returns orthonormal matrices,
   - along every differentiable curve of parameters with derivative d the rotation changes
     by - (S d) x C,
   - angularVelocityAndJacobian returns S(p) pdot and the derivative of that. *)
Record rot_ext (R : rotation F) : Prop := RotExt {
  rotM_ext : forall p q, eqv 3 p q -> eqm 3 3 (rotM R p) (rotM R q);
  rotS_ext : forall p q, eqv 3 p q -> eqm 3 3 (rotS R p) (rotS R q);
  rotAV_ext : forall p q p' q', eqv 3 p q -> eqv 3 p' q' ->
    eqv 3 (rotAV R p p').1 (rotAV R q q').1 /\ eqm 3 6 (rotAV R p p').2 (rotAV R q q').2
}.
Definition rot_orthonormal (R : rotation F) : Prop := forall p, orthonormal (rotM R p).
Definition curve_deriv (th : F -> vec F) (x : F) (d : vec F) : Prop :=
  forall i, (i < 3)%N -> deriv_at (fun h => th h i) x (d i).
Definition rot_deriv (R : rotation F) : Prop := forall th x d, curve_deriv th x d ->
  forall r c, (r < 3)%N -> (c < 3)%N ->
  deriv_at (fun h => rotM R (th h) r c) x
    (turned (mulv 3 (rotS R (th x)) d) (rotM R (th x)) r c).
Definition rot_av (R : rotation F) : Prop :=
  (forall p q, eqv 3 (rotAV R p q).1 (mulv 3 (rotS R p) q)) /\
  forall th om x dp dq, curve_deriv th x dp -> curve_deriv om x dq ->
    forall r, (r < 3)%N ->
    deriv_at (fun h => mulv 3 (rotS R (th h)) (om h) r) x
      (fsum 3 (fun y => (rotAV R (th x) (om x)).2 r y * dp y)
       + fsum 3 (fun y => (rotAV R (th x) (om x)).2 r (3 + y)%N * dq y)).

(* a rotation matrix: orthonormal columns, the third is the cross product of the others *)
Definition right_handed (C : mat F) : Prop :=
  forall r, (r < 3)%N -> cross (fun x => C x 0%N) (fun x => C x 1%N) r = C r 2%N.
Definition rot_proper (R : rotation F) : Prop :=
  forall p, orthonormal (rotM R p) /\ right_handed (rotM R p).

(* a vector / a matrix that is computed for every time near x has time derivative D at x *)
Definition has_rate (n : nat) (value : F -> outcome (vec F)) (x : F) (D : vec F) : Prop :=
  exists2 f : F -> vec F, near x (fun t => value t = Ok (f t)) &
    forall r, (r < n)%N -> deriv_at (fun t => f t r) x (D r).
Definition has_mrate (n m : nat) (value : F -> outcome (mat F)) (x : F) (D : mat F) : Prop :=
  exists2 f : F -> mat F, near x (fun t => value t = Ok (f t)) &
    forall r c, (r < n)%N -> (c < m)%N -> deriv_at (fun t => f t r c) x (D r c).
(* x lies strictly inside knot interval i of the valid range *)
Definition inside (s : bspline F) (i : nat) (x : F) : Prop :=
  [/\ (bs_order s <= i.+1)%N, (i + bs_order s < size (bs_knots s))%N & kn s i < x < kn s i.+1].

(* coefficients moved by h in direction dC *)
Definition moved (s : bspline F) (dC : mat F) (h : F) : bspline F :=
  with_coef s (fun r j => bs_coef s r j + h * dC r j).
(* J times the direction; column q of J belongs to entry idx[q] of the coefficient vector *)
Definition dir (s : bspline F) (J : mat F) (idx : seq nat) (dC : mat F) : vec F := fun r =>
  fsum (size idx) (fun q => J r q * coefficientVector (with_coef s dC) (nth 0%N idx q)).

(* the value part of a function that also returns a Jacobian and coefficient indices *)
Definition value_part A (o : outcome (A * mat F * seq nat)) : outcome A :=
  do ' (v, _J, _i) <- o ; Ok v.

(* J (n rows, columns attributed to idx) is the Jacobian at s of a vector-valued quantity:
   along every direction the value exists and has derivative J * direction. *)
Definition jacobian_of (n : nat) (value : bspline F -> outcome (vec F)) (s : bspline F)
  (J : mat F) (idx : seq nat) : Prop :=
  forall dC, exists2 vf : F -> vec F, (forall h, value (moved s dC h) = Ok (vf h)) &
    forall r, (r < n)%N -> deriv_at (fun h => vf h r) 0 (dir s J idx dC r).

(* the same for a rotation matrix, with the rotation's change written as a rotation
   vector phi = J * direction:  dC = - phi x C *)
Definition rot_jacobian_of (value : bspline F -> outcome (mat F)) (s : bspline F)
  (J : mat F) (idx : seq nat) : Prop :=
  forall dC, exists2 Cf : F -> mat F, (forall h, value (moved s dC h) = Ok (Cf h)) &
    forall r c, (r < 3)%N -> (c < 3)%N ->
      deriv_at (fun h => Cf h r c) 0 (turned (dir s J idx dC) (Cf 0) r c).

(* the same for a 4 x 4 transformation: with (rho, phi) = J * direction,
   dT = [ - phi x , rho ; 0 , 0 ] T *)
Definition turned4 (xi : vec F) (T : mat F) : mat F := fun r c =>
  if (r < 3)%N then turned (get_segment xi 3) T r c + xi r * T 3%N c else 0.
Definition pose_jacobian_of (value : bspline F -> outcome (mat F)) (s : bspline F)
  (J : mat F) (idx : seq nat) : Prop :=
  forall dC, exists2 Tf : F -> mat F, (forall h, value (moved s dC h) = Ok (Tf h)) &
    forall r c, (r < 4)%N -> (c < 4)%N ->
      deriv_at (fun h => Tf h r c) 0 (turned4 (dir s J idx dC) (Tf 0) r c).

(* the matrix C^T (Jd - a x (S J0)), with Jd the rows of the position's derivative and J0
   the rows of the rotation parameters: the Jacobian a body-frame quantity C^T a has *)
Definition body_frame_J (C S : mat F) (a : vec F) (J0 Jd : mat F) : mat F := fun r q =>
  fsum 3 (fun y => C y r *
    (Jd y q - cross a (fun z => fsum 3 (fun w => S z w * J0 (3 + w)%N q)) y)).

(* S(theta) theta^(d), theta the rotation parameters: minus the angular velocity for d = 1 *)
Definition S_theta (R : rotation F) (eps : F) (d : nat) (s : bspline F) (x : F)
  : outcome (vec F) :=
  do r <- evalD6 eps s x 0 ; do v <- evalD6 eps s x d ;
  Ok (mulv 3 (rotS R (tail3 r)) (tail3 v)).

(* the rotation parameters of the transformation T represent its rotation, and its last row is
   0 0 0 1 *)
Definition representable (R : rotation F) (T : mat F) : Prop :=
  (forall p, eqv 3 p (rotP R T) -> eqm 3 3 (rotM R p) T) /\
  (forall c, (c < 4)%N -> T 3%N c = (c == 3%N)%:R).
End Spec.
