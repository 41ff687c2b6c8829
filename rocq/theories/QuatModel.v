(* Model of implementation/UnitQuaternionBSplineImpl.hpp (line numbers refer to it), of
   manifolds/LieGroup.hpp with implementation/LieGroupImpl.hpp and of
   manifolds/implementation/UnitQuaternionManifoldImpl.hpp, on top of the manifold spline of
   DMModel.v.  The functions of the external package sm_kinematics are modelled from its
   documentation: a quaternion is (eps, eta) with the vector part eps at indices 0..2 and the
   scalar part eta at index 3.  exp and log (axisAngle2quat, quat2AxisAngle) and the Euclidean
   norm are parameters.  Debug assertions are compiled out.  No proofs in this file. *)
From mathcomp Require Import all_ssreflect all_algebra.
From Verif Require Import Prelude DMModel.
Set Implicit Arguments.
Unset Strict Implicit.
Unset Printing Implicit Defensive.
Import GRing.Theory Num.Theory.
Local Open Scope ring_scope.

(* ------------------------------------------------------------------ sm_kinematics *)
Section Algebra.
Variable R : comRingType.
(* point_t and tangent_vector_t *)
Record quat := Quat { qx : R; qy : R; qz : R; qw : R }.
Record v3 := V3 { vx : R; vy : R; vz : R }.

(* Eigen arithmetic on them *)
Definition qadd (p q : quat) : quat := Quat (qx p + qx q) (qy p + qy q) (qz p + qz q) (qw p + qw q).
Definition qscale (a : R) (q : quat) : quat := Quat (a * qx q) (a * qy q) (a * qz q) (a * qw q).
Definition qzero : quat := Quat 0 0 0 0.
Definition v3add (p q : v3) : v3 := V3 (vx p + vx q) (vy p + vy q) (vz p + vz q).
Definition v3sub (p q : v3) : v3 := V3 (vx p - vx q) (vy p - vy q) (vz p - vz q).
Definition v3scale (a : R) (v : v3) : v3 := V3 (a * vx v) (a * vy v) (a * vz v).
Definition cross (p q : v3) : v3 :=
  V3 (vy p * vz q - vz p * vy q) (vz p * vx q - vx p * vz q) (vx p * vy q - vy p * vx q).
Definition dot3 (p q : v3) : R := vx p * vx q + vy p * vy q + vz p * vz q.

(* sm_kinematics quaternion_algebra: qeps, qeta, quatIdentity, quatInv and qplus with
   eps = eta_q eps_p + eta_p eps_q - eps_q x eps_p, eta = eta_q eta_p - eps_q . eps_p *)
Definition qeps (q : quat) : v3 := V3 (qx q) (qy q) (qz q).
Definition qeta (q : quat) : R := qw q.
Definition qmk (e : v3) (s : R) : quat := Quat (vx e) (vy e) (vz e) s.
Definition quatIdentity : quat := Quat 0 0 0 1.
Definition quatInv (q : quat) : quat := Quat (- qx q) (- qy q) (- qz q) (qw q).
Definition qplus (q p : quat) : quat :=
  qmk (v3sub (v3add (v3scale (qeta q) (qeps p)) (v3scale (qeta p) (qeps q)))
             (cross (qeps q) (qeps p)))
      (qeta q * qeta p - dot3 (qeps q) (qeps p)).
(* squared norm of a point_t *)
Definition qnorm2 (q : quat) : R := qx q ^+ 2 + qy q ^+ 2 + qz q ^+ 2 + qw q ^+ 2.

(* points of the manifold spline are vectors *)
Definition quat_of (v : vec R) : quat := Quat (v 0%N) (v 1%N) (v 2%N) (v 3%N).
Definition vec_of (q : quat) : vec R := fun r =>
  match r with 0%N => qx q | 1%N => qy q | 2%N => qz q | 3%N => qw q | _ => 0 end.
Definition v3_of (v : vec R) : v3 := V3 (v 0%N) (v 1%N) (v 2%N).
Definition vec_of3 (p : v3) : vec R := fun r =>
  match r with 0%N => vx p | 1%N => vy p | 2%N => vz p | _ => 0 end.
End Algebra.

(* ------------------------------------------------------------------ the manifold *)
Section Manifold.
Variable F : realFieldType.
(* axisAngle2quat, quat2AxisAngle, Eigen's norm() *)
Variables (expq : v3 F -> quat F) (logq : quat F -> v3 F) (norm : quat F -> F).

(* UnitQuaternionManifoldImpl.hpp:62-64 V: quatV() = [ I/2 ; 0 ], applied to a vector *)
Definition mulV (v : v3 F) : quat F := qmk (v3scale (1 / 2%:R) v) 0.
(* UnitQuaternionManifoldImpl.hpp:94-97 isInManifold; ieps = 1E-9 *)
Definition uq_isIn (ieps : F) (q : quat F) : bool := `|norm q - 1| < `|ieps|.
(* UnitQuaternionManifoldImpl.hpp:100-104 projectIntoManifold *)
Definition uq_project (q : quat F) : quat F := qscale (norm q)^-1 q.
(* LieGroupImpl.hpp:30-33 expInto with canonicalMult = mult (LieGroup.hpp:66, connection LEFT)
   and UnitQuaternionManifoldImpl.hpp:20-23 multInto *)
Definition uq_exp (p : quat F) (v : v3 F) : quat F := qplus p (expq v).
(* LieGroupImpl.hpp:85-88 logInto *)
Definition uq_log (from to : quat F) : v3 F := logq (qplus (quatInv from) to).
(* LieGroup.hpp:29-33 update of a point by a tangent vector: left multiplication *)
Definition uq_update (p : quat F) (v : v3 F) : quat F := uq_project (qplus (expq v) p).
(* LieGroup.hpp:35-38 minimalDifference *)
Definition uq_minimalDifference (xHat to : quat F) : v3 F := logq (qplus to (quatInv xHat)).

(* the manifold as used by the spline *)
Definition uq_manifold (ieps : F) : manifold F :=
  Manifold 4 (vec_of (@quatIdentity F)) (fun v => uq_isIn ieps (quat_of v))
    (fun v => vec_of (uq_project (quat_of v)))
    (fun a b => vec_of3 (uq_log (quat_of a) (quat_of b)))
    (fun p v => vec_of (uq_exp (quat_of p) (v3_of v))).
End Manifold.

(* ------------------------------------------------------------------ the spline evaluator *)
(* 22-28 factorial (int and long overflow is not modelled) *)
Definition factorial (i : nat) : nat :=
  if i == 0%N then 1%N else (floop 0 i (fun j ret => ret * (i - j)) 1)%N.

Section Evaluator.
Variables (F : realFieldType) (T : realDomainType).
Variables (dbl : T -> F) (one : T).
Variables (expq : v3 F -> quat F) (logq : quat F -> v3 F).

(* 31-73 CalculationCache: localPhiVectors, localRiPoints, localControlVertices; the accessors
   (43-54) are 1-based for the first two *)
Record calc_cache := CalcCache {
  cc_phi : nat -> v3 F; cc_Ri : nat -> quat F; cc_cv : nat -> quat F
}.
(* 74-77 getNumVectors *)
Definition getNumVectors (s : dspline F T) : nat := ds_order s - 1.

Section Evaluate.
(* NeedsCumulativeBasisMatrices (UnitQuaternionBSpline.hpp:31 sets it), number of prepared
   derivatives *)
Variables (nc : bool) (np : nat) (s : dspline F T) (ev : evaluator F T).
Notation cumBi := (dm_getLocalCumulativeBi dbl one nc np s ev).

(* 56-72 constructor of CalculationCache: the iterator is advanced and dereferenced at every
   step *)
Definition calculationCache : outcome calc_cache :=
  let m := ds_segs s in
  need (ev_first ev < size m)%N ;
  let p0 := quat_of (sg_pt (seg_nth m (ev_first ev))) in
  do ' (c, _) <- oloop 0 (getNumVectors s) (fun k (st : calc_cache * quat F) =>
      let: (c, last) := st in
      need (ev_first ev + k.+1 < size m)%N ;
      let next := quat_of (sg_pt (seg_nth m (ev_first ev + k.+1))) in
      let phi := uq_log logq last next in
      do b <- cumBi 0%N ;
      Ok (CalcCache (upd (cc_phi c) k phi)
            (upd (cc_Ri c) k (expq (v3scale (b k.+1) phi)))
            (upd (cc_cv c) k.+1 next), next))
    (CalcCache (fun _ => V3 0 0 0) (fun _ => qzero F) (upd (fun _ => qzero F) 0 p0), p0) ;
  Ok c.
Definition getLocalPhiVector (c : calc_cache) (i : nat) : v3 F := cc_phi c (i - 1).
Definition getLocalRiPoint (c : calc_cache) (i : nat) : quat F := cc_Ri c (i - 1).
Definition getLocalStartPoint (c : calc_cache) : quat F := cc_cv c 0.

(* 80-119 evalRiD *)
Definition evalRiD (c : calc_cache) (d i : nat) : outcome (quat F) :=
  let phi := getLocalPhiVector c i in
  let Ri := getLocalRiPoint c i in
  match d with
  | 0%N => Ok Ri
  | 1%N => do b1 <- cumBi 1%N ; Ok (qplus (mulV (v3scale (b1 i) phi)) Ri)
  | 2%N =>
    let phiQuad := mulV phi in
    do b1 <- cumBi 1%N ;
    do b2 <- cumBi 2%N ;
    let tmp2 := qadd (qscale (b1 i * b1 i) phiQuad) (Quat 0 0 0 (b2 i)) in
    Ok (qplus phiQuad (qplus Ri tmp2))
  | 3%N =>
    let phiQuad := mulV phi in
    do b1 <- cumBi 1%N ;
    do b2 <- cumBi 2%N ;
    do b3 <- cumBi 3%N ;
    let tmp2 := qadd (qscale (b1 i * b1 i) phiQuad) (Quat 0 0 0 (b2 i)) in
    let tmp3 := qadd (qscale (2%:R * b1 i * b2 i) phiQuad) (Quat 0 0 0 (b3 i)) in
    Ok (qplus phiQuad (qplus Ri (qadd (qplus (qscale (b1 i) phiQuad) tmp2) tmp3)))
  | _ => Throw ExnSpline
  end.

(* 145-177 evalD1Special *)
Definition evalD1Special : outcome (quat F) :=
  do c <- calculationCache ;
  do ' (A, sum) <- oloop 1 (ds_order s) (fun i (st : quat F * quat F) =>
      let: (A, sum) := st in
      do r1 <- evalRiD c 1 i ;
      do r0 <- evalRiD c 0 i ;
      let B := qplus A r1 in
      let A := qplus A r0 in
      Ok (A, qadd sum (qplus B (quatInv A))))
    (quatIdentity F, qzero F) ;
  Ok (qplus (getLocalStartPoint c) (qplus sum A)).
End Evaluate.

(* 179-192 evalDRecursiveProductRest for the factors i, ..., i + rest, where i + rest is
   getNumVectors(); riD is evalRiD, kf the int kombinatorialFactor (int division) *)
Fixpoint productRest (riD : nat -> nat -> outcome (quat F)) (rest d i kf : nat)
  : outcome (quat F) :=
  if rest is rest'.+1 then
    do r0 <- riD 0%N i ;
    do p0 <- productRest riD rest' d i.+1 kf ;
    oloop 1 d.+1 (fun e result =>
      do r <- riD e i ;
      do p <- productRest riD rest' (d - e) i.+1 (kf %/ factorial e)%N ;
      Ok (qadd result (qplus r p)))
      (qplus r0 p0)
  else
    do r <- riD d i ;
    Ok (qscale (kf %/ factorial d)%N%:R r).

Section Evaluate2.
Variables (ieps : F) (norm : quat F -> F) (nc : bool) (np : nat).
Variables (s : dspline F T) (ev : evaluator F T).

(* 324-331 evalDRecursive; with no factors (order 1) element 0 of the empty array of Ri is read *)
Definition evalDRecursive (d : nat) : outcome (quat F) :=
  do c <- calculationCache nc np s ev ;
  need (0 < getNumVectors s)%N ;
  do r <- productRest (evalRiD nc np s ev c) (getNumVectors s - 1) d 1 (factorial d) ;
  Ok (qplus (getLocalStartPoint c) r).

(* 127-143 evalD *)
Definition uq_evalD (d : nat) : outcome (quat F) :=
  match d with
  | 0%N => do v <- dm_evalGeneric dbl one (uq_manifold expq logq norm ieps) nc np s ev ;
         Ok (quat_of v)
  | 1%N => evalD1Special nc np s ev
  | _ => evalDRecursive d
  end.

(* 299-322 evalAngularDerivative<d>, d in 1..3 (a static assertion forbids others); eval() is
   evalD(0) *)
Definition evalAngularDerivative (d : nat) : outcome (v3 F) :=
  let vecprod (v d : quat F) := v3sub (v3sub (v3scale (qeta v) (qeps d)) (v3scale (qeta d) (qeps v)))
                                  (cross (qeps v) (qeps d)) in
  do q <- uq_evalD d ;
  do v <- uq_evalD 0 ;
  let tmp := vecprod v q in
  match d with
  | 1%N | 2%N => Ok (v3scale 2%:R tmp)
  | 3%N =>
    do d1 <- uq_evalD 1 ;
    do d2 <- uq_evalD 2 ;
    Ok (v3scale 2%:R (v3sub (v3sub (v3add tmp (v3scale (qeta d1) (qeps d2)))
                                   (v3scale (qeta d2) (qeps d1)))
                            (cross (qeps d1) (qeps d2))))
  | _ => UB
  end.
End Evaluate2.
End Evaluator.
