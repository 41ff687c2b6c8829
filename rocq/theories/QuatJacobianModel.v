(* Model of the Jacobians of unit quaternion splines, implementation/UnitQuaternionBSplineImpl.hpp
   (line numbers refer to it), and of minimalDifferenceAndJacobian of manifolds/LieGroup.hpp.
   Matrices with three columns (dmatrix_t, 4 x 3; Matrix3d) are functions from the column to the
   column; the 4 x 4 matrices quatPlus(q) and quatOPlus(q) of sm_kinematics, documented by
   quatPlus(q) p = qplus(q, p) and quatOPlus(q) p = qplus(p, q), are the linear maps p |-> ... .
   S (expDiffMat), LByVec (logDiffMat), quatLogJacobian2 and quatExpJacobian are parameters.
   No proofs in this file. *)
From mathcomp Require Import all_ssreflect all_algebra.
From Verif Require Import Prelude DMModel QuatModel.
Set Implicit Arguments.
Unset Strict Implicit.
Unset Printing Implicit Defensive.
Import GRing.Theory Num.Theory.
Local Open Scope ring_scope.

Section Matrices.
Variable F : realFieldType.
(* Eigen::Matrix3d and dmatrix_t by columns *)
Definition m3 := nat -> v3 F.
Definition jac := nat -> quat F.
(* Eigen: matrix times vector, and the unit vectors *)
Definition m3app (A : m3) (v : v3 F) : v3 F :=
  v3add (v3add (v3scale (vx v) (A 0%N)) (v3scale (vy v) (A 1%N))) (v3scale (vz v) (A 2%N)).
Definition unit3 (c : nat) : v3 F :=
  V3 (if c == 0%N then 1 else 0) (if c == 1%N then 1 else 0) (if c == 2%N then 1 else 0).
(* Eigen: matrix product *)
Definition m3mul (A B : m3) : m3 := fun c => m3app A (B c).
Definition m3scale (a : F) (A : m3) : m3 := fun c => v3scale a (A c).
Definition jzero : jac := fun _ => qzero F.
Definition jadd (A B : jac) : jac := fun c => qadd (A c) (B c).
Definition jscale (a : F) (A : jac) : jac := fun c => qscale a (A c).
(* a 4 x 4 matrix times a dmatrix_t; the 4 x 4 matrix is a linear map *)
Definition japp (f : quat F -> quat F) (A : jac) : jac := fun c => f (A c).
(* sm_kinematics quatPlus, quatOPlus *)
Definition quatPlus (q : quat F) : quat F -> quat F := fun p => qplus q p.
Definition quatOPlus (q : quat F) : quat F -> quat F := fun p => qplus p q.
(* V() * (3 x 3 matrix), V() = quatV() (UnitQuaternionManifoldImpl.hpp:62-64) *)
Definition Vmul (A : m3) : jac := fun c => mulV (A c).
(* sm_kinematics quat2r: (eta^2 - eps . eps) 1 + 2 eps eps^T - 2 eta eps^x *)
Definition quat2r (q : quat F) : m3 := fun c =>
  let e := qeps q in
  v3sub (v3add (v3scale (qeta q * qeta q - dot3 e e) (unit3 c))
               (v3scale (2%:R * dot3 e (unit3 c)) e))
        (v3scale (2%:R * qeta q) (cross e (unit3 c))).
End Matrices.

Section Jacobians.
Variables (F : realFieldType) (T : realDomainType).
Variables (dbl : T -> F) (one : T).
Variables (expq : v3 F -> quat F) (logq : quat F -> v3 F).
(* UnitQuaternionManifoldImpl.hpp:66-76 S and LByVec *)
Variables (S LByVec : v3 F -> m3 F).

(* 195-207 getRiQuaternionProduct *)
Definition getRiQuaternionProduct (c : calc_cache F) (from to : nat) : quat F :=
  if from == to then quatIdentity F
  else floop from.+1 to (fun i ret => qplus ret (getLocalRiPoint c i)) (getLocalRiPoint c from).
(* 209-213 getPhiVectorJacobian; 49-51 getLocalControlVertex *)
Definition getPhiVectorJacobian (c : calc_cache F) (i : nat) : m3 F :=
  m3mul (LByVec (getLocalPhiVector c i)) (quat2r (quatInv (cc_cv c (i - 1)))).
(* 216-226 *)
Definition isJacobianZero (i j : nat) : bool := (i != j) && (j.+1 != i).
Definition getJacobianSignum (i j : nat) : F := if i == j then 1 else -1.

Section Evaluate.
Variables (nc : bool) (np : nat) (s : dspline F T) (ev : evaluator F T).
Notation cumBi := (dm_getLocalCumulativeBi dbl one nc np s ev).

(* 239-243 getRiDJacobian(cache, 0, i) *)
Definition getRiDJacobian0 (c : calc_cache F) (i : nat) : outcome (jac F) :=
  do b <- cumBi 0%N ;
  Ok (japp (quatOPlus (getLocalRiPoint c i))
       (Vmul (m3mul (S (v3scale (b i) (getLocalPhiVector c i)))
                    (m3scale (b i) (getPhiVectorJacobian c i))))).
(* 237-278 getRiDJacobian(cache, derivativeOrder, i) *)
Definition getRiDJacobian (c : calc_cache F) (d i : nat) : outcome (jac F) :=
  if d is 0%N then getRiDJacobian0 c i else
  let VPhiJac := Vmul (getPhiVectorJacobian c i) in
  let phiQuad := mulV (getLocalPhiVector c i) in
  let Ri := getLocalRiPoint c i in
  do J0 <- getRiDJacobian0 c i ;
  let PhiRiJac := jadd (japp (quatOPlus Ri) VPhiJac) (japp (quatPlus phiQuad) J0) in
  match d with
  | 1%N => do b1 <- cumBi 1%N ; Ok (jscale (b1 i) PhiRiJac)
  | 2%N =>
    do b1 <- cumBi 1%N ;
    do b2 <- cumBi 2%N ;
    let tmp := qadd (qscale (b1 i * b1 i) phiQuad) (Quat 0 0 0 (b2 i)) in
    Ok (jadd (japp (quatPlus tmp) PhiRiJac)
             (japp (quatOPlus (qplus phiQuad Ri)) (jscale (b1 i * b1 i) VPhiJac)))
  | _ => Throw ExnSpline
  end.
(* 228-234 getRiDJacobian(cache, derivativeOrder, i, j) *)
Definition getRiDJacobianAt (c : calc_cache F) (d i j : nat) : outcome (jac F) :=
  if isJacobianZero i j then Ok (jzero F)
  else do J <- getRiDJacobian c d i ; Ok (jscale (getJacobianSignum i j) J).
End Evaluate.

(* 280-299 evalJacobianDRecursiveProductRest for the factors i, ..., i + rest, where i + rest is
   getNumVectors(); riD is evalRiD, riJ is getRiDJacobian(cache, ., ., j) *)
Fixpoint jacobianRest (riD : nat -> nat -> outcome (quat F)) (riJ : nat -> nat -> outcome (jac F))
  (j rest d i kf : nat) : outcome (jac F) :=
  if rest is rest'.+1 then
    do r0 <- riD 0%N i ;
    do p0 <- jacobianRest riD riJ j rest' d i.+1 kf ;
    let result := japp (quatPlus r0) p0 in
    do result <- (if ~~ isJacobianZero i j then
        do q <- productRest riD rest' d i.+1 kf ;
        do J <- riJ 0%N i ;
        Ok (jadd result (japp (quatOPlus q) J))
      else Ok result) ;
    oloop 1 d.+1 (fun e result =>
      do result <- (if ~~ isJacobianZero i j then
          do q <- productRest riD rest' (d - e) i.+1 (kf %/ factorial e)%N ;
          do J <- riJ e i ;
          Ok (jadd result (japp (quatOPlus q) J))
        else Ok result) ;
      do r <- riD e i ;
      do p <- jacobianRest riD riJ j rest' (d - e) i.+1 (kf %/ factorial e)%N ;
      Ok (jadd result (japp (quatPlus r) p))) result
  else if ~~ isJacobianZero i j then
    do J <- riJ d i ; Ok (jscale (kf %/ factorial d)%N%:R J)
  else Ok (jzero F).

(* assignment to jacobian.block(0, j*dim, D, dim) with D = 4, dim = 3 *)
Definition put_block (M : mat F) (j : nat) (B : jac F) : mat F :=
  set_block M 0 (j * 3) 4 3 (fun r c => vec_of (B c) r).

Section Evaluate2.
Variables (ieps : F) (norm : quat F -> F) (nc : bool) (np : nat).
Variables (s : dspline F T) (ev : evaluator F T).

(* 359-382 evalJacobianDRecursive: the 4 x 3k matrix (resized, so its entries are not read before
   they are written); with no factors element 0 of the empty array of Ri is read *)
Definition evalJacobianDRecursive (d : nat) : outcome (mat F) :=
  do c <- calculationCache dbl one expq logq nc np s ev ;
  let riD := evalRiD dbl one nc np s ev c in
  oloop 0 (ds_order s) (fun j M =>
    need (0 < getNumVectors s)%N ;
    do block <- (if j == 0%N then
        do q <- productRest riD (getNumVectors s - 1) d 1 (factorial d) ;
        Ok (japp (quatOPlus (qplus (getLocalStartPoint c) q)) (Vmul (@unit3 F)))
      else Ok (jzero F)) ;
    do r <- jacobianRest riD (fun e i => getRiDJacobianAt nc np s ev c e i j) j
              (getNumVectors s - 1) d 1 (factorial d) ;
    Ok (put_block M j (jadd block (japp (quatPlus (getLocalStartPoint c)) r)))) zerom.

(* 384-422 evalJacobian(jacobian).  riQuaternionJacobian and riProduct are not initialised before
   the loop: reading them then is undefined *)
Definition evalJacobian0 : outcome (mat F) :=
  let n := ds_order s in
  do c <- calculationCache dbl one expq logq nc np s ev ;
  let P0 := getLocalStartPoint c in
  do ' (M, _) <- oloop 0 n (fun j (st : mat F * option ((quat F -> quat F) * jac F)) =>
      let: (M, last) := st in
      let block := if j == 0%N then
          japp (quatOPlus (qplus P0 (getRiQuaternionProduct c 1 n))) (Vmul (@unit3 F))
        else jzero F in
      do block <- (if j != 0%N then
          if last is Some (riProduct, riJ) then Ok (jadd block (japp riProduct riJ)) else UB
        else Ok block) ;
      if j != (n - 1)%N then
        do riJ <- getRiDJacobian nc np s ev c 0 j.+1 ;
        let riProduct := if j == 0%N then quatPlus P0
                         else quatPlus (qplus P0 (getRiQuaternionProduct c 1 j.+1)) in
        let riProduct := if j.+2 != n then
            (fun p => riProduct (quatOPlus (getRiQuaternionProduct c j.+2 n) p))
          else riProduct in
        let block := jadd block (jscale (-1) (japp riProduct riJ)) in
        Ok (put_block M j block, Some (riProduct, riJ))
      else Ok (put_block M j block, last)) (zerom, None) ;
  Ok M.

(* 343-356 evalJacobian(derivativeOrder, jacobian) *)
Definition uq_evalJacobian (d : nat) : outcome (mat F) :=
  if d is 0%N then evalJacobian0 else evalJacobianDRecursive d.

(* sm_kinematics crossMx(v), a Matrix3d *)
Definition crossMx (v : v3 F) : m3 F := fun c => cross v (unit3 F c).
(* 424-451 evalAngularDerivativeJacobian<d>: the 3 x 3k matrix *)
Definition evalAngularDerivativeJacobian (d : nat) : outcome (mat F) :=
  do q <- uq_evalD dbl one expq logq ieps norm nc np s ev d ;
  let deps := qeps q in
  do v <- uq_evalD dbl one expq logq ieps norm nc np s ev 0 ;
  let veps := qeps v in
  do dqJac <- uq_evalJacobian d ;
  let depsJac := fun c => v3_of (fun r => dqJac r c) in
  let etaDJac := fun c => dqJac 3%N c in
  do qJac <- uq_evalJacobian 0 ;
  let vepsJac := fun c => v3_of (fun r => qJac r c) in
  let etaJac := fun c => qJac 3%N c in
  Ok (fun r c =>
    vec_of3 (v3scale 2%:R
      (v3add (v3sub (v3sub (v3sub (v3add (v3scale (etaJac c) deps) (v3scale (qeta v) (depsJac c)))
                                  (v3scale (etaDJac c) veps))
                           (v3scale (qeta q) (vepsJac c)))
                    (m3app (crossMx veps) (depsJac c)))
             (m3app (crossMx deps) (vepsJac c)))) r).
End Evaluate2.

(* LieGroup.hpp:40-46 minimalDifferenceAndJacobian (the difference and the 3 x 3 Jacobian), with
   UnitQuaternionManifoldImpl.hpp:26-29 dMultL(., true) = quatOPlus, 78-87 dlogAtId =
   quatLogJacobian2 (3 x 4, a linear map on quaternions) and dexpAtId = quatExpJacobian *)
Variables (dlogAtId : quat F -> quat F -> v3 F) (dexpAtId : v3 F -> jac F).
Definition uq_minimalDifferenceAndJacobian (xHat to : quat F) : v3 F * m3 F :=
  let quot := qplus to (quatInv xHat) in
  (logq quot, fun c => dlogAtId quot (quatOPlus quot (dexpAtId (V3 0 0 0) c))).
(* LieGroupImpl.hpp:54-58 dexpInto and 98-103 dlogInto, with dCanonicalMult(p) = quatPlus(p) *)
Definition uq_dexp (p : quat F) (v : v3 F) : jac F := japp (quatPlus p) (dexpAtId v).
Definition uq_dlog (from to : quat F) (dq : quat F) : v3 F :=
  dlogAtId (qplus (quatInv from) to) (quatPlus (quatInv from) dq).
End Jacobians.
