# Formal model of ethz-asl/aslam_splines — design

## Approach

* Rocq/Coq 8.16.1 with mathcomp (ssreflect, algebra) and the tactics of mathcomp-zify (`lia`)
  and algebra-tactics (`ring`, `field`).
* The code is transcribed function by function into total Gallina functions
  (`theories/*Model.v`); each definition cites file and lines.
* Every API call returns an `outcome`: `Ok v`, `Throw e` (an exception of the code) or `UB`
  (out-of-bounds access, dereferencing `end()`, use of a destroyed object, violated library
  precondition, signed overflow where it is modelled).  Stateful calls of the manifold spline
  return `mres`: `MRet s a`, `MThrow s e` (with the state left behind) or `MUB`.  `UB` is a
  distinct outcome; a theorem whose conclusion is `= Ok _` says that it is not reached.
* Specifications (`*Spec.v`) do not use helpers of the model: Cox-de Boor recursion on
  polynomials (`CoxDeBoor.v`), formal derivatives, antiderivatives, least-squares costs and
  competitors, sorted lists of (knot, point), pointer/value pairs for Jacobians.
* A property that is false is kept in `properties.jsonl`, has a theorem `..._refuted` with a
  concrete witness, and a theorem (suffix `_partial` where the English claim is narrowed) for
  the part that is true.  `MANIFEST.json` says which.

## Trusted base

* The Coq kernel (8.16.1) and its `vm_compute` machine (used in Examples and `_refuted`
  witnesses only).
* `Print Assumptions` is printed beneath every property theorem; for every one it answers
  "Closed under the global context": no axioms, neither own nor of the standard library.
  (`coqchk -o` lists in its context summary the primitive integers and floats of Coq, which
  mathcomp's libraries load; no theorem depends on them.)
* The hypotheses that appear in theorem statements in place of external code, see below.
* The faithfulness of the transcription, to be checked against the cited lines.

## Numbers

* `double` is an arbitrary ordered field `F : realFieldType`: exact arithmetic.  Rounding, NaN
  and infinities are not modelled.  Tolerances such as `1e-10`, `1e-16` are parameters (`eps`).
  Examples instantiate `F` with the rationals.
* Time types: an ordered ring `T` with a conversion `dbl : T -> F` and `one = getOne()`.
  `exact_time dbl one` says that `dbl` preserves differences and order and `0 < one`; it is
  proved for `double` time and for integer nanoseconds (`time_double_exact`,
  `time_nsec_exact`).
* Nanosecond time policy (`NsecTimePolicy.hpp`): integers with truncating division and with
  overflow of int64 as an explicit outcome in `KnotModel.v`; no overflow elsewhere.
* `int` counters and indices are unbounded; nonnegative ones are natural numbers.

## External code as parameters

| parameter / hypothesis | stands for | used in |
|---|---|---|
| `exact_solver solve` | Eigen `ldlt`, `svd`, `householderQr`, CHOLMOD: returns a solution whenever one exists; `LinSolve.pinv_exact` shows that such functions exist | C16, C17, C19, C36, C57 |
| `rot_ext`, `rot_deriv`, `rot_...` on a `rotation` record | `sm::kinematics::RotationalKinematics` (parametersToRotationMatrix, parametersToSMatrix, ...); a Cayley instance is in `PoseCayley.v` | C44, C46–C50 |
| `exp_like` on the quaternion exponential | `axisAngle2quat`, `quat2AxisAngle` | C33–C35 |
| `qplus`, `quatInv`, ... | `sm_kinematics` quaternion algebra, written down from its documentation (vector part first) | C33–C35 |
| left differentials `S`, `L` of exp and log, `dexpAtId`, `dlogAtId` (parameters of the spec, hypotheses of `C65_minimal_difference` and `C65_group_differentials`) | `expDiffMat`, `logDiffMat`, `quatExpJacobian`, `quatLogJacobian2` of `sm_kinematics` | C65 |
| `evalAt`, `junk` in `ft_extendAndFitSpline` | evaluation of the spline (instantiated by `ft_evalAt`), content of default constructed points | C37, C55–C57 |
| generator = list of delivered knots / function of the end time | `KnotGenerator` | C25, C36, C55–C57 |

JacobianContainer of aslam_optimizer is modelled as a list of (variable pointer, block) pairs,
design variables as numbered objects with a value and a stored previous value.

## What is modelled

| model file | source | not modelled there |
|---|---|---|
| `BSplineModel.v` | `bsplines/src/BSpline.cpp` (all functions except `initSplineSparse...` internals of CHOLMOD), counting functions of `BSpline.hpp` | printing, Python |
| `DMModel.v` | `DiffManifoldBSplineImpl.hpp`, `EuclideanBSplineImpl.hpp`, `DiffManifoldBSplineTools.hpp` (moveIterator), `EuclideanSpaceImpl.hpp`, `DeltaUniformKnotGenerator` | `std::map` is a sorted list, iterators are keys; `initConstantUniformSpline*` are in `KnotModel.v` |
| `KnotModel.v` | `KnotArithmetics.hpp`, `SimpleTypeTimePolicy.hpp`, `NsecTimePolicy.hpp` | |
| `IntegratorModel.v` | `NumericIntegrator.hpp`, `evalFunctorIntegralNumerically` | overflow of integer time |
| `QuadIntModel.v` | `QuadraticIntegralError.hpp` (error terms for a quadratic integral) | ownership of the terms, the overload at 80-83 that calls itself, `toErrorTermSqrt` (external: cost is the squared norm of sqrtInvR times the value), `sqrt` is a parameter |
| `CacheModel.v` | `NodeDistributedCache.hpp` | |
| `QuatModel.v` | `UnitQuaternionBSplineImpl.hpp` (values, derivatives, angular velocity), `LieGroupImpl.hpp`, `UnitQuaternionManifoldImpl.hpp` | see the list below |
| `QuatJacobianModel.v` | Jacobians of `UnitQuaternionBSplineImpl.hpp`, `minimalDifferenceAndJacobian` of `LieGroup.hpp`, `dexp`, `dlog` of `LieGroupImpl.hpp` | 3-column matrices by columns, `quatPlus`, `quatOPlus` as linear maps |
| `PoseModel.v` | `bsplines/src/BSplinePose.cpp`, value/Jacobian nodes of `BSplineExpressions.cpp` | |
| `DVModel.v` | `BSplineDesignVariable.hpp`, `BSplinePoseDesignVariable.cpp`, `BSplineExpressions.cpp/.hpp`, `BSplineMotionError.hpp` | |
| `SimpleErrModel.v` | `SimpleSplineError.hpp`, `EuclideanBSplineDesignVariable.cpp`, `BSplineExpressions.cpp` 406-441 | `setError` of `ErrorTermFs<1>` (external: assignment to a vector with one entry) |
| `RSModel.v` | `BSplineRSPoseDesignVariable.cpp`, `BSplineRSExpressions.cpp` (rolling shutter) | deletion of the two variables (the destructor is empty) |
| `OptModel.v` | `OPTBSpline.hpp`, `OPTBSplineImpl.hpp` for Euclidean splines, several living objects | |
| `OptAngModel.v` | `OPTUnitQuaternionBSplineImpl.hpp` (angular velocity and acceleration expressions) | Jacobians inside the time expression (it receives a column) |
| `FitterModel.v` | `BSplineFitterImpl.hpp` | backends differ by a flag; sparse matrices by dense content |

Simplifications common to all models:

* release build: `SM_ASSERT_*_DBG`, `SM_THROW_DBG`, `assert` are compiled out; `SM_ASSERT_*`
  are checks;
* Eigen matrices are functions on indices together with explicit sizes where the code reads
  the size; sparse matrices are modelled by their dense content;
* decrementing `begin()` of a map without dereferencing the result is harmless;
* The `householderQr` of `addCurveSegment2` is the second solver argument (`solveLdlt`) of
  `PoseModel.v` and `DVModel.v`; no theorem depends on which of the two solvers it is.
* `me_build` (motion error) treats a mismatch of block sizes as undefined (conservative).

Not modelled at all: threading, memory allocation failure, Python bindings, the CMake build,
`CovarianceReprojectionError`, the tutorial package.

## Files (rocq/theories)

* `Prelude.v` outcome monad, loops, finite sums, vectors and matrices; `LinSolve.v` a solver
  that satisfies `exact_solver`; `CoxDeBoor.v` the B-spline definition.
* `*Model.v` models; `*Spec.v` specifications; `*Proofs.v` lemmas; `*Examples.v` concrete data.
* `Props*.v` the property theorems, each closed by `exact` (or a few lines), followed by
  `Print Assumptions` and Examples with concrete data that meet the hypotheses.

| file | properties |
|---|---|
| `PropsBSplineA.v` `PropsBSplineB.v` `PropsBSplineC.v` | C01–C21 |
| `PropsBSplineD.v` | C58, C59 |
| `PropsDMA.v` | C22–C26, C31 |
| `PropsDMB.v` | C60–C62 |
| `PropsKnot.v` | C27–C29 |
| `PropsIntegrator.v` | C30, C45 |
| `PropsQuadInt.v` | C69 |
| `PropsCache.v` | C32, C63 |
| `PropsQuat.v` | C33–C35, C64 |
| `PropsQuatJac.v` | C65 |
| `PropsFitter.v` | C36, C37, C55–C57 |
| `PropsFitterU.v` | C68 |
| `PropsOpt.v` | C38, C39, C52–C54 |
| `PropsOptAng.v` | C72 |
| `PropsDV.v` | C38, C40, C42, C43, C51 |
| `PropsSimpleErr.v` | C73 |
| `PropsRS.v` | C70 |
| `PropsPose.v` | C41, C44, C46–C50 |
| `PropsPoseB.v` | C66, C67 |
| `PropsAppend2.v` | C71 |
| `PropsCount.v` | C74 |

## Mutation tests

`seeded/LOG.jsonl`: each line is one realistic wrong edit of a model definition, the claim it
breaks and the theorems whose proofs failed.
