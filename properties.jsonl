{"id": "C01", "title": "Knot/coefficient/segment counts are mutually consistent", "statement": "For an order-k spline, numValidTimeSegments(numKnotsRequired(s)) = s for every s>=1, numKnotsRequired(s) = numCoefficientsRequired(s)+k, minimumKnotsRequired() is exactly the least knot count that yields a non-empty valid interval, and setKnotsAndCoefficients accepts a (knots, coefficients) pair only if the coefficient count equals the one required by the knot count.", "quantifier": "every order k>=2, every segment count, every knot vector and coefficient matrix", "why_tests_cant": "infinitely many orders and sizes; off-by-one errors appear only for particular orders", "anchors": ["bsplines/src/BSpline.cpp:numValidTimeSegments,numKnotsRequired,numCoefficientsRequired,minimumKnotsRequired,setKnotsAndCoefficients"]}
{"id": "C02", "title": "Evaluation never touches memory out of bounds on a successfully initialised spline", "statement": "After setKnotsAndCoefficients succeeded with a nondecreasing knot vector, eval/evalD/Phi/evalDAndJacobian at any time either throw (time outside [t_min,t_max]) or return a value; no out-of-range knot, coefficient column or basis matrix is read.", "quantifier": "every order, knot vector (also with repeated knots), coefficient matrix, time and derivative order", "why_tests_cant": "memory safety must hold for all knot multiplicities and all times, tests sample a few", "anchors": ["bsplines/src/BSpline.cpp:computeTIndex,computeUAndTIndex,computeU,evalD,Phi,M,d_0,d_1"]}
{"id": "C03", "title": "Segment lookup brackets the query time", "statement": "For t in [t_min,t_max] the segment used for evaluation is the knot interval [a,b) with a<=t<b (the last valid interval for t=t_max), its index lies in the valid segment range, and the normalised coordinate u lies in [0,1].", "quantifier": "every nondecreasing knot vector and every time in the valid interval", "why_tests_cant": "knots may repeat and times may coincide with knots; uncountably many cases", "anchors": ["bsplines/src/BSpline.cpp:computeTIndex,computeUAndTIndex,segmentIndex,timeInterval"]}
{"id": "C04", "title": "evalD computes the exact derivatives of the textbook B-spline curve", "statement": "evalD(t,d) equals the d-th derivative at t of the curve sum_j c_j N_{j,k}, where N_{j,k} are the B-spline basis functions defined by the Cox-de Boor recursion on the same knots (d>=k gives zero).", "quantifier": "every order k>=2, nondecreasing knots, coefficients, time in the valid interval (last valid segment at least as long as the lookup's snap distance 1e-10), every derivative order d>=0", "why_tests_cant": "the matrix recursion must agree with the Cox-de Boor definition for all orders and non-uniform knots; tests compare a handful of finite differences", "anchors": ["bsplines/src/BSpline.cpp:M,d_0,d_1,computeU,dmul,evalD,eval"]}
{"id": "C05", "title": "Local basis functions are a partition of unity and non-negative", "statement": "At every valid time the k entries of getLocalBiVector(t) are non-negative and sum to 1, so every evaluated point is a convex combination of the k local coefficients.", "quantifier": "every order, nondecreasing knots and time (last valid segment at least as long as the lookup's snap distance 1e-10)", "why_tests_cant": "needs to hold for all non-uniform knots and all times", "anchors": ["bsplines/src/BSpline.cpp:getLocalBiVector,getLocalBiInto,evalD"]}
{"id": "C06", "title": "Constant coefficients give the constant curve", "statement": "If all coefficient columns are the same vector v then eval(t)=v for every valid t and all derivatives of order >=1 vanish; in particular initConstantSpline(t0,t1,n,v) succeeds on a fresh spline, has t_min=t0, t_max=t1, n valid segments and evaluates to v everywhere.", "quantifier": "every order, segment count, interval, constant vector, time, derivative order", "why_tests_cant": "unbounded parameter space", "anchors": ["bsplines/src/BSpline.cpp:initConstantSpline,evalD"]}
{"id": "C07", "title": "Local support: a coefficient influences only its k segments", "statement": "Changing coefficient column j can change evalD(t,d) only if j is one of the indices reported by localVvCoefficientVectorIndices(t).", "quantifier": "every spline, every time and derivative order, every pair of coefficient matrices", "why_tests_cant": "a statement about all pairs of states", "anchors": ["bsplines/src/BSpline.cpp:evalD,localVvCoefficientVectorIndices,localCoefficientVectorIndices"]}
{"id": "C08", "title": "Evaluation is affine/linear in the coefficients", "statement": "evalD of a linear combination of two coefficient matrices (same knots) is the same linear combination of the evalD results; translating every coefficient by v translates the curve by v.", "quantifier": "every two coefficient matrices, scalars, times, derivative orders", "why_tests_cant": "universal algebraic law", "anchors": ["bsplines/src/BSpline.cpp:evalD,setCoefficientMatrix"]}
{"id": "C09", "title": "The Jacobian and the coefficient indices returned with a value are exact", "statement": "evalDAndJacobian(t,d) returns the same value as evalD; its Jacobian J satisfies value(c+dc)-value(c)=J*dc_local exactly for every perturbation, the returned indices are exactly the positions of the local coefficients in coefficientVector(), Phi(t,d) equals J and Phi(t,d)*localCoefficientVector(t) = evalD(t,d).", "quantifier": "every spline, time, derivative order, coefficient perturbation", "why_tests_cant": "tests use finite differences at a few points; index alignment must hold for every segment and dimension", "anchors": ["bsplines/src/BSpline.cpp:evalDAndJacobian,Phi,localCoefficientVector,localCoefficientVectorIndices,coefficientVector"]}
{"id": "C10", "title": "Coefficient accessors round-trip", "statement": "setCoefficientVector followed by coefficientVector returns the same vector; coefficientVector then setCoefficientVector leaves the spline unchanged; setLocalCoefficientVector(t,c) makes localCoefficientVector(t)=c and changes no coefficient outside the local window; wrong sizes throw and leave the spline unchanged.", "quantifier": "every spline, vector and time", "why_tests_cant": "round-trip laws over all states and inputs", "anchors": ["bsplines/src/BSpline.cpp:setCoefficientVector,coefficientVector,setLocalCoefficientVector,localCoefficientVector,segmentCoefficientVector,vvCoefficientVector"]}
{"id": "C11", "title": "setKnotsAndCoefficients rejects decreasing knot sequences", "statement": "setKnotsAndCoefficients throws, without accessing memory out of bounds, whenever the given knot sequence is not nondecreasing. (Documented contract; the code checks the wrong vector's length.)", "quantifier": "every spline state and every knot vector", "why_tests_cant": "the behaviour depends on the history of the object (number of previously stored knots), which tests on fresh objects never exercise", "anchors": ["bsplines/src/BSpline.cpp:verifyKnotSequence,setKnotsAndCoefficients"]}
{"id": "C12", "title": "The curve is C^(k-2) across simple knots", "statement": "At a knot that separates two valid segments of positive length and is a simple knot, the one-sided derivatives of order 0..k-2 computed from the left segment and by evalD at the knot agree.", "quantifier": "every order, knots, coefficients and interior knot", "why_tests_cant": "continuity at every knot for every order and non-uniform spacing", "anchors": ["bsplines/src/BSpline.cpp:evalD,M"]}
{"id": "C13", "title": "Polynomial reproduction (linear precision)", "statement": "If coefficient j is an affine function of the Greville abscissa (t_{j+1}+...+t_{j+k-1})/(k-1), the curve is that affine function of time on the whole valid interval; more generally every polynomial of degree <k is representable on every segment of positive length.", "quantifier": "every order, nondecreasing knots, affine function, time", "why_tests_cant": "universal statement over non-uniform knots", "anchors": ["bsplines/src/BSpline.cpp:evalD,M"]}
{"id": "C14", "title": "evalIntegral is the exact integral of the curve", "statement": "evalIntegral(t1,t2) equals the difference of a piecewise antiderivative of the evaluated curve between t1 and t2, is antisymmetric in its arguments and additive over adjacent intervals.", "quantifier": "every spline, every pair/triple of valid times (remainders above the code's 1e-16 threshold or zero)", "why_tests_cant": "all pairs of times across any number of segments", "anchors": ["bsplines/src/BSpline.cpp:evalIntegral,Vi"]}
{"id": "C15", "title": "Quadratic integral matrices represent the integral of the squared derivative", "statement": "c^T curveQuadraticIntegral(W,d) c equals the integral over [t_min,t_max] of (D^d curve)^T W (D^d curve); the matrix is symmetric, and positive semidefinite when W is; the Diag variants equal the full variant with W=diag; the sparse variants assemble the same matrix as the dense variants.", "quantifier": "every spline, weight matrix W, derivative order d, coefficient vector c", "why_tests_cant": "identity between matrices of unbounded size for all orders", "anchors": ["bsplines/src/BSpline.cpp:Vi,Dii,Mi,Bij,segmentQuadraticIntegral,segmentQuadraticIntegralDiag,curveQuadraticIntegral,curveQuadraticIntegralDiag,curveQuadraticIntegralSparse,curveQuadraticIntegralDiagSparse"]}
{"id": "C16", "title": "initSpline yields the straight constant-velocity segment", "statement": "On a fresh spline, initSpline(t0,t1,p0,p1) with t0<t1 succeeds, has exactly one valid segment [t0,t1], and the resulting curve is exactly the line p0+(t-t0)/(t1-t0)(p1-p0) for every t in [t0,t1], for every order, given an exact linear solver for nonsingular systems.", "quantifier": "every order k>=2, dimension, endpoints, interval", "why_tests_cant": "solvability and exactness of the Hermite system must hold for every order (even and odd)", "anchors": ["bsplines/src/BSpline.cpp:initSpline"]}
{"id": "C17", "title": "addCurveSegment extends the curve and interpolates both ends of the new segment", "statement": "addCurveSegment(t,p) with t>t_max adds exactly one valid segment ending at t_max'=t; the new curve takes the old end value at the old t_max and p at t, coefficients other than the last two are untouched, and the curve on segments not using those two coefficients is unchanged.", "quantifier": "every order>=3 spline state with admissible knots, every t>t_max, every p", "why_tests_cant": "depends on arbitrary histories of append operations", "anchors": ["bsplines/src/BSpline.cpp:addCurveSegment"]}
{"id": "C18", "title": "removeCurveSegment leaves the remaining curve unchanged", "statement": "After removeCurveSegment() the spline evaluates to the same values as before on its remaining valid interval. (Documented intent; the stored basis matrices are not shifted.)", "quantifier": "every spline and every time in the remaining interval", "why_tests_cant": "only visible for non-uniform knots and order>=3, tests use uniform knots", "anchors": ["bsplines/src/BSpline.cpp:removeCurveSegment"]}
{"id": "C19", "title": "Least-squares fitting returns the minimiser", "statement": "The coefficients computed by initSpline3/initSplineSparse/initSplineSparseKnots minimise sum_i |curve(t_i)-p_i|^2 + lambda*integral of the squared second (first for order 2) derivative over all coefficient vectors on the same knots, whenever lambda>=0 and the linear solver returns a solution of the assembled system; the sparse and dense variants assemble the same system.", "quantifier": "every order, data set, number of segments, lambda>=0, every competitor coefficient vector", "why_tests_cant": "optimality is a statement about all competitors", "anchors": ["bsplines/src/BSpline.cpp:initSpline2,initSpline3,initSplineSparse,initSplineSparseKnots"]}
{"id": "C20", "title": "Cumulative basis values are the suffix sums", "statement": "getLocalCumulativeBiVector(t)[i] equals the sum of local basis values i..k-1 (with first entry 1), is non-increasing in i and lies in [0,1].", "quantifier": "every order, knots, time", "why_tests_cant": "in-place accumulation loop must be right for every order", "anchors": ["bsplines/src/BSpline.cpp:getLocalCumulativeBiVector"]}
{"id": "C21", "title": "getBiVector lists the basis value of every coefficient", "statement": "getBiVector(t)(j) equals the weight with which coefficient j enters eval(t), for every coefficient j of the spline. (The returned vector has only as many entries as there are valid segments.)", "quantifier": "every spline, time, coefficient index", "why_tests_cant": "truncation only shows for late times", "anchors": ["bsplines/include/bsplines/BSpline.hpp:BiVector,getBiVector,getCumulativeBiVector"]}
{"id": "C22", "title": "The manifold spline's segment structure is consistent with its knots", "statement": "After adding n>=2k distinct knots in any order and calling init(), the number of valid segments is n-2k+1, the number of control vertices n-k (those participating), getMinTime/getMaxTime are the k-th smallest and k-th largest knot, and calls that need the other construction state throw and change nothing.", "quantifier": "every order, every sequence (order of insertion, duplicates) of addKnot/addControlVertex calls", "why_tests_cant": "histories of calls; insertion order and duplicates", "anchors": ["bsplines/include/bsplines/implementation/DiffManifoldBSplineImpl.hpp:addKnot,addControlVertex,init,initIterators,assertEvaluable,assertConstructing,getNumValidTimeSegments,getMinTime,getMaxTime"]}
{"id": "C23", "title": "getSegmentIterator brackets the query time", "statement": "For a time inside [min,max] getEvaluatorAt picks the segment whose knot is the greatest knot <= t among the valid ones, and outside that interval it throws; the k relevant control vertices are the k knots ending at that one.", "quantifier": "every spline history and time", "why_tests_cant": "all knots, all times, including both boundaries", "anchors": ["bsplines/include/bsplines/implementation/DiffManifoldBSplineImpl.hpp:getSegmentIterator,getFirstRelevantSegmentByLast,getFirstRelevantSegmentByLast,Evaluator"]}
{"id": "C24", "title": "Euclidean manifold spline and matrix spline agree", "statement": "A EuclideanBSpline and a BSpline with the same knots and coefficients return the same value for every time and derivative order; the generic Lie-group evaluation on a Euclidean space equals the direct linear combination.", "quantifier": "every order, knots, control vertices, time, derivative order", "why_tests_cant": "two implementations, all inputs", "anchors": ["bsplines/include/bsplines/implementation/DiffManifoldBSplineImpl.hpp:M,computeLocalBiInto,computeLocalCumulativeBiInto,evalGeneric", "bsplines/include/bsplines/implementation/EuclideanBSplineImpl.hpp:evalD"]}
{"id": "C25", "title": "Appending segments equals constructing the longer spline", "statement": "appendSegments with knots later than all existing ones gives the same knots, valid interval and curve as constructing the spline with all knots at once; the curve on the old interval does not change as long as the control vertices are kept.", "quantifier": "every spline, every number of appended segments, every increasing knot generator", "why_tests_cant": "histories of appends of any length", "anchors": ["bsplines/include/bsplines/implementation/DiffManifoldBSplineImpl.hpp:appendSegments,appendSegmentsUniformly,initializeBasisMatrices"]}
{"id": "C26", "title": "Control vertices set and local coefficient get/set round-trip on the manifold spline", "statement": "setControlVertices stores the i-th point in the i-th segment in time order and throws when the count does not match; setLocalCoefficientVector followed by getLocalCoefficientVector returns the same vector; manipulateControlVertices visits each control vertex exactly once in order.", "quantifier": "every spline and point sequence", "why_tests_cant": "all sizes and histories", "anchors": ["bsplines/include/bsplines/implementation/DiffManifoldBSplineImpl.hpp:setControlVertices,manipulateControlVertices,setLocalCoefficientVector,getLocalCoefficientVector"]}
{"id": "C27", "title": "Uniform knot generators deliver exactly the required knots", "statement": "IntervalUniformKnotGenerator(order, tmin, tmax, n) yields exactly getNumKnotsRequired(n,order) strictly increasing knots, the (order)-th equals tmin and the (order)-th from the end equals tmax; DeltaUniformKnotGenerator yields knots with constant spacing covering the requested interval.", "quantifier": "every order, interval and segment count (floating-point times modelled exactly)", "why_tests_cant": "unbounded parameter space", "anchors": ["bsplines/include/bsplines/KnotArithmetics.hpp:UniformTimeCalculator,IntervalUniformKnotGenerator,DeltaUniformKnotGenerator,getNumKnotsRequired"]}
{"id": "C28", "title": "Knot index resolver inverts the uniform knot generator", "statement": "For every time t in the interval, the resolver returned by the uniform knot generator reports the index of the segment that the spline itself would use for t. (Fails for integer nanosecond times when the duration is not divisible by the segment count.)", "quantifier": "every interval, segment count and time, for real-valued and for 64-bit integer time", "why_tests_cant": "rounding of integer division depends on number theory of duration and segment count", "anchors": ["bsplines/include/bsplines/KnotArithmetics.hpp:UniformTimeCalculator,getKnotIndexAtTime", "bsplines/include/bsplines/SimpleTypeTimePolicy.hpp:linearlyInterpolate,getSegmentNumber", "bsplines/include/bsplines/NsecTimePolicy.hpp"]}
{"id": "C29", "title": "Integer time interpolation yields strictly increasing knots iff the duration suffices", "statement": "With integer nanosecond time, the interpolated knots are strictly increasing for every segment count not exceeding the duration in nanoseconds, start exactly at tmin and end exactly at tmax, and each differs from the exact rational position by less than 1ns.", "quantifier": "every int64-representable interval without overflow and segment count", "why_tests_cant": "all integer pairs; truncation direction matters for negative positions", "anchors": ["bsplines/include/bsplines/SimpleTypeTimePolicy.hpp:linearlyInterpolate"]}
{"id": "C30", "title": "Fixed-step integrators have exact degrees", "statement": "The Simpson integrator integrates every polynomial of degree <=3 exactly and the trapezoid integrator every polynomial of degree <=1, for every number of points; the point count is rounded up to an odd number for Simpson; weights sum to the interval length; the sampled points lie in [a,b], starting at a and ending at b.", "quantifier": "every interval, point count, polynomial", "why_tests_cant": "universally quantified polynomials and point counts", "anchors": ["bsplines/include/bsplines/NumericIntegrator.hpp:FixStepSizeIntegrator,SimpsonAlgorithm,TrapezoidAlgorithm,integrateFunctor"]}
{"id": "C31", "title": "Iterator movement is clamped", "statement": "getMovedIterator(start, limit, steps) moves by exactly min(steps, distance to the limit) positions in the direction of the sign of steps and never passes the limit.", "quantifier": "every list, start, limit, step count (positive or negative)", "why_tests_cant": "all sizes", "anchors": ["bsplines/include/bsplines/DiffManifoldBSplineTools.hpp:moveIterator,getMovedIterator"]}
{"id": "C32", "title": "Node cache slots are unique and cached values are fresh", "statement": "Two live cache slots never share an index; a value read through a slot is one that was stored through the same slot. (A freed and re-used slot index still sees the entries of the previous owner.)", "quantifier": "every sequence of slot registrations, frees, stores and reads", "why_tests_cant": "histories of slot lifetimes", "anchors": ["bsplines/include/bsplines/NodeDistributedCache.hpp:getNextFreeIndex,freeIndex,accessNodeCache"]}
{"id": "C33", "title": "Quaternion spline stays on the unit sphere", "statement": "Every value of a unit-quaternion spline is a product of unit quaternions and hence has unit norm, provided the control vertices have unit norm and exp maps tangent vectors to unit quaternions.", "quantifier": "every order, knots, unit control vertices and time", "why_tests_cant": "all inputs", "anchors": ["bsplines/include/bsplines/implementation/DiffManifoldBSplineImpl.hpp:evalGeneric", "bsplines/include/bsplines/implementation/UnitQuaternionBSplineImpl.hpp:evalRiD,getRiQuaternionProduct"]}
{"id": "C34", "title": "Quaternion spline derivatives obey the Leibniz rule with exact integer coefficients", "statement": "The recursive expansion used for the d-th derivative of the product R_0 R_1 ... R_{k-1} equals the d-th derivative of the product, i.e. the integer factor factorial(d)/prod(factorial(d_i)) is computed without truncation at every recursion step.", "quantifier": "every number of factors, every derivative order", "why_tests_cant": "all compositions of d", "anchors": ["bsplines/include/bsplines/implementation/UnitQuaternionBSplineImpl.hpp:evalDRecursiveProductRest,factorial"]}
{"id": "C35", "title": "Angular velocity/acceleration formulas", "statement": "evalAngularDerivative<1..3> computed from the quaternion derivatives equals twice the vector part of the derivatives of (dq/dt) * conj(q) for every unit-norm quaternion curve.", "quantifier": "every smooth unit quaternion curve (jets of order 3)", "why_tests_cant": "identity over all quaternion jets", "anchors": ["bsplines/include/bsplines/implementation/UnitQuaternionBSplineImpl.hpp:evalAngularDerivative"]}
{"id": "C36", "title": "Fitter solves the regularised least-squares problem and honours fixed vertices", "statement": "calcFittedControlVertices returns control vertices that minimise the weighted squared residual plus lambda times the squared-derivative integral among all vertex sets that agree with the existing ones on the vertices declared fixed, provided the solver solves the assembled normal equations.", "quantifier": "every knots, times, points, weights, lambda, number of fixed vertices", "why_tests_cant": "optimality over all competitors", "anchors": ["bsplines/include/bsplines/implementation/BSplineFitterImpl.hpp:calcFittedControlVertices,addCurveQuadraticIntegralDiagTo,addOrSetSegmentQuadraticIntegralDiag"]}
{"id": "C37", "title": "extendAndFitSpline passes equally many times, points and weights to the fit", "statement": "For every spline and every batch of new measurements, the times, points and weights handed to the final fit have the same length. (In release builds this fails if the first new time lies in the first segments.)", "quantifier": "every spline and measurement batch", "why_tests_cant": "depends on where the first new time lies relative to the old knots", "anchors": ["bsplines/include/bsplines/implementation/BSplineFitterImpl.hpp:extendAndFitSpline,getNumberOfRelevantControlVertices"]}
{"id": "C38", "title": "Design variables and Jacobian blocks are aligned", "statement": "The i-th design variable returned for a time is the control vertex that the i-th Jacobian block refers to; design variables returned by designVariable(i) are the i-th coefficient; updating a design variable by dp changes the expression value by exactly Jacobian block times dp for Euclidean splines.", "quantifier": "every spline, time, derivative order, update", "why_tests_cant": "all segments and times", "anchors": ["aslam_splines/include/aslam/splines/implementation/OPTBSplineImpl.hpp:getDesignVariables,updateDesignVariablesVector,getValueExpression", "aslam_splines/include/aslam/splines/implementation/BSplineDesignVariable.hpp:toExpression,getDesignVariables", "aslam_splines/src/BSplineExpressions.cpp"]}
{"id": "C39", "title": "Design variable update/revert", "statement": "revertUpdate after update restores the control vertex exactly, for any number of update/revert pairs in the optimiser's protocol (each update followed by at most one revert).", "quantifier": "every control vertex, every sequence of update / revert pairs", "why_tests_cant": "histories of optimiser steps", "anchors": ["aslam_splines/include/aslam/splines/OPTBSpline.hpp:updateImplementation,revertUpdateImplementation,setParametersImplementation"]}
{"id": "C40", "title": "Design variable set stays in step with the spline through add/remove", "statement": "After any sequence of addSegment/addSegment2/removeSegment calls the number of design variables equals the number of vector-valued coefficients and the i-th variable maps coefficient i.", "quantifier": "every sequence of add/remove operations", "why_tests_cant": "histories", "anchors": ["aslam_splines/include/aslam/splines/implementation/BSplineDesignVariable.hpp:addSegment,removeSegment", "aslam_splines/src/BSplinePoseDesignVariable.cpp"]}
{"id": "C41", "title": "Body-frame acceleration expression's Jacobian is the derivative of its value", "statement": "The Jacobian reported by the body-frame linear acceleration expression equals the derivative of the value it reports with respect to the spline coefficients. (The code reports the world-frame Jacobian.)", "quantifier": "every pose spline and time", "why_tests_cant": "needs a nontrivial orientation; a test at identity orientation passes", "anchors": ["aslam_splines/src/BSplineExpressions.cpp:BSplineAccelerationBodyFrameExpressionNode"]}
{"id": "C42", "title": "Time-offset expressions register every coefficient they can touch", "statement": "For every observation time accepted by the time-offset transformation expression (inside its buffer), the coefficients used for evaluation and Jacobians are among the design variables it registered, and the Jacobian blocks are attributed to the right coefficients.", "quantifier": "every spline, initial time, buffers and later observation time", "why_tests_cant": "the time moves during optimisation; all reachable times matter", "anchors": ["aslam_splines/src/BSplineExpressions.cpp:TransformationTimeOffsetExpressionNode"]}
{"id": "C43", "title": "Motion error term is the quadratic form with consistent gradient and Hessian", "statement": "evaluateError returns c^T Q c >= 0 for PSD W; the Hessian and right-hand side contributed by buildHessian make the Newton step exact: c+dx minimises the term's quadratic model, rhs = -Q c, and only active design variables contribute.", "quantifier": "every spline, W, active/inactive pattern, coefficients", "why_tests_cant": "all activation patterns", "anchors": ["aslam_splines/include/aslam/backend/implementation/BSplineMotionError.hpp:initialize,evaluateErrorImplementation,buildHessianImplementation,rhs"]}
{"id": "C44", "title": "Pose spline transformations and their inverses are consistent", "statement": "transformation(t) * inverseTransformation(t) is the identity, and transforming a curve value to a 4x4 matrix and back is the identity when the rotation parameterisation round-trips.", "quantifier": "every pose spline and time; every rotation parameterisation returning orthonormal matrices", "why_tests_cant": "all rotations", "anchors": ["bsplines/src/BSplinePose.cpp:transformation,inverseTransformation,curveValueToTransformation,transformationToCurveValue"]}
{"id": "C45", "title": "Numeric integration over spline times", "statement": "evalFunctorIntegralNumerically integrates polynomials of degree <=3 exactly for either order of the bounds, for floating point and for integer time types, and swapping the bounds negates the result.", "quantifier": "every pair of bounds, point count >= 2, polynomial integrand and time type", "why_tests_cant": "universally quantified polynomials, bounds and point counts", "anchors": ["bsplines/include/bsplines/implementation/DiffManifoldBSplineImpl.hpp:evalFunctorIntegralNumerically", "bsplines/include/bsplines/NumericIntegrator.hpp:FixStepSizeIntegrator,integrateFunctor"]}
{"id": "C46", "title": "Pose spline Jacobians are derivatives of the pose", "statement": "The Jacobians returned by orientationAndJacobian, inverseOrientationAndJacobian, transformationAndJacobian, inverseTransformationAndJacobian and transformVectorAndJacobian are, column by column, the derivatives of the returned value with respect to the coefficients named by the returned indices, and the returned value is the one of the plain function.", "quantifier": "every pose spline, time in the valid range, direction of change; every proper differentiable rotation parameterisation", "why_tests_cant": "all rotations and all directions; finite differences sample", "anchors": ["bsplines/src/BSplinePose.cpp:orientationAndJacobian,inverseOrientationAndJacobian,transformationAndJacobian,inverseTransformationAndJacobian,transformVectorAndJacobian"]}
{"id": "C47", "title": "Body-frame angular velocity and acceleration Jacobians", "statement": "The Jacobians of angularVelocityBodyFrameAndJacobian and angularAccelerationBodyFrameAndJacobian are the derivatives of the values returned by angularVelocityBodyFrame and angularAccelerationBodyFrame.", "quantifier": "every pose spline, time, direction", "why_tests_cant": "all rotations", "anchors": ["bsplines/src/BSplinePose.cpp:angularVelocityBodyFrameAndJacobian,angularAccelerationBodyFrameAndJacobian"]}
{"id": "C48", "title": "angularVelocityAndJacobian returns the angular velocity", "statement": "The value returned by angularVelocityAndJacobian equals angularVelocity. (The code returns the opposite sign.)", "quantifier": "every pose spline and time", "why_tests_cant": "the pair is never compared", "anchors": ["bsplines/src/BSplinePose.cpp:angularVelocity,angularVelocityAndJacobian"]}
{"id": "C49", "title": "Pose spline kinematics", "statement": "Inside every knot interval linearVelocity is the time derivative of position, linearAcceleration that of linearVelocity, and the orientation changes by the cross product with angularVelocity (world frame) respectively by right multiplication with the cross matrix of angularVelocityBodyFrame.", "quantifier": "every pose spline, knot interval, interior time, rotation parameterisation", "why_tests_cant": "derivatives at all times", "anchors": ["bsplines/src/BSplinePose.cpp:position,linearVelocity,linearAcceleration,orientation,angularVelocity,angularVelocityBodyFrame"]}
{"id": "C50", "title": "Body-frame angular acceleration is the derivative of the angular velocity", "statement": "angularAccelerationBodyFrame is the time derivative of angularVelocityBodyFrame. (The code drops the term from the change of the S matrix.)", "quantifier": "every pose spline and interior time", "why_tests_cant": "needs a moving rotation parameter", "anchors": ["bsplines/src/BSplinePose.cpp:angularAccelerationBodyFrame,angularVelocityBodyFrame"]}
{"id": "C51", "title": "Expressions survive appended segments", "statement": "An expression created for a time of the curve before segments are appended to the spline still hands its Jacobian blocks to the variables that determine its value afterwards.", "quantifier": "every spline, every time of the curve, every sequence of addSegment / addSegment2 calls after the expression was built", "why_tests_cant": "histories, and the boundary case at the old end of the curve", "anchors": ["aslam_splines/include/aslam/splines/implementation/BSplineDesignVariable.hpp:addSegment,toExpression", "aslam_splines/include/aslam/splines/implementation/BSplineExpressions.hpp"]}
{"id": "C52", "title": "Design variables of an OPTBSpline are its own control vertices after every construction", "statement": "After every way of constructing and initialising an OPTBSpline (addKnot/addControlVertex and init, initConstantSpline, initWithKnots, initWithKnotsAndControlVertices, appendSegments, copy, assignment) it has one design variable per control vertex and designVariable(i) is its own vertex i.", "quantifier": "every history of construction calls on any number of splines", "why_tests_cant": "all histories; non-virtual init and implicit operator= bypass the bookkeeping", "anchors": ["aslam_splines/include/aslam/splines/implementation/OPTBSplineImpl.hpp:init,updateDesignVariablesVector,appendSegments", "aslam_splines/include/aslam/splines/OPTBSpline.hpp:copy constructor", "bsplines/include/bsplines/implementation/DiffManifoldBSplineImpl.hpp:initWithKnots,initWithKnotsAndControlVertices"]}
{"id": "C53", "title": "Design variables of a living spline can be updated", "statement": "As long as an OPTBSpline exists, each of its design variables can be updated, whatever happened to other splines (no access to freed memory).", "quantifier": "every history of construction, copies, destruction and updates", "why_tests_cant": "object lifetimes", "anchors": ["aslam_splines/include/aslam/splines/OPTBSpline.hpp:SegmentData,updateImplementation"]}
{"id": "C54", "title": "Expressions with a time expression use the current time", "statement": "The value of getExpressionFactoryAt with a time expression equals the spline at the current value of the time expression, its Jacobians name exactly the registered variables and predict the change of the value, and times outside the declared bounds throw.", "quantifier": "every spline, bounds, sequence of times", "why_tests_cant": "depends on which time was evaluated before", "anchors": ["aslam_splines/include/aslam/splines/implementation/OPTBSplineImpl.hpp:TimeExpressionFactoryData::getEvaluator,makeSureForEveryDesignVariableAJacobianGetsAdded,evaluateJacobiansImplementation"]}
{"id": "C55", "title": "extendAndFitSpline accepts every batch that fitSpline accepts", "statement": "A batch of measurements whose times lie in the valid interval of the spline is accepted by extendAndFitSpline for every honorCurrentValuePercentage in [0, 100].", "quantifier": "every spline and batch, every percentage", "why_tests_cant": "depends on the position of the last time relative to the old end", "anchors": ["bsplines/include/bsplines/implementation/BSplineFitterImpl.hpp:extendAndFitSpline,getNumberOfRelevantControlVertices,fitSpline"]}
{"id": "C56", "title": "honorCurrentValuePercentage = 100 keeps the old curve", "statement": "If extendAndFitSpline with honorCurrentValuePercentage = 100 returns, value and derivatives of the curve before the old end of the valid interval are unchanged.", "quantifier": "every spline, generator, batch, lambda and time before the old end", "why_tests_cant": "locality and bookkeeping of the fixed vertices for all sizes", "anchors": ["bsplines/include/bsplines/implementation/BSplineFitterImpl.hpp:extendAndFitSpline,getNumberOfRelevantControlVertices,fitSpline"]}
{"id": "C57", "title": "extendAndFitSpline is a weighted least-squares fit", "statement": "The result of extendAndFitSpline is optimal for the new data (weight 1) and the old curve at the relevant old knots (weight h/(100-h)) over all changes of the relevant vertices; for h = 0 for the new data alone.", "quantifier": "every spline, generator, batch, lambda, percentage", "why_tests_cant": "optimality over all competitors", "anchors": ["bsplines/include/bsplines/implementation/BSplineFitterImpl.hpp:extendAndFitSpline,getNumberOfRelevantControlVertices,fitSpline"]}
{"id": "C58", "title": "Views of the coefficients agree", "statement": "The coefficient vector of segment i holds columns i..i+k-1 of the coefficient matrix; the index lists of segment i address the same numbers in the complete coefficient vector; the views by time (local*) equal the views of the segment containing the time; segment time intervals tile [t_min, t_max]; out-of-range segments throw; writing one vertex or the whole matrix changes exactly that.", "quantifier": "every spline, segment, time and vertex", "why_tests_cant": "index arithmetic for all orders, dimensions and sizes", "anchors": ["bsplines/src/BSpline.cpp:segmentCoefficientVector,segmentCoefficientVectorIndices,segmentVvCoefficientVectorIndices,localCoefficientVector,localCoefficientMatrix,vvCoefficientVector,timeInterval,setCoefficientMatrix"]}
{"id": "C59", "title": "Matrix form of the spline", "statement": "eval D(t,d) = U(t,d)^T M_i c with c the local coefficient vector, U(t,d+1) = D_i^T U(t,d), M_i is built from the basis matrix of the segment, and column j of the basis matrix is the Cox-de Boor basis function of vertex i+j.", "quantifier": "every spline, time of the valid interval, derivative order", "why_tests_cant": "block bookkeeping for all orders and dimensions", "anchors": ["bsplines/src/BSpline.cpp:U,u,Mi,Di,Dii,Bij,basisMatrix"]}
{"id": "C60", "title": "Integral of a Euclidean manifold spline", "statement": "evalIntegral(t1,t2) equals G(t2)-G(t1) for every antiderivative G of the curve over seconds, in either order of the times; a time outside the valid interval throws.", "quantifier": "every spline, pair of times, threshold", "why_tests_cant": "exact integral of a piecewise polynomial for all knots, orders and times", "anchors": ["bsplines/include/bsplines/implementation/EuclideanBSplineImpl.hpp:evalIntegral"]}
{"id": "C61", "title": "Uniform appending and construction by knot distance", "statement": "appendSegmentsUniformly appends knots at the distance of the last knot interval and equals appendSegments with these knots; initConstantUniformSplineWithKnotDelta builds a constant spline with the requested knot distance that covers the requested time.", "quantifier": "every spline, number of segments, knot distance", "why_tests_cant": "all sizes and distances", "anchors": ["bsplines/include/bsplines/implementation/DiffManifoldBSplineImpl.hpp:appendSegmentsUniformly,initConstantUniformSplineWithKnotDelta"]}
{"id": "C62", "title": "Generator with predefined knots", "statement": "DeltaFreeKnotGenerator accepts exactly the predefined knots later than all earlier ones; delivers a strictly increasing sequence in every history of calls; every predefined knot between the last knot and the end is delivered; extendBeyondTime always returns or throws.", "quantifier": "every history of calls", "why_tests_cant": "arbitrary interleavings of the three calls", "anchors": ["bsplines/include/bsplines/KnotArithmetics.hpp:DeltaFreeKnotGenerator"]}
{"id": "C63", "title": "Nodes can be destroyed", "statement": "Destroying a node of the node cache is defined behaviour after every history of cache operations.", "quantifier": "every history", "why_tests_cant": "undefined behaviour usually goes unnoticed", "anchors": ["bsplines/include/bsplines/NodeDistributedCache.hpp:PerNodeCache"]}
{"id": "C64", "title": "Operations of the unit quaternion manifold", "statement": "projectIntoManifold yields the unit quaternion in the same direction; update multiplies the exponential from the left and stays on the manifold; minimalDifference inverts update, log inverts exp.", "quantifier": "every quaternion and tangent vector", "why_tests_cant": "all quaternions", "anchors": ["bsplines/include/bsplines/manifolds/implementation/UnitQuaternionManifoldImpl.hpp", "bsplines/include/bsplines/manifolds/LieGroup.hpp", "bsplines/include/bsplines/manifolds/implementation/LieGroupImpl.hpp"]}
{"id": "C65", "title": "Jacobians of unit quaternion splines", "statement": "If every control vertex of the segment is moved to exp(e delta_j) P_j, the Jacobians returned by evalJacobian (derivatives 0 to 2) and evalAngularDerivativeJacobian (1, 2), applied to the stacked delta_j, are the first order changes of the derivatives and angular derivatives of the curve; higher orders throw. minimalDifferenceAndJacobian, dexp and dlog are the differentials of minimalDifference, exp and log.", "quantifier": "every spline built by public calls with unit control vertices, every order, time and perturbation", "why_tests_cant": "all control vertices, orders, times and directions", "anchors": ["bsplines/include/bsplines/implementation/UnitQuaternionBSplineImpl.hpp", "bsplines/include/bsplines/manifolds/LieGroup.hpp", "bsplines/include/bsplines/manifolds/implementation/LieGroupImpl.hpp"]}
{"id": "C66", "title": "Pose splines constructed from poses", "statement": "initPoseSpline gives one segment with the two poses at its ends and constant linear velocity in between; addPoseSegment appends one segment that ends in the given pose and keeps the pose at the old end.", "quantifier": "every order, spline and pair of poses the rotation parameterisation represents", "why_tests_cant": "all poses, orders and times", "anchors": ["bsplines/src/BSplinePose.cpp"]}
{"id": "C67", "title": "Linear velocity and acceleration in the body frame", "statement": "Turning the body-frame velocity and acceleration by the orientation gives the world-frame ones; the body-frame velocity changes by the body-frame acceleration minus angular velocity cross velocity; linearAccelerationAndJacobian returns the linear acceleration and its derivative with respect to the coefficients.", "quantifier": "every pose spline and time", "why_tests_cant": "all coefficients and times", "anchors": ["bsplines/src/BSplinePose.cpp"]}
{"id": "C68", "title": "Fitting constructors on uniform knots", "statement": "initUniformSpline and initUniformSplineWithKnotDelta build a spline on evenly spaced knots whose control vertices minimise the regularised least-squares cost for the given time/point pairs; wrong arguments are rejected and leave the spline unchanged.", "quantifier": "all orders, segment counts, knot distances, data sets and time types", "why_tests_cant": "all data sets; the knot index of every datum must match the segment the evaluation uses", "anchors": ["bsplines/include/bsplines/implementation/BSplineFitterImpl.hpp:initUniformSpline", "bsplines/include/bsplines/implementation/BSplineFitterImpl.hpp:initUniformSplineWithKnotDelta"]}
{"id": "C69", "title": "Quadratic integrals as error terms", "statement": "addQuadraticIntegralErrorTerms adds one error term per integration point with the weight of the composite rule, so that the added cost is the numeric integral of the weighted squared error; for expressions whose weighted squared error is a polynomial of degree at most 3 (Simpson) or 1 (trapezoids) it is the exact integral. Equal bounds add nothing.", "quantifier": "all expressions, weights, intervals, point counts and earlier terms", "why_tests_cant": "all expressions and point counts; weights enter through their square roots", "anchors": ["aslam_splines/include/aslam/backend/QuadraticIntegralError.hpp", "bsplines/include/bsplines/NumericIntegrator.hpp"]}
{"id": "C70", "title": "Rolling shutter transformation expression", "statement": "The transformation expression of a line with start time t0 and line number l is the pose at t0 + l times the line delay; the blocks handed to the control vertices and to the line delay are its derivatives, and every variable that gets a block is among the variables the node reported when the error term was built. The design variables are the control vertices in order followed by the line delay.", "quantifier": "every pose spline, line, start time, line delay and sequence of updates", "why_tests_cant": "all splines and times; the active control vertices change with the optimised line delay", "anchors": ["aslam_splines/src/BSplineRSExpressions.cpp", "aslam_splines/src/BSplineRSPoseDesignVariable.cpp"]}
{"id": "C71", "title": "Appending a segment with an acceleration penalty", "statement": "addCurveSegment2 and addPoseSegment2 append one knot interval ending at t, keep all earlier control vertices, and choose the last two control vertices as the unique minimiser of the squared distances to the old end value and the new point plus lambda squared times the squared accelerations; the curve interpolates the old end and the new point, as the header documents.", "quantifier": "every spline, order, dimension, new time, point or pose, and lambda", "why_tests_cant": "optimality and uniqueness over all control vertices, all orders and knots", "anchors": ["bsplines/src/BSpline.cpp", "bsplines/src/BSplinePose.cpp", "bsplines/include/bsplines/BSpline.hpp"]}
{"id": "C72", "title": "Angular velocity and acceleration expressions", "statement": "The angular velocity and angular acceleration expressions of an optimisable unit quaternion spline evaluate to the body rate of the curve and its derivative; they name exactly the variables of the segment, hand each of them the derivative with respect to its minimal perturbation, multiplied by the chain rule matrix if there is one, and hand a time expression the next derivative.", "quantifier": "every spline object reached by public calls, order at least 2, time of the valid interval, chain rule matrix, exponential and logarithm", "why_tests_cant": "all splines, times and perturbations; finite difference tests sample a few", "anchors": ["aslam_splines/include/aslam/splines/OPTUnitQuaternionBSpline.hpp", "aslam_splines/include/aslam/splines/implementation/OPTUnitQuaternionBSplineImpl.hpp"]}
{"id": "C73", "title": "Simple spline error term and Euclidean spline expressions", "statement": "SimpleSplineError stores curve minus y as its error and returns its squared norm for every spline dimension; the blocks it hands to its registered variables are the derivative of the error. toEuclideanExpression of a three-dimensional spline has the value of toEuclidean and hands its variables the derivative of that value.", "quantifier": "every spline, time, derivative order, target y, and update of any variable", "why_tests_cant": "all splines, times and updates; the tests use one dimension and a few points", "anchors": ["aslam_splines/include/aslam/backend/SimpleSplineError.hpp", "aslam_splines/include/aslam/backend/implementation/SimpleSplineError.hpp", "aslam_splines/src/EuclideanBSplineDesignVariable.cpp", "aslam_splines/src/BSplineExpressions.cpp"]}
{"id": "C74", "title": "Counting functions", "statement": "The number of derivative vectors an evaluator prepares is at most the order plus one. The maps between basis matrix indices and starting knot indices are inverse to each other on the valid segments, and basis matrix b belongs to the segment it is mapped to. The number of integration points an integrator reports is the number of points it visits.", "quantifier": "every order, template argument, spline, index, rule and requested number of points", "why_tests_cant": "all orders and sizes; the functions are only used indirectly", "anchors": ["bsplines/include/bsplines/DiffManifoldBSpline.hpp", "bsplines/src/BSpline.cpp", "bsplines/include/bsplines/NumericIntegrator.hpp"]}
