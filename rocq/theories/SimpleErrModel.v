(* Error terms and Euclidean expressions on vector splines:
   aslam_splines/include/aslam/backend/SimpleSplineError.hpp ([SEH]) and
   aslam_splines/include/aslam/backend/implementation/SimpleSplineError.hpp ([SE]);
   aslam_splines/src/EuclideanBSplineDesignVariable.cpp ([ED]) and the node it builds,
   aslam_splines/src/BSplineExpressions.cpp:406-441 ([EX]). *)
From mathcomp Require Import all_ssreflect all_algebra.
From Verif Require Import Prelude BSplineModel PoseModel DVModel.
Set Implicit Arguments.
Unset Strict Implicit.
Unset Printing Implicit Defensive.
Import GRing.Theory.
Local Open Scope ring_scope.

Section SimpleError.
Variable F : realFieldType.
Variable eps : F.
(* spline_t::Dimension *)
Variable D : nat.

(* [SEH] 49-55: the expression (a node made by toExpression), y; _t and _splineDV are stored and
   never read.  se_dvs: the variables registered with the error term. *)
Record simple_error := SimpleError { se_node : node F; se_y : vec F; se_dvs : seq nat }.
(* [SE] 9-22 constructor: all variables of the expression (a set; listed in the order of the
   node) *)
Definition se_new (nd : node F) (y : vec F) : simple_error := SimpleError nd y (nd_dvs nd).
(* [SE] 35-42 evaluateErrorImplementation: the stored error and the returned number.  setError of
   ErrorTermFs<1> (external library) assigns to a vector with one entry ([SEH] 16); an argument
   of another size violates the precondition of the assignment. *)
Definition se_evaluateError (st : spline_dv F) (se : simple_error) : outcome (vec F * F) :=
  do v <- node_value eps D st (se_node se) ;
  let error : vec F := fun r => v r - se_y se r in
  need (D == 1)%N ;
  Ok (error, dotv D error error).
(* [SE] 46-54 evaluateJacobiansImplementation *)
Definition se_evaluateJacobians (st : spline_dv F) (se : simple_error)
  : outcome (seq (nat * mat F)) :=
  node_jacobians eps D st (se_node se).

(* [ED] 21-32 toEuclideanExpression; the constructor of the node checks nothing ([EX] 406-410) *)
Definition ed_toEuclideanExpression (st : spline_dv F) (time : F) (order : nat)
  : outcome (node F) :=
  do ptrs <- dv_getDesignVariables eps st time ;
  Ok (Node ptrs time order).
(* [ED] 35-38 toEuclidean: the result is stored in a vector with three entries *)
Definition ed_toEuclidean (st : spline_dv F) (time : F) (order : nat) : outcome (vec F) :=
  do v <- evalD eps (sd_spline st) time order ;
  need bs_dim (sd_spline st) == 3%N ;
  Ok v.
(* [EX] 417-420 evaluateImplementation *)
Definition ed_node_value (st : spline_dv F) (nd : node F) : outcome (vec F) :=
  ed_toEuclidean st (nd_time nd) (nd_order nd).
(* [EX] 422-432 evaluateJacobiansImplementation: blocks of 3 columns *)
Definition ed_node_jacobians (st : spline_dv F) (nd : node F) : outcome (seq (nat * mat F)) :=
  do ' (_v, J, _i) <- evalDAndJacobian eps (sd_spline st) (nd_time nd) (nd_order nd) ;
  add_blocks 3 (bs_order (sd_spline st) * bs_dim (sd_spline st)) J (nd_dvs nd).
End SimpleError.
