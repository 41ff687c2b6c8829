(* Angular velocity and angular acceleration expressions of optimisable unit quaternion splines:
   aslam_splines/include/aslam/splines/implementation/OPTUnitQuaternionBSplineImpl.hpp (below:
   [UI]) and aslam_splines/include/aslam/splines/OPTUnitQuaternionBSpline.hpp.  The factories,
   the evaluator and addJac are those of OptModel.  The order d is 1 for the velocity
   ([UI] 13-57) and 2 for the acceleration ([UI] 59-108); apart from it the two nodes are the
   same text. *)
From mathcomp Require Import all_ssreflect all_algebra.
From Verif Require Import Prelude DMModel QuatModel QuatJacobianModel OptModel.
Set Implicit Arguments.
Unset Strict Implicit.
Unset Printing Implicit Defensive.
Local Open Scope ring_scope.

Section OptAng.
Variables (F : realFieldType) (T : realDomainType).
Variables (dbl : T -> F) (one : T).
(* as in QuatModel and QuatJacobianModel *)
Variables (expq : v3 F -> quat F) (logq : quat F -> v3 F) (S L : v3 F -> m3 F).
Variables (ieps : F) (norm : quat F -> F) (nc : bool) (np : nat).

(* [UI] 41-43, 93-95 evaluateImplementation *)
Definition ang_value (o : opt F T) (ev : evaluator F T) (d : nat) : outcome (vec F) :=
  do v <- evalAngularDerivative dbl one expq logq ieps norm nc np (op_sp o) ev d ;
  Ok (vec_of3 v).
(* [UI] 22-33, 73-85: dimension and pointSize are both getDimension(), that is 3 *)
Definition ang_jacobians (o : opt F T) (ev : evaluator F T) (d : nat)
  (chain : option (nat * mat F)) : outcome (seq (ptr T * mat F)) :=
  opt_blocks (fun s ev d => evalAngularDerivativeJacobian dbl one expq logq S L ieps norm nc np s ev d)
    3 3 o ev d chain.
(* the same with a time expression: [UI] 41-43, 93-95 *)
Definition ang_te_value (o : opt F T) (te : te_data F T) (t : T) (d : nat)
  : outcome (te_data F T * vec F) :=
  do ' (te', ev) <- te_getEvaluator dbl o te t ;
  do v <- ang_value o ev d ;
  Ok (te', v).
(* [UI] 22-37, 73-89: the blocks, and the column handed to the time expression, which is the
   next derivative; no zero blocks are added here *)
Definition ang_te_jacobians (o : opt F T) (te : te_data F T) (t : T) (d : nat)
  (chain : option (nat * mat F)) : outcome (te_data F T * seq (ptr T * mat F) * vec F) :=
  do ' (te', ev) <- te_getEvaluator dbl o te t ;
  do js <- ang_jacobians o ev d chain ;
  do v <- ang_value o ev d.+1 ;
  Ok (te', js, if chain is Some (_, C) then mulv 3 C v else v).
End OptAng.
