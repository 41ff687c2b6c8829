(* Model of the rolling shutter design variable and its transformation expression:
   aslam_splines/src/BSplineRSPoseDesignVariable.cpp   [RDV]
   aslam_splines/src/BSplineRSExpressions.cpp          [REX]
   The two objects made with new in the constructor are never deleted; memory is not modelled.
   No proofs in this file. *)
From mathcomp Require Import all_ssreflect all_algebra.
From Verif Require Import Prelude BSplineModel PoseModel DVModel.
Set Implicit Arguments.
Unset Strict Implicit.
Unset Printing Implicit Defensive.
Import GRing.Theory Num.Theory.
Local Open Scope ring_scope.

Section RS.
Variable F : realFieldType.
Variable eps : F.
Variable R : rotation F.

(* a DesignVariable *: a variable of the pose spline (its address) or the line delay *)
Inductive rs_ptr := PoseVar of nat | DelayVar.

(* BSplineRSPoseDesignVariable.hpp: data members _bsplinePoseDV, value of _lineDelayDV,
   _bsplinePose (a copy that is never updated) *)
Record rs_dv := RSDV { rs_pose : spline_dv F; rs_delay : F; rs_copy : bspline F }.

(* [RDV] 14-24 constructor *)
Definition rs_new (s : bspline F) (lineDelay : F) : outcome rs_dv :=
  do st <- dv_new 6 s ; Ok (RSDV st lineDelay s).
(* [RDV] 43-46 numDesignVariables *)
Definition rs_numDesignVariables (o : rs_dv) : nat := (size (sd_dvs (rs_pose o))).+1.
(* [RDV] 48-56 designVariable(i) *)
Definition rs_designVariable (o : rs_dv) (i : nat) : outcome rs_ptr :=
  assert (i < rs_numDesignVariables o)%N raise ExnRuntime ;
  if i == (rs_numDesignVariables o).-1 then Ok DelayVar
  else do d <- dv_designVariable (rs_pose o) i ; Ok (PoseVar (md_id d)).
(* [RDV] 58-61 getActiveDesignVariableIndices *)
Definition rs_activeIndices (o : rs_dv) (tk : F) : outcome (seq nat) :=
  localVvCoefficientVectorIndices eps (rs_copy o) tk.
(* update of a variable through its pointer; DesignVariableVector<1> (external library) adds
   the number *)
Definition rs_update (o : rs_dv) (ptr : rs_ptr) (dp : vec F) : outcome rs_dv :=
  match ptr with
  | PoseVar p => do st <- dv_update (rs_pose o) p dp ; Ok (RSDV st (rs_delay o) (rs_copy o))
  | DelayVar => Ok (RSDV (rs_pose o) (rs_delay o + dp 0%N) (rs_copy o))
  end.

(* [REX] 13-19, [RDV] 63-71: a node holds pointers to the two variables, start time and line *)
Record rs_node := RSNode { rn_t0 : F; rn_line : F }.

(* [REX] 5: LINEDELAY_UNIT *)
Definition unit_ : F := 1.
(* [REX] 30, 41, 66 *)
Definition rs_time (o : rs_dv) (nd : rs_node) : F :=
  rs_delay o * unit_ * rn_line nd + rn_t0 nd.

(* [REX] 27-33 toTransformationMatrixImplementation *)
Definition rs_value (o : rs_dv) (nd : rs_node) : outcome (mat F) :=
  transformation R eps (sd_spline (rs_pose o)) (rs_time o nd).

(* designVariable(dvidxs[i]) for every i; [REX] 55, 70 *)
Definition rs_pointers (st : spline_dv F) (idx : seq nat) : outcome (seq nat) :=
  omap_seq (fun i => do d <- dv_designVariable st i ; Ok (md_id d)) idx.

(* [REX] 35-62 evaluateJacobiansImplementation: the blocks handed to the variables of the pose
   spline in order, and the column handed to the line delay *)
Definition rs_jacobians (o : rs_dv) (nd : rs_node) : outcome (seq (nat * mat F) * vec F) :=
  let s := sd_spline (rs_pose o) in
  let observationTime := rs_time o nd in
  do dvidxs <- localVvCoefficientVectorIndices eps s observationTime ;
  do ' (p, JS, _i) <- evalJ6 eps s observationTime 0 ;
  let JT := (curveValueToTransformationAndJacobian R p).2 in
  let J := mulm 6 JT JS in
  do ptrs <- rs_pointers (rs_pose o) dvidxs ;
  do js <- add_blocks 6 (jcols s) J ptrs ;
  do Phi_dot_c <- evalD6 eps s observationTime 1 ;
  Ok (js, fun r => mulv 6 JT Phi_dot_c r * rn_line nd * unit_).

(* [REX] 64-73 getDesignVariablesImplementation: the variables inserted into the set *)
Definition rs_getDesignVariables (o : rs_dv) (nd : rs_node) : outcome (seq rs_ptr) :=
  do dvidxs <- localVvCoefficientVectorIndices eps (sd_spline (rs_pose o)) (rs_time o nd) ;
  do ptrs <- rs_pointers (rs_pose o) dvidxs ;
  Ok (rcons (map PoseVar ptrs) DelayVar).

(* a sequence of updates, as an optimiser makes them *)
Fixpoint rs_updates (o : rs_dv) (us : seq (rs_ptr * vec F)) : outcome rs_dv :=
  match us with
  | [::] => Ok o
  | (p, dp) :: us' => do o' <- rs_update o p dp ; rs_updates o' us'
  end.
End RS.
