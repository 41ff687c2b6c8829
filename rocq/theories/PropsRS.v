(* Property C70: the rolling shutter transformation expression. *)
From mathcomp Require Import all_ssreflect all_algebra.
From Verif Require Import Prelude CoxDeBoor BSplineModel BSplineSpec PoseModel PoseSpec PoseCayley
  DVModel DVSpec RSModel RSProofs Examples PoseExamples RSExamples.
Set Implicit Arguments.
Unset Strict Implicit.
Unset Printing Implicit Defensive.
Import GRing.Theory Num.Theory Order.Theory.
Local Open Scope ring_scope.

(* ------------------------------------------------------------------ C70 *)
(* At every time of the curve value and Jacobians are delivered; the blocks of the pose
   variables are together the Jacobian of the pose at the time of the line, and go to exactly
   the variables that the node reports at this time (next to the line delay). *)
Theorem C70_pose_jacobian : forall (F : realFieldType) (eps : F) (R : rotation F) (o : rs_dv F)
  (nd : rs_node F), let st := rs_pose o in let s := sd_spline st in
  let t := rs_delay o * rn_line nd + rn_t0 nd in
  in_step 6 st -> wf s -> 0 < eps -> tmin s <= t -> t < tmax s + eps ->
  rot_ext R -> rot_deriv R ->
  exists T J idx js lj ptrs,
  [/\ rs_value eps R o nd = Ok T, rs_jacobians eps R o nd = Ok (js, lj),
      rs_getDesignVariables eps o nd = Ok (rcons (map PoseVar ptrs) DelayVar) /\
        dv_getDesignVariables eps st t = Ok ptrs,
      unzip1 js = ptrs & pose_jacobian_of (fun s' => transformation R eps s' t) s J idx /\
      forall dp : nat -> vec F, let dC r i := dp (nth 0%N (dv_ids st) i) r in
      forall r, dir s J idx dC r = predicted_all 6 js dp r].
Proof. exact rs_jacobians_correct. Qed.
Print Assumptions C70_pose_jacobian.

(* The column handed to the line delay is the derivative of the pose with respect to it. *)
Theorem C70_delay_jacobian : forall (F : realFieldType) (eps : F) (R : rotation F) (o : rs_dv F)
  (nd : rs_node F) i js lj, let s := sd_spline (rs_pose o) in
  let t := rs_delay o * rn_line nd + rn_t0 nd in
  wf s -> bs_dim s = 6%N -> 0 < eps -> eps <= last_len s -> inside s i t ->
  rot_ext R -> rot_deriv R -> rs_jacobians eps R o nd = Ok (js, lj) ->
  exists2 T, rs_value eps R o nd = Ok T &
    has_mrate 4 4 (fun x => rs_value eps R (with_delay o x) nd) (rs_delay o) (turned4 lj T).
Proof. exact rs_delay_rate. Qed.
Print Assumptions C70_delay_jacobian.

(* Updating the line delay moves the observation time of line l by l times the update. *)
Theorem C70_delay_update : forall (F : realFieldType) (eps : F) (R : rotation F) (o : rs_dv F)
  (nd : rs_node F) dp, exists2 o', rs_update o (@DelayVar) dp = Ok o' &
  rs_value eps R o' nd =
  transformation R eps (sd_spline (rs_pose o))
    ((rs_delay o + dp 0%N) * rn_line nd + rn_t0 nd).
Proof. exact rs_delay_update. Qed.
Print Assumptions C70_delay_update.

(* The variables are the control vertices in order, then the line delay; others throw. *)
Theorem C70_variables : forall (F : realFieldType) (o : rs_dv F), in_step 6 (rs_pose o) ->
  let n := bs_ncoef (sd_spline (rs_pose o)) in
  [/\ rs_numDesignVariables o = n.+1, rs_designVariable o n = Ok DelayVar,
      forall i, (i < n)%N -> rs_designVariable o i = Ok (PoseVar (nth 0%N (dv_ids (rs_pose o)) i))
    & forall i, (n < i)%N -> rs_designVariable o i = Throw ExnRuntime].
Proof. exact rs_enumeration. Qed.
Print Assumptions C70_variables.

(* The copy of the spline that answers getActiveDesignVariableIndices is never updated; it gives
   the indices of the current spline nevertheless. *)
Theorem C70_active : forall (F : realFieldType) (eps : F) (s : bspline F) x us o,
  bs_dim s = 6%N -> (do o0 <- rs_new s x ; rs_updates o0 us) = Ok o ->
  forall tk, rs_activeIndices eps o tk =
    localVvCoefficientVectorIndices eps (sd_spline (rs_pose o)) tk.
Proof. exact rs_active. Qed.
Print Assumptions C70_active.

(* The set of variables is the same for line delays that lead to the same knot interval. *)
Theorem C70_registered_partial : forall (F : realFieldType) (eps : F) (o : rs_dv F)
  (nd : rs_node F) x i, let s := sd_spline (rs_pose o) in wf s ->
  segment_of eps s (rs_delay o * rn_line nd + rn_t0 nd) i ->
  segment_of eps s (x * rn_line nd + rn_t0 nd) i ->
  rs_getDesignVariables eps (with_delay o x) nd = rs_getDesignVariables eps o nd.
Proof. exact rs_same_segment. Qed.
Print Assumptions C70_registered_partial.

(* An update of the line delay over a knot: the node hands a block to a variable it did not
   report before the update. *)
Theorem C70_registered_refuted : exists (s : bspline Q) (nd : rs_node Q) (dp : vec Q) o o' regs
  js lj p,
  [/\ wf s /\ bs_dim s = 6%N, rs_new s 0 = Ok o, rs_getDesignVariables eps0 o nd = Ok regs,
      rs_update o (@DelayVar) dp = Ok o' &
      [/\ rs_jacobians eps0 cayQ o' nd = Ok (js, lj), p \in unzip1 js & ~ List.In (PoseVar p) regs]].
Proof. exact registered_refuted. Qed.
Print Assumptions C70_registered_refuted.

(* line 1 of an image that starts at 3/2 with line delay 3/2 *)
Example C70_ex : exists st, [/\ rs_new pex 0 = Ok (RSDV st 0 pex), in_step 6 st,
  sd_spline st = pex, tmin pex <= rs_t0 * 1 + rs_t0 & inside pex 3 (rs_t0 * 1 + rs_t0)].
Proof.
have [st [h1 h2 h3 _]] := pex_new; exists st.
by split; [exact: h1|exact: h2|exact: h3|exact: pex_q3|split; [exact: isT|exact: isT|exact: pex_q5]].
Qed.
