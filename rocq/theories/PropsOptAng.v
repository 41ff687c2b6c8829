(* Property C72: angular velocity and acceleration expressions of optimisable unit quaternion
   splines. *)
From mathcomp Require Import all_ssreflect all_algebra.
From Verif Require Import Prelude DMModel DMSpec QuatModel QuatAlg QuatSpec QuatJacobianModel
  QuatJacobianSpec OptModel OptSpec OptAngModel OptAngSpec OptAngProofs Examples PropsQuat
  PropsQuatJac OptAngExamples.
Set Implicit Arguments.
Unset Strict Implicit.
Unset Printing Implicit Defensive.
Import GRing.Theory Num.Theory Order.Theory.
Local Open Scope ring_scope.

(* ------------------------------------------------------------------ C72 *)
(* The expression for a fixed time of the valid interval.  d = 1: angular velocity, d = 2: angular
   acceleration.  Its value is the body rate of the curve through the stored control vertices, or
   the derivative of that rate.  It names the variables of the segment.  Each of these receives
   one block.  The blocks, applied to the moves delta_j of the vertices exp(e delta_j) P_j, give
   the e-part of the value of the moved curve, times the chain rule matrix if there is one.
   Every world of spline objects reached by public calls whose vertices are unit now. *)
Theorem C72_fixed_time : forall (F : realFieldType) (T : realDomainType) (dbl : T -> F) (one : T)
  (expq : v3 F -> quat F) (logq : quat F -> v3 F) (norm : quat F -> F) (ieps : F)
  (S L : v3 F -> m3 F) (mf_update : vec F -> vec F -> vec F),
  exact_time dbl one -> exp_like expq -> forall nc np w a lo hi t d,
  reached dbl (uq_manifold expq logq norm ieps) mf_update w -> (a < size (w_objs w))%N ->
  let o := nth (opt0 F T) (w_objs w) a in
  let k := ds_order (op_sp o) in let kps := contents (op_sp o) in
  ds_evaluable (op_sp o) -> unit_vertices (op_sp o) ->
  dm_getMinTime (op_sp o) = Ok lo -> dm_getMaxTime (op_sp o) = Ok hi -> lo <= t <= hi ->
  (1 < k)%N -> (np <= k.+1)%N -> (0 < d <= 2)%N ->
  exists i ev ps, [/\ is_segment k kps t i, const_factory dbl o t = Ok ev,
    opt_getDesignVariables o t = Ok (map Some ps) /\ const_dvs o ev = Ok ps,
    ang_value dbl one expq logq ieps norm nc np o ev d =
      Ok (vec_of3 (omega (quat_jet dbl one expq logq k kps t i) d.-1)) &
    forall chain, exists2 js,
      ang_jacobians dbl one expq logq S L ieps norm nc np o ev d chain = Ok js & unzip1 js = ps /\
      forall delta r, (r < rows chain)%N ->
        blocks_apply js delta r = applied chain
          (v3map (@du F) (omega (dual_jet dbl one expq logq S L delta k kps t i) d.-1)) r].
Proof. exact ang_const. Qed.
Print Assumptions C72_fixed_time.

(* The expression for a time that is itself an expression with current value t: the same value
   and blocks, the blocks belong to registered variables, and the time expression receives the
   next derivative of the rate.  Missing: times at which the evaluator cache can be stale, where
   the claim fails for the reason given in C54_value_refuted (see C72_stale_time); here the cache is empty or t is
   no knot. *)
Theorem C72_time_expression_partial : forall (F : realFieldType) (T : realDomainType) (dbl : T -> F)
  (one : T) (expq : v3 F -> quat F) (logq : quat F -> v3 F) (norm : quat F -> F) (ieps : F)
  (S L : v3 F -> m3 F) (mf_update : vec F -> vec F -> vec F),
  exact_time dbl one -> exp_like expq -> forall nc np w a te t d,
  reached dbl (uq_manifold expq logq norm ieps) mf_update w -> (a < size (w_objs w))%N ->
  let o := nth (opt0 F T) (w_objs w) a in
  let k := ds_order (op_sp o) in let kps := contents (op_sp o) in
  ds_evaluable (op_sp o) -> unit_vertices (op_sp o) ->
  te_fits dbl o te -> te_lo te <= t <= te_hi te -> te_cache te = None \/ t \notin map fst kps ->
  (1 < k)%N -> (np <= k.+1)%N -> (0 < d <= 2)%N ->
  exists i te' ps, [/\ is_segment k kps t i,
    te_fits dbl o te' /\ te_lo te' = te_lo te /\ te_hi te' = te_hi te,
    opt_getDesignVariables o t = Ok (map Some ps) /\
      (exists2 all, te_dvs o te' = Ok all & {subset ps <= all}),
    ang_te_value dbl one expq logq ieps norm nc np o te t d =
      Ok (te', vec_of3 (omega (quat_jet dbl one expq logq k kps t i) d.-1)) &
    forall chain, exists js col, [/\
      ang_te_jacobians dbl one expq logq S L ieps norm nc np o te t d chain = Ok (te', js, col),
      unzip1 js = ps,
      (forall delta r, (r < rows chain)%N ->
        blocks_apply js delta r = applied chain
          (v3map (@du F) (omega (dual_jet dbl one expq logq S L delta k kps t i) d.-1)) r) &
      forall r, (r < rows chain)%N ->
        col r = applied chain (omega (quat_jet dbl one expq logq k kps t i) d) r]].
Proof. exact ang_time. Qed.
Print Assumptions C72_time_expression_partial.

(* The remaining case of a time expression: the cache holds an evaluator made for t0 and t is the
   knot at which the segment of t0 begins.  Value, blocks and column are then those of t0. *)
Theorem C72_stale_time : forall (F : realFieldType) (T : realDomainType) (dbl : T -> F)
  (one : T) (expq : v3 F -> quat F) (logq : quat F -> v3 F) (norm : quat F -> F) (ieps : F)
  (S L : v3 F -> m3 F) (mf_update : vec F -> vec F -> vec F),
  exact_time dbl one -> exp_like expq -> forall nc np w a te t t0 ev d,
  reached dbl (uq_manifold expq logq norm ieps) mf_update w -> (a < size (w_objs w))%N ->
  let o := nth (opt0 F T) (w_objs w) a in
  let k := ds_order (op_sp o) in let kps := contents (op_sp o) in
  ds_evaluable (op_sp o) -> unit_vertices (op_sp o) ->
  te_fits dbl o te -> te_lo te <= t <= te_hi te ->
  te_cache te = Some ev -> const_factory dbl o t0 = Ok ev ->
  (1 < k)%N -> (np <= k.+1)%N -> (0 < d <= 2)%N ->
  forall i, is_segment k kps t0 i -> kp_knot kps i = t ->
    ang_te_value dbl one expq logq ieps norm nc np o te t d =
      Ok (te, vec_of3 (omega (quat_jet dbl one expq logq k kps t0 i) d.-1)) /\
    forall chain, exists js col, [/\
      ang_te_jacobians dbl one expq logq S L ieps norm nc np o te t d chain = Ok (te, js, col),
      (forall delta r, (r < rows chain)%N ->
        blocks_apply js delta r = applied chain
          (v3map (@du F) (omega (dual_jet dbl one expq logq S L delta k kps t0 i) d.-1)) r) &
      forall r, (r < rows chain)%N ->
        col r = applied chain (omega (quat_jet dbl one expq logq k kps t0 i) d) r].
Proof. exact ang_stale. Qed.
Print Assumptions C72_stale_time.
(* evaluated at 5/2 first, then at the knot 2 *)
Example C72_ex_stale : exists ev i, [/\ const_factory ad a_obj a_t = Ok ev,
  te_fits ad a_obj (@TeData Q aT a_lo a_hi (Some ev)),
  is_segment (ds_order (op_sp a_obj)) (contents (op_sp a_obj)) a_t i &
  kp_knot (contents (op_sp a_obj)) i = a_lo].
Proof.
have [i [ev [ps [h1 h2 _ _ _]]]] := @C72_fixed_time Q aT ad a_one cayley ex_log ex_norm a_eps
  ex_S ex_L a_update a_time ex_exp_like true 3 a_world 0 a_lo a_hi a_t 2 a_reached' a_there
  a_evaluable a_unit a_min a_max a_in a_k2 a_k3 isT.
exists ev, i; split; [exact: h2|exact: (a_fits_cached h2)|exact: h1|].
exact: (a_segment h1).
Qed.

(* order 3, six knots, the second vertex updated by the optimiser, t = 5/2; the acceleration *)
Example C72_ex_fixed : exists i ev ps,
  [/\ is_segment (ds_order (op_sp a_obj)) (contents (op_sp a_obj)) a_t i,
      const_factory ad a_obj a_t = Ok ev, const_dvs a_obj ev = Ok ps &
      ang_value ad a_one cayley ex_log a_eps ex_norm true 3 a_obj ev 2 = Ok (vec_of3
        (omega (quat_jet ad a_one cayley ex_log (ds_order (op_sp a_obj)) (contents (op_sp a_obj)) a_t i) 1))].
Proof.
have [i [ev [ps [h1 h2 [_ h3] h4 _]]]] := @C72_fixed_time Q aT ad a_one cayley ex_log ex_norm a_eps
  ex_S ex_L a_update a_time ex_exp_like true 3 a_world 0 a_lo a_hi a_t 2 a_reached' a_there
  a_evaluable a_unit a_min a_max a_in a_k2 a_k3 isT.
by exists i, ev, ps; split; [exact: h1|exact: h2|exact: h3|exact: h4].
Qed.
Example C72_ex_time : exists te' js col,
  ang_te_jacobians ad a_one cayley ex_log ex_S ex_L a_eps ex_norm true 3 a_obj a_te a_t 1
    (Some (1%N, fun _ c => c.+1%:R)) = Ok (te', js, col).
Proof.
have [i [te' [ps [_ _ _ _ h]]]] := @C72_time_expression_partial Q aT ad a_one cayley ex_log ex_norm a_eps
  ex_S ex_L a_update a_time ex_exp_like true 3 a_world 0 a_te a_t 1 a_reached' a_there
  a_evaluable a_unit a_fits a_in (or_introl erefl) a_k2 a_k3 isT.
have [js [col [h1 _ _ _]]] := h (Some (1%N, fun _ c => c.+1%:R)).
by exists te', js, col; exact: h1.
Qed.
(* the variables in the example: those of the segments with knots 0, 1 and 2 *)
Example C72_ex_variables :
  (if opt_getDesignVariables a_obj a_t is Ok ps
   then ps == [seq Some (1%N, j) | j <- [:: (0 : rat); 1; 2%:R]] else false).
Proof. by vm_compute. Qed.
