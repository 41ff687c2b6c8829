(* Properties C38 (manifold splines), C39, C52, C53, C54: OPTBSpline.hpp, OPTBSplineImpl.hpp. *)
From mathcomp Require Import all_ssreflect all_algebra.
From Verif Require Import Prelude CoxDeBoor DMModel DMSpec OptModel OptSpec OptProofs
  OptWorldProofs OptExprProofs OptTimeProofs Examples OptExamples.
Set Implicit Arguments.
Unset Strict Implicit.
Unset Printing Implicit Defensive.
Import GRing.Theory Num.Theory Order.Theory.
Local Open Scope ring_scope.
Notation obj w a := (nth (opt0 _ _) (w_objs w) a).
#[local] Opaque o_world.

(* ------------------------------------------------------------------ C39 *)
(* Any number of updates, sets and reverts on any variables of any splines, interleaved
   arbitrarily, as long as each revert follows an update or set of the same variable: every
   call returns and afterwards every variable has the value it would have had without the
   undone calls. *)
Theorem C39_update_revert : forall (F : realFieldType) (T : realDomainType) (dbl : T -> F)
  (mf : manifold F) (mf_update : vec F -> vec F -> vec F) (w : world F T) (cs : seq (wop F T)),
  (forall c, List.In c cs -> exists p d, on_var c = Some (p, d) /\ usable w p) ->
  (forall p, usable w p -> protocol (calls_of p cs)) ->
  exists2 w', w_run dbl mf mf_update w cs = Ok w' &
    forall p x, dv_getParameters w p = Ok x ->
      dv_getParameters w' p = Ok (net mf_update x (calls_of p cs)).
Proof. exact update_revert. Qed.
Print Assumptions C39_update_revert.

Definition C39_p : ptr oT := (3%N, 10).
Definition C39_q : ptr oT := (1%N, 20).
Definition C39_calls : seq (wop Q oT) :=
  [:: WUpdate C39_p (opt1 7); WSet C39_q (opt1 9); WRevert Q C39_p; WUpdate C39_p (opt1 2);
      WRevert Q C39_q; WUpdate C39_q (opt1 1)].
(* hypotheses met, and the values that come out: 4 + 2 and 1 + 1 *)
Lemma C39_usable_b (F : realFieldType) (T : realDomainType) (w : world F T) p :
  (if w_seg w p is Ok (a, i) then alive w (op_owner (obj w a) p.2) else false) -> usable w p.
Proof. by rewrite /usable; case: (w_seg w p) => [[a i]||] // h; exists a, i. Qed.
Lemma C39_usable : usable o_world C39_p /\ usable o_world C39_q.
Proof. by split; apply: C39_usable_b; vm_compute. Qed.
Example C39_ex : (forall c, List.In c C39_calls -> exists p d, on_var c = Some (p, d) /\ usable o_world p) /\
  (forall p, usable o_world p -> protocol (calls_of p C39_calls)) /\
  (forall x : vec Q, net (@eu_update _) x (calls_of C39_p C39_calls) = eu_update x (opt1 2)) /\
  (if w_run od omf (@eu_update _) o_world C39_calls is Ok w' then
     match dv_getParameters w' C39_p, dv_getParameters w' C39_q with
     | Ok x, Ok y => (x 0%N == 6) && (y 0%N == 2) | _, _ => false end else false).
Proof.
split; last split; last split.
- have [h1 h2] := C39_usable; move: (usable o_world) h1 h2 => U h1 h2.
  move=> c /=; case=> [<-|[<-|[<-|[<-|[<-|[<-|[]]]]]]].
  + by exists C39_p, (CUpdate (opt1 7)).
  + by exists C39_q, (CSet (opt1 9)).
  + by exists C39_p, (CRevert Q).
  + by exists C39_p, (CUpdate (opt1 2)).
  + by exists C39_q, (CRevert Q).
  + by exists C39_q, (CUpdate (opt1 1)).
- move=> p; move: (usable o_world p) => U _; rewrite /C39_calls /calls_of /on_var.
  have [<-|n1] := eqVneq C39_p p; first by have -> : (C39_q == C39_p) = false.
  by case: (C39_q == p).
- by move=> x.
by vm_compute.
Qed.

(* ------------------------------------------------------------------ C38 *)
(* The design variables of every initialised spline in every history of construction,
   initConstantSpline, appendSegments, copies, destruction, updates and reverts are its own
   control vertices: one per vertex, designVariable(i) is vertex i. *)
Theorem C38_opt_variables : forall (F : realFieldType) (T : realDomainType) (dbl : T -> F)
  (mf : manifold F) (mf_update : vec F -> vec F -> vec F) (w : world F T) a,
  reached dbl mf mf_update w -> (a < size (w_objs w))%N -> ds_evaluable (op_sp (obj w a)) ->
  own_variables w a.
Proof.
by move=> F T dbl mf mf_update w a R ha ev; exact: own_ok (reached_ok R) ha ev.
Qed.
Print Assumptions C38_opt_variables.
Example C38_opt_variables_ex : reached od omf (@eu_update _) o_world /\ (1 < size (w_objs o_world))%N /\
  ds_evaluable (op_sp (obj o_world 1)) /\
  op_dvs (obj o_world 1) = [:: (3%N, 0); (3%N, 10); (3%N, 20); (3%N, 30)].
Proof.
have /and5P[/eqP h1 h2 h3 h4 /eqP h5] := o_facts.
by split; [exact: o_reached|split; [rewrite h1|split; [exact: h3|exact: h5]]].
Qed.

(* An expression at time t (manifold splines of any kind, given by their evalJacobian): its
   variables are the k vertices that determine the curve at t, getDesignVariables(t) returns
   the same ones in the same order, variable c is designVariable(first + c), and the c-th of
   them receives block c of the Jacobian. *)
Theorem C38_opt_expression : forall (F : realFieldType) (T : realDomainType) (dbl : T -> F)
  (mf : manifold F) (mf_update : vec F -> vec F -> vec F) (w : world F T) a lo hi t,
  reached dbl mf mf_update w -> (a < size (w_objs w))%N -> ds_evaluable (op_sp (obj w a)) ->
  dm_getMinTime (op_sp (obj w a)) = Ok lo -> dm_getMaxTime (op_sp (obj w a)) = Ok hi ->
  lo <= t <= hi -> let o := obj w a in let k := ds_order (op_sp o) in
  exists ev ps, [/\ const_factory dbl o t = Ok ev, opt_getDesignVariables o t = Ok (map Some ps),
    const_dvs o ev = Ok ps /\ size ps = k,
    (forall c, (c < k)%N -> opt_designVariable o (ev_first ev + c) = Ok (nth (0%N, 0) ps c) /\
       w_seg w (nth (0%N, 0) ps c) = Ok (a, (ev_first ev + c)%N)) &
    forall evJ psize dim chain d J, evJ (op_sp o) ev d = Ok J ->
      exists2 js, const_jacobians evJ psize dim o ev d chain = Ok js &
        unzip1 js = ps /\ forall c, (c < k)%N ->
          (nth ((0%N, 0), zerom) js c).2 =
          if chain is Some (_, C) then mulm psize C (get_block J 0 (c * dim))
          else get_block J 0 (c * dim)].
Proof. exact opt_expression. Qed.
Print Assumptions C38_opt_expression.

(* Euclidean splines: updating any variable (of this or of another spline) by dp changes the
   value and every derivative by exactly what the Jacobian blocks handed to that variable say,
   also with a chain rule matrix C. *)
Theorem C38_opt_euclidean : forall (F : realFieldType) (T : realDomainType) (dbl : T -> F) (one : T),
  exact_time dbl one -> forall (D : nat) (imax : option nat) (np : nat)
  (mf : manifold F) (mf_update : vec F -> vec F -> vec F) (w : world F T) a lo hi t d p dp w',
  reached dbl mf mf_update w -> (a < size (w_objs w))%N -> ds_evaluable (op_sp (obj w a)) ->
  dm_getMinTime (op_sp (obj w a)) = Ok lo -> dm_getMaxTime (op_sp (obj w a)) = Ok hi ->
  lo <= t <= hi -> (np <= (ds_order (op_sp (obj w a))).+1)%N ->
  (if imax is Some mx then (d <= mx)%N else true) ->
  dv_update (@eu_update F) w p dp = Ok w' ->
  let evD := eu_evalD dbl one imax np in let evJ := eu_evalJacobian dbl one D imax np in
  exists ev v js v', [/\ const_factory dbl (obj w a) t = Ok ev,
    const_value evD (obj w a) ev d = Ok v,
    const_jacobians evJ D D (obj w a) ev d None = Ok js,
    const_factory dbl (obj w' a) t = Ok ev /\ const_value evD (obj w' a) ev d = Ok v' &
    (forall r, (r < D)%N -> v' r = v r + opredicted D js p dp r) /\
    forall m C, exists2 jc, const_jacobians evJ D D (obj w a) ev d (Some (m, C)) = Ok jc &
      unzip1 jc = unzip1 js /\
      forall r, fsum D (fun s => C r s * (v' s - v s)) = opredicted D jc p dp r].
Proof.
move=> F T dbl one et D imax np mf mu w a lo hi t d p dp w' R ha ev h1 h2 tr hn hd U.
by apply: (update_value et D R ha ev h1 h2 tr hn _ U); case: imax hd.
Qed.
Print Assumptions C38_opt_euclidean.
(* the example world meets the hypotheses; at t = 25 the value moves from 5/2 to 6 when
   vertex 1 (knot 10) moves by 7 *)
Example C38_opt_ex : exact_time od 10 /\ (exists lo hi : int, [/\ dm_getMinTime (op_sp (obj o_world 1)) = Ok lo,
  dm_getMaxTime (op_sp (obj o_world 1)) = Ok hi & lo <= 25 <= hi]) /\
  (if dv_update (@eu_update Q) o_world (3%N, 10) (opt1 7) is Ok w' then
     match const_factory od (obj o_world 1) 25 with
     | Ok ev => match const_value (eu_evalD od 10 None 0) (obj o_world 1) ev 0,
                      const_value (eu_evalD od 10 None 0) (obj w' 1) ev 0 with
       | Ok v, Ok v' => (v 0%N == 5%:R / 2%:R) && (v' 0%N == 6) | _, _ => false end
     | _ => false end else false).
Proof.
split; first by split=> // a b; [rewrite /od rmorphB|rewrite ltr_int].
split; last by vm_compute.
have : match dm_getMinTime (op_sp (obj o_world 1)), dm_getMaxTime (op_sp (obj o_world 1)) with
  | Ok lo, Ok hi => lo <= 25 <= hi | _, _ => false end by vm_compute.
move: (obj o_world 1) => o; case: (dm_getMinTime _) => // lo; case: (dm_getMaxTime _) => // hi h.
by exists lo, hi.
Qed.

(* ------------------------------------------------------------------ C52 *)
(* Statement: the design variables of an initialised spline are its own control vertices, for
   every way to construct it.  Proved for the histories of C38_opt_variables; false for
   initWithKnots (and initWithKnotsAndControlVertices), which leave the list empty, ... *)
Theorem C52_initWithKnots_refuted : exists (w : world Q oT) n,
  [/\ orun ow0 [:: WNew Q oT 1; WInitKnots (T := oT) Q 0 [:: 0; 10; 20]] = Ok w,
      ds_evaluable (op_sp (obj w 0)), dm_getNumControlVertices (op_sp (obj w 0)) = Ok n,
      opt_numDesignVariables (obj w 0) = 0%N & n = 2%N].
Proof.
pose cs : seq (wop Q oT) := [:: WNew Q oT 1; WInitKnots (T := oT) Q 0 [:: 0; 10; 20]].
have : match orun ow0 cs with
  | Ok w => [&& ds_evaluable (op_sp (obj w 0)), opt_numDesignVariables (obj w 0) == 0%N &
      if dm_getNumControlVertices (op_sp (obj w 0)) is Ok n then n == 2%N else false]
  | _ => false end by vm_compute.
rewrite -/cs; case: (orun ow0 cs) => [w||] // /and3P[h1 /eqP h2]; case h3: (dm_getNumControlVertices _) => [n||] // /eqP h4.
by exists w, n.
Qed.
Print Assumptions C52_initWithKnots_refuted.
(* ... after which appendSegments makes designVariable(0) the third vertex, ... *)
Theorem C52_append_refuted : exists (w : world Q oT) p,
  [/\ orun ow0 [:: WNew Q oT 1; WInitKnots (T := oT) Q 0 [:: 0; 10; 20];
        WAppend (T := oT) 0 [:: 30] None] = Ok w,
      opt_designVariable (obj w 0) 0 = Ok p & w_seg w p = Ok (0%N, 2%N)].
Proof.
pose cs : seq (wop Q oT) := [:: WNew Q oT 1; WInitKnots (T := oT) Q 0 [:: 0; 10; 20];
  WAppend (T := oT) 0 [:: 30] None].
have : match orun ow0 cs with
  | Ok w => if opt_designVariable (obj w 0) 0 is Ok p then
      if w_seg w p is Ok ai then ai == (0%N, 2%N) else false else false
  | _ => false end by vm_compute.
rewrite -/cs; case: (orun ow0 cs) => [w||] //; case h1: (opt_designVariable _ _) => [p||] //.
case h2: (w_seg w p) => [ai||] // /eqP h3; subst ai; by exists w, p.
Qed.
Print Assumptions C52_append_refuted.
(* ... and for assignment: afterwards the variables are those of the other spline. *)
Theorem C52_assign_refuted : exists (w : world Q oT) p,
  [/\ orun ow0 [:: WNew Q oT 1; WInitConstant (T := oT) 0 [:: 0; 10; 20] 2 (opt1 1);
        WNew Q oT 1; WAssign Q oT 2 0] = Ok w,
      op_id (obj w 1) = 2%N, opt_designVariable (obj w 1) 0 = Ok p & w_seg w p = Ok (0%N, 0%N)].
Proof.
pose cs : seq (wop Q oT) := [:: WNew Q oT 1; WInitConstant (T := oT) 0 [:: 0; 10; 20] 2 (opt1 1);
        WNew Q oT 1; WAssign Q oT 2 0].
have : match orun ow0 cs with
  | Ok w => (op_id (obj w 1) == 2%N) && if opt_designVariable (obj w 1) 0 is Ok p then
      if w_seg w p is Ok ai then ai == (0%N, 0%N) else false else false
  | _ => false end by vm_compute.
rewrite -/cs; case: (orun ow0 cs) => [w||] // /andP[/eqP h0]; case h1: (opt_designVariable _ _) => [p||] //.
case h2: (w_seg w p) => [ai||] // /eqP h3; subst ai; by exists w, p.
Qed.
Print Assumptions C52_assign_refuted.

(* ------------------------------------------------------------------ C53 *)
(* Statement: every design variable of a living spline can be updated.  True as long as no
   spline has been destroyed, ... *)
Theorem C53_updatable_partial : forall (F : realFieldType) (T : realDomainType) (dbl : T -> F)
  (mf : manifold F) (mf_update : vec F -> vec F -> vec F) (w : world F T) a i,
  reached_alive dbl mf mf_update w -> (a < size (w_objs w))%N ->
  ds_evaluable (op_sp (obj w a)) -> (i < opt_numDesignVariables (obj w a))%N ->
  exists p, opt_designVariable (obj w a) i = Ok p /\
    forall dp, exists w', dv_update mf_update w p dp = Ok w'.
Proof.
move=> F T dbl mf mu w a i RA ha ev hi; have [p [h1 us]] := alive_usable RA ha ev hi.
exists p; split=> // dp; case: us => b [j [h2 h3]].
by rewrite /dv_update h2 /= h3 /=; eexists.
Qed.
Print Assumptions C53_updatable_partial.
Example C53_ex : reached_alive od omf (@eu_update _) o_world /\ (1 < size (w_objs o_world))%N /\
  ds_evaluable (op_sp (obj o_world 1)) /\ (3 < opt_numDesignVariables (obj o_world 1))%N.
Proof.
have /and5P[/eqP h1 h2 h3 h4 /eqP h5] := o_facts.
split; first exact: o_alive.
by split; [rewrite h1|split; [exact: h3|rewrite /opt_numDesignVariables h5]].
Qed.
(* ... but a copy keeps references to the manifold of the original: once that is destroyed,
   updating the copy is undefined (it reads freed memory). *)
Theorem C53_copy_refuted : exists (w : world Q oT) p,
  [/\ orun o_world [:: WDestroy Q oT 0] = Ok w, size (w_objs w) = 1%N,
      opt_designVariable (obj w 0) 0 = Ok p /\ w_seg w p = Ok (0%N, 0%N) &
      forall dp, dv_update (@eu_update Q) w p dp = UB].
Proof.
have : match orun o_world [:: WDestroy Q oT 0] with
  | Ok w => (size (w_objs w) == 1%N) && if opt_designVariable (obj w 0) 0 is Ok p then
      if w_seg w p is Ok ai then (ai == (0%N, 0%N)) && ~~ alive w (op_owner (obj w 0) p.2) else false else false
  | _ => false end by vm_compute.
case: (orun o_world _) => [w||] // /andP[/eqP h0]; case h1: (opt_designVariable _ _) => [p||] //.
case h2: (w_seg w p) => [ai||] // /andP[/eqP h3 h4]; subst ai; exists w, p; split=> // dp.
by rewrite /dv_update h2 /= (negbTE h4).
Qed.
Print Assumptions C53_copy_refuted.

(* ------------------------------------------------------------------ C54 *)
(* Statement: an expression whose time is an expression has the value of the curve at the
   current value of that expression.  te_fits: the states its evaluator cache can be in. *)
Theorem C54_new_fits : forall (F : realFieldType) (T : realDomainType) (dbl : T -> F)
  (mf : manifold F) (mf_update : vec F -> vec F -> vec F) (w : world F T) a lo hi te,
  reached dbl mf mf_update w -> (a < size (w_objs w))%N -> ds_evaluable (op_sp (obj w a)) ->
  te_new (obj w a) lo hi = Ok te ->
  [/\ te_fits dbl (obj w a) te, te_lo te = lo, te_hi te = hi & te_cache te = None].
Proof. exact new_fits. Qed.
Print Assumptions C54_new_fits.
(* True for the first evaluation, and later whenever the time is not a knot; ... *)
Theorem C54_value_partial : forall (F : realFieldType) (T : realDomainType) (dbl : T -> F) (one : T),
  exact_time dbl one -> forall (imax : option nat) (np : nat)
  (mf : manifold F) (mf_update : vec F -> vec F -> vec F) (w : world F T) a te t d,
  reached dbl mf mf_update w -> (a < size (w_objs w))%N ->
  ds_evaluable (op_sp (obj w a)) -> te_fits dbl (obj w a) te -> te_lo te <= t <= te_hi te ->
  (np <= (ds_order (op_sp (obj w a))).+1)%N -> (if imax is Some mx then (d <= mx)%N else true) ->
  te_cache te = None \/ t \notin op_keys (obj w a) ->
  let evD := eu_evalD dbl one imax np in
  exists te' ev v, [/\ te_value dbl evD (obj w a) te t d = Ok (te', v),
    dm_evaluator dbl (op_sp (obj w a)) t = Ok ev, evD (op_sp (obj w a)) ev d = Ok v &
    te_fits dbl (obj w a) te'].
Proof.
move=> F T dbl one et imax np mf mu w a te t d R ha ev fit tr hn hd nk.
by apply: (time_value et R ha ev fit tr hn _ nk); case: imax hd.
Qed.
Print Assumptions C54_value_partial.
(* ... the Jacobians then name exactly the registered variables, predict the change of the
   value, and the column handed to the time expression is the next derivative; ... *)
Theorem C54_jacobians_partial : forall (F : realFieldType) (T : realDomainType) (dbl : T -> F) (one : T),
  exact_time dbl one -> forall (D : nat) (imax : option nat) (np : nat)
  (mf : manifold F) (mf_update : vec F -> vec F -> vec F) (w : world F T) a te t d p dp w',
  reached dbl mf mf_update w -> (a < size (w_objs w))%N ->
  ds_evaluable (op_sp (obj w a)) -> te_fits dbl (obj w a) te -> te_lo te <= t <= te_hi te ->
  (np <= (ds_order (op_sp (obj w a))).+1)%N -> (if imax is Some mx then (d < mx)%N else true) ->
  te_cache te = None \/ t \notin op_keys (obj w a) ->
  dv_update (@eu_update F) w p dp = Ok w' ->
  let evD := eu_evalD dbl one imax np in let evJ := eu_evalJacobian dbl one D imax np in
  exists ps te' js col ev v v', [/\ te_dvs (obj w a) te = Ok ps,
    te_jacobians dbl evD evJ D D (obj w a) te t d None = Ok (te', js, col),
    unzip1 js =i ps,
    [/\ dm_evaluator dbl (op_sp (obj w a)) t = Ok ev, evD (op_sp (obj w a)) ev d = Ok v,
      evD (op_sp (obj w a)) ev d.+1 = Ok col & evD (op_sp (obj w' a)) ev d = Ok v'] &
    forall r, (r < D)%N -> v' r = v r + opredicted D js p dp r].
Proof.
move=> F T dbl one et D imax np mf mu w a te t d p dp w' R ha ev fit tr hn hd nk U.
by apply: (time_jacobians et D R ha ev fit tr hn _ nk U); case: imax hd.
Qed.
Print Assumptions C54_jacobians_partial.
(* times outside the declared bounds are refused; ... *)
Theorem C54_out_of_bounds : forall (F : realFieldType) (T : realDomainType) (dbl : T -> F)
  (w : world F T) a te t, t < te_lo te \/ te_hi te < t ->
  te_getEvaluator dbl (obj w a) te t = Throw ExnRuntime.
Proof. exact time_out. Qed.
Print Assumptions C54_out_of_bounds.
(* ... but when the time moves to the knot that begins the segment of the previous time, the
   old evaluator is used: on the example spline over [10, 30], first 25 and then 20 gives the
   value of the curve at 25 (5/2) instead of the one at 20 (4). *)
Theorem C54_value_refuted : exists (te0 te1 te2 : te_data Q oT) v1 v2 ev v,
  let evD := eu_evalD od 10 None 0 in let o := obj o_world 1 in
  [/\ te_new o 10 30 = Ok te0, te_value od evD o te0 25 0 = Ok (te1, v1),
      te_value od evD o te1 20 0 = Ok (te2, v2),
      dm_evaluator od (op_sp o) 20 = Ok ev /\ evD (op_sp o) ev 0%N = Ok v &
      v2 0%N != v 0%N].
Proof.
have : match te_new (obj o_world 1) 10 30 with
  | Ok te0 => match te_value od (eu_evalD od 10 None 0) (obj o_world 1) te0 25 0 with
    | Ok (te1, v1) => match te_value od (eu_evalD od 10 None 0) (obj o_world 1) te1 20 0 with
      | Ok (te2, v2) => match dm_evaluator od (op_sp (obj o_world 1)) 20 with
         | Ok ev => match eu_evalD od 10 None 0 (op_sp (obj o_world 1)) ev 0%N with
            | Ok v => [&& v2 0%N == 5%:R / 2%:R, v 0%N == 4 & v2 0%N != v 0%N]
            | _ => false end
         | _ => false end
      | _ => false end
    | _ => false end
  | _ => false end by vm_compute.
move: (obj o_world 1) => o.
case h0: (te_new _ _ _) => [te0||] //; case h1: (te_value _ _ _ te0 _ _) => [[te1 v1]||] //.
case h2: (te_value _ _ _ te1 _ _) => [[te2 v2]||] //; case h3: (dm_evaluator _ _ _) => [ev||] //.
case h4: (eu_evalD _ _ _ _ _ ev _) => [v||] // /and3P[_ _ h5].
exists te0, te1, te2, v1, v2, ev, v.
by split; [exact: h0|exact: h1|exact: h2|split; [exact: h3|exact: h4]|exact: h5].
Qed.
Print Assumptions C54_value_refuted.
(* ... the states reached there do fit *)
Example C54_ex : exists te, te_new (obj o_world 1) 10 30 = Ok te /\ te_fits od (obj o_world 1) te /\
  (25 : int) \notin op_keys (obj o_world 1).
Proof.
have key (o : opt Q oT) : (forall te, te_new o 10 30 = Ok te -> te_fits od o te) ->
  (if te_new o 10 30 is Ok _ then true else false) && ((25 : int) \notin op_keys o) ->
  exists te, te_new o 10 30 = Ok te /\ te_fits od o te /\ (25 : int) \notin op_keys o.
  move=> H /andP[]; case h: (te_new _ _ _) => [te||] // _ h2; exists te.
  by split=> //; split=> //; exact: H.
apply: key; last by vm_compute.
have [_ [h3 [h4 _]]] := C38_opt_variables_ex.
by move=> te h; have [h5 _ _ _] := C54_new_fits o_reached h3 h4 h; exact: h5.
Qed.
