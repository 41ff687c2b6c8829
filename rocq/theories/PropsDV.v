(* Properties C38, C40, C42, C43, C51: design variables and expressions on splines
   (aslam_splines: BSplineDesignVariable.hpp, BSplinePoseDesignVariable.cpp,
   BSplineExpressions.cpp/.hpp, BSplineMotionError.hpp). *)
From mathcomp Require Import all_ssreflect all_algebra.
From Verif Require Import Prelude CoxDeBoor BSplineModel BSplineSpec BSplineLocalProofs PoseModel PoseSpec DerivProofs
  PoseCayley DVModel DVSpec DVProofs DVAppendProofs TimeOffsetProofs MotionSpec MotionProofs
  BSplineSumProofs Examples PoseExamples DVExamples DVMainProofs.
Set Implicit Arguments.
Unset Strict Implicit.
Unset Printing Implicit Defensive.
Import GRing.Theory Num.Theory Order.Theory.
Local Open Scope ring_scope.

#[local] Opaque evalD evalDAndJacobian ex3 pex lin eps0 dv_new dv_step dv_run dv_toExpression
  node_value node_jacobians localCoefficientVectorIndices localVvCoefficientVectorIndices
  to_new to_value to_jacobians transformation me_new me_build me_error me_rhs.

(* ------------------------------------------------------------------ C38 *)
(* Pointer q of an expression is the variable of the q-th local coefficient, block q of the
   Jacobian is handed to it, and moving any variable by dp changes the value by exactly what
   the blocks handed to that variable say (0 when there is none). *)
Theorem C38_expression : forall (F : realFieldType) (eps : F) D (st : spline_dv F) t d nd v,
  in_step D st -> dv_toExpression eps D st t d = Ok nd -> node_value eps D st nd = Ok v ->
  let k := bs_order (sd_spline st) in exists b js,
  [/\ localVvCoefficientVectorIndices eps (sd_spline st) t = Ok (iota b k),
      (b + k <= bs_ncoef (sd_spline st))%N,
      node_jacobians eps D st nd = Ok js,
      unzip1 js = [seq nth 0%N (dv_ids st) i | i <- iota b k] &
      forall i dp, (i < bs_ncoef (sd_spline st))%N -> let p := nth 0%N (dv_ids st) i in
        exists st' v', [/\ dv_update st p dp = Ok st', in_step D st',
          node_value eps D st' nd = Ok v' &
          forall r, (r < D)%N -> v' r = v r + predicted D js p dp r]].
Proof. exact expression_aligned. Qed.
Print Assumptions C38_expression.
Example C38_expression_ex : exists st nd v, [/\ in_step 2 st, sd_spline st = ex3,
  dv_toExpression eps0 2 st 3%:R 1 = Ok nd, node_value eps0 2 st nd = Ok v &
  exists2 js, node_jacobians eps0 2 st nd = Ok js & unzip1 js = [:: 1; 2; 3]%N].
Proof.
have dE : bs_dim ex3 = 2%N by [].
have nE : bs_ncoef ex3 = 4%N by [].
have oE : bs_order ex3 = 3%N by [].
have [st [_ sE ist ids]] := dv_new_ok dE.
have lc : localVvCoefficientVectorIndices eps0 (sd_spline st) 3%:R = Ok (iota 1 3).
  by rewrite sE; exact: ex3_idx3.
have [|ptrs h1 _] := getDesignVariables_ok ist _ lc; first by rewrite sE nE.
have E1 : dv_toExpression eps0 2 st 3%:R 1 = Ok (Node ptrs 3%:R 1).
  by rewrite (_ : dv_toExpression eps0 2 st 3%:R 1 =
     do ptrs <- dv_getDesignVariables eps0 st 3%:R ;
     assert bs_dim (sd_spline st) == 2%N raise ExnRuntime ; Ok (Node ptrs 3%:R 1)) // h1 /= sE dE.
have [v E2] : exists v, evalD eps0 ex3 3%:R 1 = Ok v.
  by move: ex3_deriv; case: (evalD eps0 ex3 3%:R 1) => [v|e|] // _; exists v.
have E3 : node_value eps0 2 st (Node ptrs 3%:R 1) = Ok v.
  by rewrite (_ : node_value eps0 2 st (Node ptrs 3%:R 1) =
     do v <- evalD eps0 (sd_spline st) 3%:R 1 ; need bs_dim (sd_spline st) == 2%N ; Ok v) // sE E2 /= dE.
have [b [js [h2 _ h3 h4 _]]] := C38_expression ist E1 E3.
have b1 : b = 1%N by move: h2; rewrite lc sE oE => -[].
have js3 : unzip1 js = [:: 1; 2; 3]%N by rewrite h4 b1 sE oE ids nE.
exists st, (Node ptrs 3%:R 1), v.
by split; [exact: ist|exact: sE|exact: E1|exact: E3|exists js; [exact: h3|exact: js3]].
Qed.

(* designVariable(i) is the i-th coefficient: an update through it adds dp to column i *)
Theorem C38_designVariable : forall (F : realFieldType) D (st : spline_dv F) i dp,
  in_step D st -> (i < bs_ncoef (sd_spline st))%N ->
  maps_col st i i /\
  exists st', [/\ dv_update st (nth 0%N (dv_ids st) i) dp = Ok st', in_step D st',
    dv_ids st' = dv_ids st &
    sd_spline st' = with_coef (sd_spline st) (set_col (bs_coef (sd_spline st)) i
      (fun r => bs_coef (sd_spline st) r i + dp r))].
Proof.
move=> F D st i dp ist ic; split; last exact: dv_update_ok.
by case: ist => _ _ h _ _; exact: h.
Qed.
Print Assumptions C38_designVariable.
Example C38_designVariable_ex : exists2 st : spline_dv Q, in_step 2 st & (2 < bs_ncoef (sd_spline st))%N.
Proof.
have [st [_ sE ist _]] := dv_new_ok (erefl : bs_dim ex3 = 2%N).
by exists st; [exact: ist|rewrite sE].
Qed.

(* Pose expressions: block q goes to pointer q, and together the blocks give the change the
   Jacobian with its column indices gives for every simultaneous change of all variables. *)
Theorem C38_pose_blocks : forall (F : realFieldType) (eps : F) D (st : spline_dv F) t d v A
  (jac : bspline F -> F -> outcome (A * mat F * seq nat)) a J idx ptrs,
  in_step D st -> evalD eps (sd_spline st) t d = Ok v ->
  dv_getDesignVariables eps st t = Ok ptrs ->
  jac (sd_spline st) t = Ok (a, J, idx) ->
  localCoefficientVectorIndices eps (sd_spline st) t = Ok idx ->
  exists2 js, pose_node_jacobians D jac st (Node ptrs t d) = Ok js &
    unzip1 js = ptrs /\
    forall dp : nat -> vec F, let dC r i := dp (nth 0%N (dv_ids st) i) r in
    forall r, dir (sd_spline st) J idx dC r = predicted_all D js dp r.
Proof. exact pose_blocks_aligned. Qed.
Print Assumptions C38_pose_blocks.

(* ------------------------------------------------------------------ C40 *)
(* After construction and any sequence of add/remove calls that all return. *)
Theorem C40_in_step : forall (F : realFieldType) (eps : F) D
  (qr ldlt : nat -> mat F -> vec F -> vec F) (s : bspline F) os st,
  bs_dim s = D -> (do st0 <- dv_new D s ; dv_run eps D qr ldlt st0 os) = Ok st ->
  size (sd_dvs st) = bs_ncoef (sd_spline st) /\
  (forall i, (i < bs_ncoef (sd_spline st))%N -> maps_col st i i) /\ uniq (dv_ids st).
Proof.
move=> F eps D qr ldlt s os st dE; have [st0 [-> _ ist _]] := dv_new_ok dE => /= R.
by have [_ h1 h2 h3 _] := run_in_step ist R.
Qed.
Print Assumptions C40_in_step.
Example C40_in_step_ex : forall qr ldlt, exists2 st,
  (do st0 <- dv_new 1 lin ; dv_run eps0 1 qr ldlt st0 [:: lin_op; RemoveSegment _]) = Ok st &
  dv_ids st = [:: 1; 2]%N.
Proof.
move=> qr ldlt; rewrite lin_st_new; move: (lin_run qr ldlt).
move: (dv_run _ _ _ _) => f; rewrite [obind _ _]/=; case: (f _ _) => [st|e|] // /andP[/eqP h _].
by exists st.
Qed.

(* One call: it returns whenever the spline call does, and it appends one fresh variable or
   drops the first one; all others keep their identity. *)
Theorem C40_step : forall (F : realFieldType) (eps : F) D
  (qr ldlt : nat -> mat F -> vec F -> vec F) (st : spline_dv F) o s',
  in_step D st -> spline_call eps qr ldlt (sd_spline st) o = Ok s' ->
  (is_remove o -> (0 < bs_ncoef (sd_spline st))%N /\ (0 < size (bs_knots (sd_spline st)))%N) ->
  exists st', [/\ dv_step eps D qr ldlt st o = Ok st', sd_spline st' = s', in_step D st'
    & dv_ids st' = if is_remove o then behead (dv_ids st) else rcons (dv_ids st) (sd_next st)].
Proof. exact step_ok. Qed.
Print Assumptions C40_step.
Example C40_step_ex : forall qr ldlt, exists2 st, in_step 1 st &
  exists s', spline_call eps0 qr ldlt (sd_spline st) lin_op = Ok s'.
Proof.
move=> qr ldlt; have [st [_ sE ist _]] := dv_new_ok (erefl : bs_dim lin = 1%N).
exists st; [exact: ist|rewrite sE; move: (lin_call qr ldlt)].
by case: (spline_call _ _ _ _ _) => [s'|e|] // _; exists s'.
Qed.

(* ------------------------------------------------------------------ C42 *)
(* Every accepted time: value and Jacobians are delivered, the coefficients used at that time
   are registered, every registered coefficient gets exactly one block, and together the
   blocks are the Jacobian of the pose. *)
Theorem C42_registered : forall (F : realFieldType) (eps : F) (s : bspline F), 0 < eps -> wf s ->
  eps <= last_len s -> forall (R : rotation F) iT bl br nd t, bs_dim s = 6%N ->
  to_new eps s iT bl br = Ok nd -> to_bmin nd <= t -> t < to_bmax nd ->
  exists T0 T J idx js tj idxv,
  [/\ to_value eps R s nd t = Ok T0, transformation R eps s t = Ok T0,
      transformationAndJacobian R eps s t = Ok (T, J, idx)
      /\ localCoefficientVectorIndices eps s t = Ok idx,
      to_jacobians eps R s (bs_ncoef s) nd t = Ok (js, tj) &
   [/\ localVvCoefficientVectorIndices eps s t = Ok idxv,
       forall c, c \in idxv -> c \in to_idx nd,
       unzip1 js = to_idx nd /\ uniq (to_idx nd) &
       forall dC r, predicted_all 6 js (fun c y => dC y c) r = dir s J idx dC r]].
Proof. by move=> F eps s e0 wfs el; exact: to_jacobians_correct. Qed.
Print Assumptions C42_registered.

(* The node can be built for every start time inside the curve, and accepts it. *)
Theorem C42_built : forall (F : realFieldType) (eps : F) (s : bspline F), 0 < eps -> wf s ->
  eps <= last_len s -> forall iT bl br, tmin s <= iT -> iT < tmax s -> 0 <= bl -> 0 <= br ->
  exists2 nd, to_new eps s iT bl br = Ok nd & to_bmin nd <= iT < to_bmax nd.
Proof. by move=> F eps s e0 wfs el; exact: to_new_total. Qed.
Print Assumptions C42_built.
Example C42_ex : exists2 nd, to_new eps0 pex 3%:R 1 0 = Ok nd & to_bmin nd <= 3%:R < to_bmax nd.
Proof.
have h : (tmin pex <= 3%:R) && (3%:R < tmax pex) by vm_compute.
have [h1 h2] := andP h; have o : 0 <= (1 : Q) by exact: ler01.
exact (C42_built eps0_pos pex_wf pex_last h1 h2 o (lexx 0)).
Qed.

Example C38_pose_ex : exists st ptrs v T J idx, [/\ in_step 6 st,
  evalD eps0 (sd_spline st) 3%:R 0 = Ok v, dv_getDesignVariables eps0 st 3%:R = Ok ptrs,
  transformationAndJacobian cayQ eps0 (sd_spline st) 3%:R = Ok (T, J, idx) &
  localCoefficientVectorIndices eps0 (sd_spline st) 3%:R = Ok idx].
Proof.
have [nd h /andP[h1 h2]] := C42_ex.
have [T0 [T [J [idx [js [tj [idxv [_ _ [e1 e2] _ _]]]]]]]] :=
  C42_registered eps0_pos pex_wf pex_last (cayley Q) (erefl : bs_dim pex = 6%N) h h1 h2.
have [st [_ sE ist _]] := dv_new_ok (erefl : bs_dim pex = 6%N).
have [q1 q2] := andP pex_range.
have [b [w [bn lv _ H]]] := local_form pex_wf eps0_pos q1 q2.
have [v [? [? [e3 _ _ _ _]]]] := H (bs_coef pex) 0%N; rewrite with_coef_id in e3.
have [||ptrs e4 _] := getDesignVariables_ok (t := 3%:R) (eps := eps0) (b := b) (k := bs_order pex) ist.
- by rewrite sE; exact: bn.
- by rewrite sE; exact: lv.
exists st, ptrs, v, T, J, idx; rewrite sE.
by split; [exact: ist|exact: e3|exact: e4|exact: e1|exact: e2].
Qed.

(* The vector handed to the time expression is the time derivative of the pose. *)
Theorem C42_time_jacobian : forall (F : realFieldType) (eps : F) (s : bspline F), 0 < eps -> wf s ->
  eps <= last_len s -> forall (R : rotation F) i t ndv nd js tj, bs_dim s = 6%N -> inside s i t ->
  rot_deriv R -> rot_ext R -> to_jacobians eps R s ndv nd t = Ok (js, tj) ->
  exists2 T, transformation R eps s t = Ok T &
    has_mrate 4 4 (transformation R eps s) t (turned4 tj T).
Proof. by move=> F eps s e0 wfs el; exact: to_time_rate. Qed.
Print Assumptions C42_time_jacobian.
Example C42_time_ex : exists nd js tj, to_jacobians eps0 cayQ pex (bs_ncoef pex) nd 3%:R = Ok (js, tj).
Proof.
have [nd h /andP[h1 h2]] := C42_ex.
have [T0 [T [J [idx [js [tj [idxv [_ _ _ e _]]]]]]]] :=
  C42_registered eps0_pos pex_wf pex_last (cayley Q) (erefl : bs_dim pex = 6%N) h h1 h2.
by exists nd, js, tj; exact: e.
Qed.

(* Without "the last valid segment is at least as long as the snap distance" an accepted
   time uses a coefficient that was not registered. *)
Theorem C42_refuted : exists (R : rotation Q) (s : bspline Q) (iT t : Q) nd T idx c,
  [/\ wf s /\ bs_dim s = 6%N, 0 < last_len s, tmin s <= iT < tmax s,
      to_new eps0 s iT 0 0 = Ok nd /\ to_value eps0 R s nd t = Ok T &
      [/\ localVvCoefficientVectorIndices eps0 s t = Ok idx, c \in idx & c \notin to_idx nd]].
Proof. exact time_offset_refuted. Qed.
Print Assumptions C42_refuted.

(* ------------------------------------------------------------------ C43 *)
Section C43.
Variables (F : realFieldType) (wtol : F) (s0 : bspline F) (W : dmat F) (eo : nat) (me : motion_error F).
Let D := bs_dim s0.
Let C := bs_ncoef s0.
(* the term was built from a spline with symmetric weights *)
Hypotheses (wfs : wf s0) (t0 : 0 <= wtol) (Wr : dm_rows W = D) (Wc : dm_cols W = D).
Hypothesis sW : forall r c, (r < D)%N -> (c < D)%N -> W r c = W c r.
Hypothesis built : me_new wtol s0 W eo = Ok me.
(* the order actually used: at most the spline order minus one *)
Let d := if (bs_order s0 <= eo)%N && (2 <= bs_order s0)%N then (bs_order s0).-1 else eo.
(* coefficients at the time of use; active variables and their places *)
Variables (Cf : mat F) (active : nat -> bool) (blk base : nat -> nat).
Let s := with_coef s0 Cf.
Let pos i := base (blk i).

(* The value is the integral of the weighted d-th derivative of the current curve. *)
Theorem C43_value : forall G, antiderivative_of s0 (fun i => fsum D (fun r => fsum D (fun q => W r q *:
    ((spline_piece s r i)^`(d) * (spline_piece s q i)^`(d))))) G ->
  me_error me s = Ok (G (tmax s0) - G (tmin s0)).
Proof. exact (fun G => @me_value F wtol s0 W eo wfs t0 Wr Wc sW Cf me G built). Qed.

Theorem C43_nonneg : (forall v : nat -> F, 0 <= bil D D v W v) ->
  exists2 E, me_error me s = Ok E & 0 <= E.
Proof. exact (@me_nonneg F wtol s0 W eo wfs t0 Wr Wc sW Cf me built). Qed.

(* c^T Q c and rhs() = -Q c, with c the stacked coefficients *)
Theorem C43_quadratic : let N := (D * C)%N in
  me_error me s = Ok (bil N N (coefficientVector s) (me_Q me) (coefficientVector s)) /\
  exists2 b, me_rhs me s = Ok b &
    forall x, b x = - fsum N (fun y => me_Q me x y * coefficientVector s y).
Proof. exact (@me_quadratic F wtol s0 W eo wfs t0 Wr Wc sW Cf me built). Qed.

(* buildHessian adds Q and -Q c at the places of the active variables and nothing elsewhere *)
Theorem C43_build : ascending D C active pos -> forall (H0 : mat F) (rhs0 : vec F),
  exists H rhs, [/\ me_build me s C active blk base H0 rhs0 = Ok (H, rhs),
   (forall i j r c, (j <= i < C)%N -> active i -> active j -> (r < D)%N -> (c < D)%N ->
     H (pos j + r)%N (pos i + c)%N =
     H0 (pos j + r)%N (pos i + c)%N + me_Q me (j * D + r)%N (i * D + c)%N),
   (forall x y, (forall i j, (j <= i < C)%N -> active i -> active j ->
       ~~ ((pos j <= x < pos j + D) && (pos i <= y < pos i + D)))%N -> H x y = H0 x y),
   (forall i r, (i < C)%N -> active i -> (r < D)%N -> rhs (pos i + r)%N = rhs0 (pos i + r)%N
     - fsum (D * C) (fun y => me_Q me (i * D + r)%N y * coefficientVector s y))
   & (forall x, (forall i, (i < C)%N -> active i -> ~~ (pos i <= x < pos i + D)%N) ->
       rhs x = rhs0 x)].
Proof.
exact (fun asc => @build_entries' F wtol s0 W eo wfs t0 Wr Wc sW Cf active blk base asc me built asc).
Qed.

(* The quadratic model given by H and rhs is exact. *)
Theorem C43_model : ascending D C active pos -> forall H rhs,
  me_build me s C active blk base zerom zerov = Ok (H, rhs) ->
  forall dx, exists E E', [/\ me_error me s = Ok E,
   me_error me (stepped s active pos dx) = Ok E'
   & E' = E - 2%:R * active_sum D C active (fun i r => rhs (pos i + r)%N * dx (pos i + r)%N)
        + active_sum D C active (fun i r => active_sum D C active (fun j c =>
            dx (pos i + r)%N * upper_sym H (pos i + r)%N (pos j + c)%N * dx (pos j + c)%N))].
Proof.
exact (fun asc H rhs hb => me_model wfs t0 Wr Wc sW asc built hb).
Qed.

(* A solution of the normal equations is a global minimum over the active coefficients. *)
Theorem C43_newton : ascending D C active pos -> forall H rhs,
  me_build me s C active blk base zerom zerov = Ok (H, rhs) ->
  forall dx, (forall v : nat -> F, 0 <= bil D D v W v) ->
  solves D C active pos H rhs dx ->
  forall M : mat F, (forall r i, (r < D)%N -> (i < C)%N -> ~~ active i -> M r i = Cf r i) ->
  exists E1 E2, [/\ me_error me (stepped s active pos dx) = Ok E1,
    me_error me (with_coef s0 M) = Ok E2 & E1 <= E2].
Proof.
exact (fun asc H rhs hb => newton_exact wfs t0 Wr Wc sW asc built hb).
Qed.
End C43.
Print Assumptions C43_value.
Print Assumptions C43_nonneg.
Print Assumptions C43_quadratic.
Print Assumptions C43_build.
Print Assumptions C43_model.
Print Assumptions C43_newton.

(* the second of the four coefficients held fixed *)
Example C43_ex : exists me H rhs, [/\ me_new eps0 ex3 exW 1 = Ok me,
  ascending 2 4 (fun i => i != 1%N) (fun i => (2 * i)%N) &
  me_build me (with_coef ex3 zerom) 4 (fun i => i != 1%N) id (fun b => (2 * b)%N) zerom zerov = Ok (H, rhs)].
Proof.
have asc : ascending 2 4 (fun i => i != 1%N) (fun i => (2 * i)%N).
  move=> i j ij _ _ _; have -> : (2 * i + 2 = 2 * i.+1)%N by rewrite mulnS addnC.
  by rewrite leq_mul2l ij.
have [me [e _ _ _ _]] := me_newE 1 ex3_wf (ltW eps0_pos) (erefl : dm_rows exW = bs_dim ex3)
  (erefl : dm_cols exW = bs_dim ex3) exW_sym.
have [H [rhs [hb _ _ _ _]]] := @C43_build Q eps0 ex3 exW 1 me ex3_wf (ltW eps0_pos) erefl erefl
  exW_sym e zerom (fun i => i != 1%N) id (fun b => (2 * b)%N) asc zerom zerov.
by exists me, H, rhs; split; [exact: e|exact: asc|exact: hb].
Qed.

Example C43_newton_ex : exists me H rhs, [/\ me_new 0 lin w1 1 = Ok me,
  me_build me lin 2 (fun i => i == 1%N) id id zerom zerov = Ok (H, rhs),
  (forall v : nat -> Q, 0 <= bil 1 1 v w1 v) &
  solves 1 2 (fun i => i == 1%N) id H rhs (fun _ => -1)].
Proof.
have key : forall (o : outcome (motion_error Q)) (b : motion_error Q -> outcome (mat Q * vec Q)),
  (if o is Ok me then if b me is Ok (H, rhs) then
    [&& upper_sym H 1 1 == 1 & rhs 1%N == -1] else false else false) ->
  exists me H rhs, [/\ o = Ok me, b me = Ok (H, rhs), upper_sym H 1 1 = 1 & rhs 1%N = -1].
  move=> [me|e|] // b; case B: (b me) => [[H rhs]|e|] // /andP[/eqP h /eqP h'].
  by exists me, H, rhs.
have [me [H [rhs [k1 k2 k3 k4]]]] := key (me_new 0 lin w1 1)
  (fun me => me_build me lin 2 (fun i => i == 1%N) id id zerom zerov) lin_newton.
exists me, H, rhs; split; [exact: k1|exact: k2|exact: w1_psd|].
clear key k1 k2; move=> [|[|i]] [|r] // _ _ _; rewrite /active_sum /= !add0r addn0.
by rewrite k3 k4 mul1r.
Qed.

(* With variables in descending order the off-diagonal blocks land below the diagonal, and a
   solver that reads the upper triangle does not find the minimum. *)
Theorem C43_descending_refuted : exists (s : bspline Q) (W : dmat Q) me (pos : nat -> nat) H rhs dx M E1 E2,
  [/\ [/\ wf s, dm_rows W = bs_dim s, dm_cols W = bs_dim s,
          (forall r c, W r c = W c r) & forall v : nat -> Q, 0 <= bil (bs_dim s) (bs_dim s) v W v],
      me_new 0 s W 1 = Ok me,
      (forall i j, (i < bs_ncoef s)%N -> (j < bs_ncoef s)%N -> i <> j ->
         (pos i + bs_dim s <= pos j)%N \/ (pos j + bs_dim s <= pos i)%N),
      me_build me s (bs_ncoef s) (fun _ => true) pos id zerom zerov = Ok (H, rhs) /\
      solves (bs_dim s) (bs_ncoef s) (fun _ => true) pos H rhs dx &
      [/\ me_error me (stepped s (fun _ => true) pos dx) = Ok E1,
          me_error me (with_coef s M) = Ok E2 & E2 < E1]].
Proof. exact descending_refuted. Qed.
Print Assumptions C43_descending_refuted.

(* ------------------------------------------------------------------ C51 *)
(* An expression for the end of the curve is wrong after a segment was appended. *)
Theorem C51_refuted : forall (qr ldlt : nat -> mat Q -> vec Q -> vec Q),
  exists (st st' : spline_dv Q) t p junk nd v js i dp st2 v2,
  let ptr := nth 0%N (dv_ids st') i in
  [/\ wf (sd_spline st) /\ 0 < last_len (sd_spline st), dv_new 1 (sd_spline st) = Ok st,
      tmin (sd_spline st) <= nd_time nd <= tmax (sd_spline st) /\
      dv_toExpression eps0 1 st (nd_time nd) (nd_order nd) = Ok nd,
      dv_step eps0 1 qr ldlt st (AddSegment t p junk) = Ok st' /\ (i < bs_ncoef (sd_spline st'))%N &
   [/\ node_value eps0 1 st' nd = Ok v, node_jacobians eps0 1 st' nd = Ok js,
       dv_update st' ptr dp = Ok st2, node_value eps0 1 st2 nd = Ok v2 &
       v2 0%N <> v 0%N + predicted 1 js ptr dp 0%N]].
Proof. exact append_refuted. Qed.
Print Assumptions C51_refuted.

(* It stays right for times at least eps before the end (missing: the last eps). *)
Theorem C51_append_partial : forall (F : realFieldType) (eps : F) D qr ldlt os (st st' : spline_dv F)
  x d nd v,
  0 < eps -> wf (sd_spline st) -> 0 < last_len (sd_spline st) -> in_step D st ->
  dv_toExpression eps D st x d = Ok nd ->
  dv_run eps D qr ldlt st os = Ok st' -> ~~ has (@is_remove F) os ->
  tmin (sd_spline st) <= x -> x <= tmax (sd_spline st) - eps ->
  node_value eps D st' nd = Ok v ->
  exists2 js, node_jacobians eps D st' nd = Ok js &
  forall i dp, (i < bs_ncoef (sd_spline st'))%N -> let p := nth 0%N (dv_ids st') i in
    exists st2 v2, [/\ dv_update st' p dp = Ok st2, node_value eps D st2 nd = Ok v2 &
      forall r, (r < D)%N -> v2 r = v r + predicted D js p dp r].
Proof. exact append_expression. Qed.
Print Assumptions C51_append_partial.
Example C51_append_ex : exists2 st, in_step 1 st &
  [/\ wf (sd_spline st), 0 < last_len (sd_spline st) &
      tmin (sd_spline st) <= lt0 <= tmax (sd_spline st) - eps0].
Proof.
have [st [_ sE ist _]] := dv_new_ok (erefl : bs_dim lin = 1%N).
have h : tmin lin <= lt0 <= tmax lin - eps0 by vm_compute.
by exists st; [exact: ist|rewrite sE; split; [exact: lin_wf|exact: lin_last|exact: h]].
Qed.
