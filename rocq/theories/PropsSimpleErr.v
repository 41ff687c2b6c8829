(* Property C73: the simple spline error term and Euclidean spline expressions. *)
From mathcomp Require Import all_ssreflect all_algebra.
From Verif Require Import Prelude BSplineModel BSplineSpec PoseModel DVModel DVSpec DVProofs
  SimpleErrModel SimpleErrProofs Examples DVExamples PropsDV.
Set Implicit Arguments.
Unset Strict Implicit.
Unset Printing Implicit Defensive.
Import GRing.Theory Num.Theory.
Local Open Scope ring_scope.

#[local] Opaque evalD evalDAndJacobian lin ex3 eps0 dv_toExpression node_value node_jacobians
  localVvCoefficientVectorIndices dv_getDesignVariables.

(* ------------------------------------------------------------------ C73 *)
(* A spline of dimension one: the error is curve minus y, the returned number its square, the
   blocks belong to the registered variables, and after any variable moved by dp the error is the
   old one plus what the blocks say.  Missing: other dimensions, see the next theorem. *)
Theorem C73_error_partial : forall (F : realFieldType) (eps : F) (st : spline_dv F) t d nd v y,
  in_step 1 st -> dv_toExpression eps 1 st t d = Ok nd -> evalD eps (sd_spline st) t d = Ok v ->
  let se := se_new nd y in
  exists e js, [/\ se_evaluateError eps 1 st se = Ok (e, (v 0%N - y 0%N) ^+ 2),
    e 0%N = v 0%N - y 0%N, se_evaluateJacobians eps 1 st se = Ok js, unzip1 js = se_dvs se &
    forall i dp, (i < bs_ncoef (sd_spline st))%N -> let p := nth 0%N (dv_ids st) i in
      exists st' e', [/\ dv_update st p dp = Ok st', in_step 1 st',
        se_evaluateError eps 1 st' se = Ok (e', (e 0%N + predicted 1 js p dp 0%N) ^+ 2) &
        e' 0%N = e 0%N + predicted 1 js p dp 0%N]].
Proof. exact simple_error. Qed.
Print Assumptions C73_error_partial.
Lemma C73_lin_at : ok_at (evalD eps0 lin 2%:R 0) 0 1.
Proof. by vm_compute. Qed.
Example C73_error_ex : exists v, [/\ in_step 1 lin_st, dv_toExpression eps0 1 lin_st 2%:R 0 = Ok lin_nd,
  evalD eps0 (sd_spline lin_st) 2%:R 0 = Ok v & v 0%N = 1].
Proof.
have [st [h1 h2 h3 _]] := dv_new_ok (erefl : bs_dim lin = 1%N).
have h4 : in_step 1 lin_st by move: h1; rewrite lin_st_new => -[->].
have [v h5 h6] : exists2 v, evalD eps0 lin 2%:R 0 = Ok v & v 0%N = 1.
  by move: C73_lin_at; case: (evalD eps0 lin 2%:R 0) => [v|e|] // /eqP h; exists v.
by exists v; split; [exact: h4|exact: lin_nd_new|exact: h5|exact: h6].
Qed.

(* The class is a template over the spline, but its base class stores one number: for every other
   dimension the evaluation breaks the precondition of the assignment although the curve can be
   evaluated. *)
Theorem C73_dimension_refuted : exists (st : spline_dv Q) nd v,
  [/\ in_step 2 st, dv_toExpression eps0 2 st 3%:R 1 = Ok nd, node_value eps0 2 st nd = Ok v &
      forall y, se_evaluateError eps0 2 st (se_new nd y) = UB].
Proof.
have [st [nd [v [h1 _ h2 h3 _]]]] := C38_expression_ex.
by exists st, nd, v; split=> // y; apply: simple_error_dim h3.
Qed.
Print Assumptions C73_dimension_refuted.

(* EuclideanBSplineDesignVariable: value and Jacobian of the expression, as for C38. *)
Theorem C73_euclidean : forall (F : realFieldType) (eps : F) (st : spline_dv F) t d v,
  in_step 3 st -> evalD eps (sd_spline st) t d = Ok v ->
  forall nd, ed_toEuclideanExpression eps st t d = Ok nd ->
  exists js, [/\ ed_toEuclidean eps st t d = Ok v, ed_node_value eps st nd = Ok v,
    ed_node_jacobians eps st nd = Ok js, unzip1 js = nd_dvs nd &
    forall i dp, (i < bs_ncoef (sd_spline st))%N -> let p := nth 0%N (dv_ids st) i in
      exists st' v', [/\ dv_update st p dp = Ok st', in_step 3 st',
        ed_node_value eps st' nd = Ok v' &
        forall r, (r < 3)%N -> v' r = v r + predicted 3 js p dp r]].
Proof. exact euclidean_expression. Qed.
Print Assumptions C73_euclidean.
Definition eu3 : bspline Q :=
  BSpline 2 lin_knots (DMat 3 2 (fun r j => (r + j * 2)%N%:R)) (initializeBasisMatrices 2 lin_knots).
Lemma C73_eu3_at : ok_at (evalD eps0 eu3 (3%:R / 2%:R) 0) 2 3%:R.
Proof. by vm_compute. Qed.
Lemma C73_eu3_idx : localVvCoefficientVectorIndices eps0 eu3 (3%:R / 2%:R) = Ok [:: 0; 1]%N.
Proof. by vm_compute. Qed.
Example C73_euclidean_ex : exists st v nd, [/\ in_step 3 st, evalD eps0 (sd_spline st) (3%:R / 2%:R) 0 = Ok v,
  v 2%N = 3%:R & ed_toEuclideanExpression eps0 st (3%:R / 2%:R) 0 = Ok nd].
Proof.
have [st [_ sE h3 _]] := dv_new_ok (erefl : bs_dim eu3 = 3%N).
have nE : bs_ncoef eu3 = 2%N by exact: erefl.
have lc : localVvCoefficientVectorIndices eps0 (sd_spline st) (3%:R / 2%:R) = Ok (iota 0 2).
  by rewrite sE; exact: C73_eu3_idx.
have [|ptrs h1 _] := getDesignVariables_ok h3 _ lc; first by rewrite sE nE.
have [v h5 h6] : exists2 v, evalD eps0 eu3 (3%:R / 2%:R) 0 = Ok v & v 2%N = 3%:R.
  by move: C73_eu3_at; case: (evalD eps0 eu3 _ 0) => [v|e|] // /eqP h; exists v.
exists st, v, (Node ptrs (3%:R / 2%:R) 0); split; [exact: h3|by rewrite sE; exact: h5|exact: h6|].
by rewrite /ed_toEuclideanExpression h1.
Qed.
