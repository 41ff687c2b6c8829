(* Error terms and Euclidean expressions on vector splines. *)
From mathcomp Require Import all_ssreflect all_algebra.
From mathcomp.algebra_tactics Require Import ring.
From Verif Require Import Prelude BSplineModel BSplineSpec PoseModel DVModel DVSpec DVProofs DVMainProofs
  SimpleErrModel.
Set Implicit Arguments.
Unset Strict Implicit.
Unset Printing Implicit Defensive.
Import GRing.Theory Num.Theory.
Local Open Scope ring_scope.

Section SimpleErr.
Variables (F : realFieldType) (eps : F).

Lemma simple_error (st : spline_dv F) t d nd v y :
  in_step 1 st -> dv_toExpression eps 1 st t d = Ok nd -> evalD eps (sd_spline st) t d = Ok v ->
  let se := se_new nd y in
  exists e js, [/\ se_evaluateError eps 1 st se = Ok (e, (v 0%N - y 0%N) ^+ 2),
    e 0%N = v 0%N - y 0%N, se_evaluateJacobians eps 1 st se = Ok js, unzip1 js = se_dvs se &
    forall i dp, (i < bs_ncoef (sd_spline st))%N -> let p := nth 0%N (dv_ids st) i in
      exists st' e', [/\ dv_update st p dp = Ok st', in_step 1 st',
        se_evaluateError eps 1 st' se = Ok (e', (e 0%N + predicted 1 js p dp 0%N) ^+ 2) &
        e' 0%N = e 0%N + predicted 1 js p dp 0%N]].
Proof.
move=> ist E1 ev se; have dE : bs_dim (sd_spline st) = 1%N by case: ist.
have [ptrs hp nE] : exists2 ptrs, dv_getDesignVariables eps st t = Ok ptrs & nd = Node ptrs t d.
  move: E1; rewrite /dv_toExpression; case: (dv_getDesignVariables _ _ _) => [ptrs|e|] //=.
  by rewrite /sm_assert dE eqxx => -[<-]; exists ptrs.
have E2 : node_value eps 1 st nd = Ok v by rewrite /node_value nE /= ev /= /ub_unless dE eqxx.
have [b [js [h1 h2 h3 h4 h5]]] := expression_aligned ist E1 E2.
have dot1 (x : vec F) : dotv 1 x x = x 0%N ^+ 2 by rewrite /dotv fsumE big_ord1 expr2.
exists (fun r => v r - y r), js; split=> //.
- by rewrite /se_evaluateError /= E2 /= dot1.
- rewrite h4 /se /= nE /=; have [ptrs' hp' [sz nth']] := getDesignVariables_ok ist h2 h1.
  move: hp'; rewrite hp => -[->]; apply: (@eq_from_nth _ 0%N); first by rewrite size_map size_iota sz.
  rewrite size_map size_iota => q qk; rewrite (nth_map 0%N) ?size_iota // nth_iota //.
  by rewrite nth'.
move=> i dp ic p; have [st' [v' [u1 u2 u3 u4]]] := h5 i dp ic.
exists st', (fun r => v' r - y r); split=> //.
  by rewrite /se_evaluateError /= u3 /= dot1 u4 // addrAC.
by rewrite u4 // addrAC.
Qed.

Lemma simple_error_dim D (st : spline_dv F) nd v y : D <> 1%N ->
  node_value eps D st nd = Ok v -> se_evaluateError eps D st (se_new nd y) = UB.
Proof. by move=> /eqP/negbTE D1 E; rewrite /se_evaluateError /= E /= /ub_unless D1. Qed.

Lemma euclidean_expression (st : spline_dv F) t d v :
  in_step 3 st -> evalD eps (sd_spline st) t d = Ok v ->
  forall nd, ed_toEuclideanExpression eps st t d = Ok nd ->
  exists js, [/\ ed_toEuclidean eps st t d = Ok v, ed_node_value eps st nd = Ok v,
    ed_node_jacobians eps st nd = Ok js, unzip1 js = nd_dvs nd &
    forall i dp, (i < bs_ncoef (sd_spline st))%N -> let p := nth 0%N (dv_ids st) i in
      exists st' v', [/\ dv_update st p dp = Ok st', in_step 3 st',
        ed_node_value eps st' nd = Ok v' &
        forall r, (r < 3)%N -> v' r = v r + predicted 3 js p dp r]].
Proof.
move=> ist ev nd; have dE : bs_dim (sd_spline st) = 3%N by case: ist.
rewrite /ed_toEuclideanExpression; case hp: (dv_getDesignVariables _ _ _) => [ptrs|e|] //= -[nE].
have E1 : dv_toExpression eps 3 st t d = Ok nd by rewrite /dv_toExpression hp /= /sm_assert dE nE.
have E2 : node_value eps 3 st nd = Ok v by rewrite /node_value -nE /= ev /= /ub_unless dE eqxx.
have [b [js [h1 h2 h3 h4 h5]]] := expression_aligned ist E1 E2.
exists js; split=> //.
- by rewrite /ed_toEuclidean ev /= /ub_unless dE eqxx.
- rewrite h4 -nE /=; have [ptrs' hp' [sz nth']] := getDesignVariables_ok ist h2 h1.
  move: hp'; rewrite hp => -[->]; apply: (@eq_from_nth _ 0%N); first by rewrite size_map size_iota sz.
  rewrite size_map size_iota => q qk; rewrite (nth_map 0%N) ?size_iota // nth_iota //.
  by rewrite nth'.
Qed.
End SimpleErr.
