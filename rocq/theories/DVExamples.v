(* Concrete design variables, time-offset nodes and motion error terms over the rationals. *)
From mathcomp Require Import all_ssreflect all_algebra.
From Verif Require Import Prelude CoxDeBoor BSplineModel BSplineSpec PoseModel DVModel DVSpec
  MotionSpec PoseCayley Examples PoseExamples.
Set Implicit Arguments.
Unset Strict Implicit.
Unset Printing Implicit Defensive.
Import GRing.Theory Num.Theory.
Local Open Scope ring_scope.

Lemma ex3_local : localVvCoefficientVectorIndices eps0 ex3 3%:R = Ok [:: 1; 2; 3]%N.
Proof. exact: ex3_idx3. Qed.

(* order 2, one valid segment [1,2], one row *)
Definition lin_knots : seq Q := [:: 0; 1; 2%:R; 3%:R].
Definition lin_coef : dmat Q := DMat 1 2 (fun _ j => j%:R).
Definition lin : bspline Q := BSpline 2 lin_knots lin_coef (initializeBasisMatrices 2 lin_knots).
Lemma lin_wf : wf lin. Proof. by split. Qed.
Lemma lin_last : 0 < last_len lin. Proof. by vm_compute. Qed.
Definition one1 : dvec Q := DVec 1 (fun _ => 1).

(* expression at the end of the curve, before and after a segment was appended *)
Section Append.
Variables qr ldlt : nat -> mat Q -> vec Q -> vec Q.
Definition lin_st : spline_dv Q := SplineDV lin 0 [:: MappedDV 0 0 0; MappedDV 1 0 1] 2.
Definition lin_op : dv_op Q := AddSegment 3%:R one1 zerov.
Definition lin_nd : node Q := Node [:: 0; 1]%N 2%:R 0.
Lemma new_two (s : bspline Q) : bs_dim s = 1%N -> bs_ncoef s = 2%N ->
  dv_new 1 s = Ok (SplineDV s 0 [:: MappedDV 0 0 0; MappedDV 1 0 1] 2).
Proof. move=> d n. rewrite /dv_new n !oloopSr // oloop_nil // /push_dv /fixedSizeVv /= d n.
by rewrite /= d n.
Qed.
Lemma lin_st_new : dv_new 1 lin = Ok lin_st. Proof. exact: new_two. Qed.
Lemma lin_ptrs : dv_getDesignVariables eps0 lin_st 2%:R = Ok [:: 0; 1]%N.
Proof. by vm_compute. Qed.
Lemma lin_nd_new : dv_toExpression eps0 1 lin_st 2%:R 0 = Ok lin_nd.
Proof.
have d : bs_dim (sd_spline lin_st) = 1%N by [].
by rewrite /dv_toExpression lin_ptrs; move: lin_st d => s d; rewrite [obind _ _]/= d.
Qed.
(* the Jacobian blocks after the append, with the pointers of the old and of a new
   expression at the same time *)
Lemma lin_after :
  if dv_step eps0 1 qr ldlt lin_st lin_op is Ok st' then
  if dv_toExpression eps0 1 st' 2%:R 0 is Ok nd' then
  if node_jacobians eps0 1 st' lin_nd is Ok [:: (p0, J0); (p1, J1)] then
  if node_jacobians eps0 1 st' nd' is Ok [:: (q0, K0); (q1, K1)] then
  if node_value eps0 1 st' nd' is Ok _ then
    [&& bs_ncoef (sd_spline st') == 3%N, (nd_time nd' == 2%:R), (nd_order nd' == 0%N),
     (p0 == 0%N) && (p1 == 1%N), (q0 == 1%N) && (q1 == 2%N),
     nth 0%N (dv_ids st') 1 == 1%N,
     (J0 0%N 0%N == 1) && (J1 0%N 0%N == 0) & (K0 0%N 0%N == 1) && (K1 0%N 0%N == 0)]
  else false else false else false else false else false.
Proof. by vm_compute. Qed.
(* append, drop the first segment *)
Lemma lin_run : if dv_run eps0 1 qr ldlt lin_st [:: lin_op; RemoveSegment _] is Ok st' then
  (dv_ids st' == [:: 1; 2]%N) && (bs_ncoef (sd_spline st') == 2%N) else false.
Proof. by vm_compute. Qed.
Lemma lin_call : if spline_call eps0 qr ldlt lin lin_op is Ok s then bs_ncoef s == 3%N else false.
Proof. by vm_compute. Qed.
End Append.

(* last valid segment [2, 2.05] shorter than the snap distance *)
Definition short_knots : seq Q := [:: 0; 1; 2%:R; 2%:R + 20%:R^-1; 3%:R].
Definition short_coef : dmat Q := DMat 6 3 (fun r j => (r + j * j)%N%:R).
Definition short : bspline Q :=
  BSpline 2 short_knots short_coef (initializeBasisMatrices 2 short_knots).
Lemma short_wf : wf short.
Proof.
have h : forall i j, (i <= j)%N -> (j < 5)%N -> kn short i <= kn short j.
  have t : all (fun j => all (fun i => kn short i <= kn short j) (iota 0 j.+1)) (iota 0 5) by vm_compute.
  move=> i j ij j5; have /(allP t) /allP t' : j \in iota 0 5 by rewrite mem_iota.
  by apply: t'; rewrite mem_iota ltnS.
by split.
Qed.
Definition short_t : Q := 2%:R - 100%:R^-1.
Lemma short_node :
  if to_new eps0 short lt0 0 0 is Ok nd then
    [&& to_bmin nd <= short_t, short_t < to_bmax nd, to_idx nd == [:: 0; 1]%N,
      (if localVvCoefficientVectorIndices eps0 short short_t is Ok l then l == [:: 1; 2]%N else false)
    & (if to_jacobians eps0 cayQ short 3 nd short_t is Ok (js, _) then unzip1 js == [:: 0; 1]%N else false)]
  else false.
Proof. by vm_compute. Qed.
Lemma short_value : if to_new eps0 short lt0 0 0 is Ok nd then
    if to_value eps0 cayQ short nd short_t is Ok _ then true else false else false.
Proof. by vm_compute. Qed.
Lemma short_facts : [&& 0 < last_len short, tmin short <= lt0 & lt0 < tmax short].
Proof. by vm_compute. Qed.

(* motion error with weight 1 on the first derivative *)
Definition w1 : dmat Q := DMat 1 1 (fun _ _ => 1).
Lemma lin_Q : if me_new 0 lin w1 1 is Ok me then
  [&& me_Q me 0%N 0%N == 1, me_Q me 0%N 1%N == -1, me_Q me 1%N 0%N == -1 & me_Q me 1%N 1%N == 1] else false.
Proof. by vm_compute. Qed.

(* the two variables in descending order of their places in the unknown vector *)
Definition swap2 (i : nat) : nat := (1 - i)%N.
Definition swap_dx : nat -> Q := fun x => if x == 0%N then -1 else 1.
Lemma lin_swapped : if me_new 0 lin w1 1 is Ok me then
  if me_build me lin 2 (fun _ => true) swap2 id zerom zerov is Ok (H, rhs) then
  if me_error me (stepped lin (fun _ => true) swap2 swap_dx) is Ok E1 then
  if me_error me (with_coef lin (fun _ _ => 0)) is Ok E2 then
  [&& upper_sym H 0 0 == 1, upper_sym H 0 1 == 0, upper_sym H 1 0 == 0, upper_sym H 1 1 == 1,
      rhs 0%N == -1, rhs 1%N == 1 & E2 < E1]
  else false else false else false else false.
Proof. by vm_compute. Qed.

(* in ascending order, the first coefficient held fixed *)
Lemma lin_newton : if me_new 0 lin w1 1 is Ok me then
  if me_build me lin 2 (fun i => i == 1%N) id id zerom zerov is Ok (H, rhs) then
  [&& upper_sym H 1 1 == 1 & rhs 1%N == -1] else false else false.
Proof. by vm_compute. Qed.
Lemma w1_psd (v : nat -> Q) : 0 <= bil 1 1 v w1 v.
Proof. by rewrite /bil /= !add0r mulr1 -expr2 sqr_ge0. Qed.
