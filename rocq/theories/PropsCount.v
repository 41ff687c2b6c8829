(* Property C74: counting functions. *)
From mathcomp Require Import all_ssreflect all_algebra.
From Verif Require Import Prelude CoxDeBoor BSplineModel BSplineSpec DMModel IntegratorModel CountProofs Examples.
Set Implicit Arguments.
Unset Strict Implicit.
Unset Printing Implicit Defensive.
Import GRing.Theory Num.Theory Order.Theory.
Local Open Scope ring_scope.

(* ------------------------------------------------------------------ C74 *)
(* The number of derivative vectors an evaluator prepares never exceeds order + 1, whatever the
   template arguments: the hypothesis np <= k.+1 of the evaluation theorems (C22 on) is met by
   the code. *)
Theorem C74_prepared : forall static k imax, (dm_numPrepared static k imax <= k.+1)%N.
Proof. exact prepared_bound. Qed.
Print Assumptions C74_prepared.
(* if order and maximal derivative m <= order are template constants, 0 .. m are prepared *)
Theorem C74_prepared_count : forall k m, (m <= k)%N -> dm_numPrepared true k (Some m) = m.+1.
Proof. exact prepared_count. Qed.
Print Assumptions C74_prepared_count.
Example C74_prepared_ex : dm_numPrepared true 4 (Some 7%N) = 5%N /\ dm_numPrepared true 4 (Some 2%N) = 3%N.
Proof. by []. Qed.

(* The two index maps are inverse to each other between stored basis matrices and segments of
   the valid interval, and matrix b was computed for the segment it is mapped to. *)
Theorem C74_basis_to_knot : forall (F : realFieldType) (s : bspline F) b, wf s ->
  (b < size (bs_basis s))%N ->
  let i := startingKnotIndexFromBasisMatrixIndex (bs_order s) b in
  [/\ basisMatrixIndexFromStartingKnotIndex (bs_order s) i = b,
      (bs_order s <= i.+1)%N, (i + bs_order s < size (bs_knots s))%N &
      nth (fun _ _ => 0) (bs_basis s) b = Mmat (nth 0 (bs_knots s)) (bs_order s) i].
Proof. exact basis_index. Qed.
Print Assumptions C74_basis_to_knot.
Theorem C74_knot_to_basis : forall (F : realFieldType) (s : bspline F) i, wf s ->
  (bs_order s <= i.+1)%N -> (i + bs_order s < size (bs_knots s))%N ->
  let b := basisMatrixIndexFromStartingKnotIndex (bs_order s) i in
  (b < size (bs_basis s))%N /\ startingKnotIndexFromBasisMatrixIndex (bs_order s) b = i.
Proof. exact basis_index_inv. Qed.
Print Assumptions C74_knot_to_basis.
Example C74_basis_ex : wf ex3 /\ (1 < size (bs_basis ex3))%N /\ startingKnotIndexFromBasisMatrixIndex 3 1 = 3%N.
Proof. by split; [exact: ex3_wf|]. Qed.

(* The number an integrator reports is the number of points it visits. *)
Theorem C74_points : forall (F : realFieldType) alg (a b : F) n, (2 <= n)%N ->
  exists s xs, [/\ getIntegrator (@dbl_div F) alg a b n = Ok s,
    samplePoints (@dbl_div F) alg a b n = Ok xs & getNIntegrationPoints s = (size xs)%:Z].
Proof. exact point_count. Qed.
Print Assumptions C74_points.
Example C74_points_ex :
  if getIntegrator (@dbl_div Q) Simpson 0 2%:R 4 is Ok s then getNIntegrationPoints s == 5%:Z else false.
Proof. by vm_compute. Qed.
