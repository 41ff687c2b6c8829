(* Concrete splines over the rationals, used by the examples beside the theorems and as
   counter-examples. *)
From mathcomp Require Import all_ssreflect all_algebra.
From Verif Require Import Prelude CoxDeBoor BSplineModel BSplineSpec.
Set Implicit Arguments.
Unset Strict Implicit.
Unset Printing Implicit Defensive.
Import GRing.Theory Num.Theory.
Local Open Scope ring_scope.

Notation Q := rat_realFieldType.
Definition eps0 : Q := (10%:R)^-1.

(* order 3, a repeated knot, two valid segments [1,2) and [2,4], two rows *)
Definition ex3_knots : seq Q := [:: 0; 0; 1; 2%:R; 4%:R; 5%:R; 6%:R].
Definition ex3_coef : dmat Q := DMat 2 4 (fun r j => (r + j * j)%N%:R).
Definition ex3 : bspline Q :=
  BSpline 3 ex3_knots ex3_coef (initializeBasisMatrices 3 ex3_knots).

Lemma ex3_wf : wf ex3. Proof. by split. Qed.
Lemma ex3_tmin : tmin ex3 = 1. Proof. by []. Qed.
Lemma ex3_tmax : tmax ex3 = 4%:R. Proof. by []. Qed.
Lemma ex3_last : eps0 <= last_len ex3. Proof. by vm_compute. Qed.
Lemma eps0_pos : 0 < eps0. Proof. by vm_compute. Qed.
Lemma ex3_set : exists2 s0, bs_new Q 3 = Ok s0 &
  setKnotsAndCoefficients s0 ex3_knots ex3_coef = Ok ex3.
Proof. by eexists; first reflexivity. Qed.

(* boolean test: the outcome is a vector whose entry r is q *)
Definition ok_at (o : outcome (vec Q)) (r : nat) (q : Q) : bool :=
  if o is Ok v then v r == q else false.

(* the model computes: value and first derivative at t = 3 *)
Lemma ex3_value : ok_at (evalD eps0 ex3 3%:R 0) 0 (13%:R / 3%:R). Proof. by vm_compute. Qed.
Lemma ex3_deriv : ok_at (evalD eps0 ex3 3%:R 1) 0 (8%:R / 3%:R). Proof. by vm_compute. Qed.
Lemma ex3_idx1 : localVvCoefficientVectorIndices eps0 ex3 1 = Ok [:: 0; 1; 2]%N.
Proof. by vm_compute. Qed.
Lemma ex3_idx3 : localVvCoefficientVectorIndices eps0 ex3 3%:R = Ok [:: 1; 2; 3]%N.
Proof. by vm_compute. Qed.
Lemma ex3_seg3 : segment_of eps0 ex3 3%:R 3.
Proof.
have e : (`|tmax ex3 - 3%:R| < eps0) = false by vm_compute.
have h : (kn ex3 3 <= 3%:R < kn ex3 4) by vm_compute.
by rewrite /segment_of e; split; [ | |exact: h].
Qed.
Lemma ex3_pos3 : kn ex3 3 < kn ex3 4. Proof. by vm_compute. Qed.
