(* Concrete pose splines over the rationals. *)
From mathcomp Require Import all_ssreflect all_algebra.
From Verif Require Import Prelude CoxDeBoor BSplineModel BSplineSpec PoseModel PoseSpec PoseCayley
  Examples.
Set Implicit Arguments.
Unset Strict Implicit.
Unset Printing Implicit Defensive.
Import GRing.Theory Num.Theory.
Local Open Scope ring_scope.

(* rotation parameters move, position moves *)
Definition pex_coef : dmat Q := DMat 6 4 (fun r j =>
  if (r < 3)%N then (r + j * j)%N%:R else if r == 3%N then j%:R else (r == 4%N)%:R).
Definition pex : bspline Q :=
  BSpline 3 ex3_knots pex_coef (initializeBasisMatrices 3 ex3_knots).
(* constant rotation parameters (1,0,0): a quarter turn about the first axis *)
Definition qex_coef : dmat Q := DMat 6 4 (fun r j =>
  if (r < 3)%N then (r + j * j)%N%:R else (r == 3%N)%:R).
Definition qex : bspline Q :=
  BSpline 3 ex3_knots qex_coef (initializeBasisMatrices 3 ex3_knots).
(* order 2, rotation parameters (t,0,0) *)
Definition lex_knots : seq Q := [:: 0; 1; 2%:R; 3%:R].
Definition lex_coef : dmat Q := DMat 6 2 (fun r j => if r == 3%N then j.+1%:R else 0).
Definition lex : bspline Q :=
  BSpline 2 lex_knots lex_coef (initializeBasisMatrices 2 lex_knots).
(* zero rotation parameters *)
Definition zex_coef : dmat Q := DMat 6 4 (fun r j =>
  if (r < 3)%N then (r + j * j)%N%:R else 0).
Definition zex : bspline Q :=
  BSpline 3 ex3_knots zex_coef (initializeBasisMatrices 3 ex3_knots).

Lemma pex_wf : wf pex. Proof. by split. Qed.
Lemma qex_wf : wf qex. Proof. by split. Qed.
Lemma zex_wf : wf zex. Proof. by split. Qed.
Lemma lex_wf : wf lex. Proof. by split. Qed.
Lemma pex_range : (tmin pex <= 3%:R) && (3%:R < tmax pex + eps0). Proof. by vm_compute. Qed.
Lemma qex_range : (tmin qex <= 3%:R) && (3%:R < tmax qex + eps0). Proof. by vm_compute. Qed.
Lemma zex_range : (tmin zex <= 3%:R) && (3%:R < tmax zex + eps0). Proof. by vm_compute. Qed.
Lemma pex_last : eps0 <= last_len pex. Proof. by vm_compute. Qed.
Lemma lex_last : eps0 <= last_len lex. Proof. by vm_compute. Qed.
Definition lt0 : Q := 3%:R / 2%:R.
Lemma pex_inside : inside pex 3 3%:R.
Proof.
have h : kn pex 3 < 3%:R < kn pex 4 by vm_compute.
by split; [exact: isT|exact: isT|exact: h].
Qed.
Lemma lex_inside : inside lex 1 lt0.
Proof.
have h : kn lex 1 < lt0 < kn lex 2 by vm_compute.
by split; [exact: isT|exact: isT|exact: h].
Qed.
Notation cayQ := (cayley Q).

(* entry of a matrix outcome *)
Definition okm_at (o : outcome (mat Q)) (r c : nat) (q : Q) : bool :=
  if o is Ok v then v r c == q else false.

(* moving one position entry (row 1, column 2) *)
Definition qdir : mat Q := fun r j => ((r == 1%N) && (j == 2%N))%:R.
(* what the reported Jacobian predicts for component 1 differs from the true derivative *)
Lemma qex_differ :
  if evalJ6 eps0 qex 3%:R 0 is Ok (v0, J0, _) then
  if evalJ6 eps0 qex 3%:R 2 is Ok (v1, J1, idx) then
    dir qex J1 idx qdir 1%N !=
    dir qex (body_frame_J (rotM cayQ (tail3 v0)) (rotS cayQ (tail3 v0)) v1 J0 J1) idx qdir 1%N
  else false else false.
Proof. by vm_compute. Qed.
(* the sign of the two angular velocities *)
Lemma pex_sign :
  if angularVelocity cayQ eps0 pex 3%:R is Ok w then
  if angularVelocityAndJacobian cayQ eps0 pex 3%:R is Ok (v, _, _) then v 0%N != w 0%N
  else false else false.
Proof. by vm_compute. Qed.
(* angular acceleration of a turn about a fixed axis with parameter t *)
Lemma lex_acc :
  if angularAccelerationBodyFrame cayQ eps0 lex lt0 is Ok a then
  if orientation cayQ eps0 lex lt0 is Ok C then
  if evalD6 eps0 lex lt0 0 is Ok v0 then
  if evalD6 eps0 lex lt0 1 is Ok v1 then
    a 0%N != a 0%N - mulv 3 (trm C) (mulv 3 (rotAV cayQ (tail3 v0) (tail3 v1)).2 (tail3 v1)) 0%N
  else false else false else false else false.
Proof. by vm_compute. Qed.
