(* Specification for quadratic integrals as error terms: cost of a term, textbook weights. *)
From mathcomp Require Import all_ssreflect all_algebra.
From Verif Require Import IntegratorModel.
Set Implicit Arguments.
Unset Strict Implicit.
Unset Printing Implicit Defensive.
Import GRing.Theory Num.Theory.
Local Open Scope ring_scope.

Section Spec.
Variable F : realFieldType.
(* weighted squared error |S e|^2 *)
Definition sq_cost d m (S : 'M[F]_(m, d)) (e : 'cV[F]_d) : F :=
  \sum_(i < m) ((S *m e) i 0) ^+ 2.
(* number of panels for n requested points *)
Definition panels (alg : rule) (n : nat) : nat :=
  if alg is Simpson then if odd n then n.-1 else n else n.-1.
(* weights of the composite rules with M panels of length h: h/3 (1 4 2 4 ... 2 4 1) and
   h/2 (1 2 2 ... 2 1) *)
Definition rule_weight (alg : rule) (h : F) (M j : nat) : F :=
  match alg with
  | Simpson => h / 3%:R * (if (j == 0%N) || (j == M) then 1 else if odd j then 4%:R else 2%:R)
  | Trapezoidal => h / 2%:R * (if (j == 0%N) || (j == M) then 1 else 2%:R)
  end.
End Spec.
