(* Specification: B-spline basis functions by the Cox-de Boor recursion, written without
   reference to the code.  Degree n (order n+1) on a knot sequence t. *)
From mathcomp Require Import all_ssreflect all_algebra.
Set Implicit Arguments.
Unset Strict Implicit.
Unset Printing Implicit Defensive.
Import GRing.Theory Num.Theory.
Local Open Scope ring_scope.

Section CoxDeBoor.
Variable F : realFieldType.
Variable t : nat -> F.

(* Value at x of the basis function number j of degree n; x / 0 = 0 as usual. *)
Fixpoint basis_fun (n j : nat) (x : F) : F :=
  if n is m.+1 then
    (x - t j) / (t (j + m.+1)%N - t j) * basis_fun m j x
    + (t (j + m.+2)%N - x) / (t (j + m.+2)%N - t j.+1) * basis_fun m j.+1 x
  else ((t j <= x) && (x < t j.+1))%:R.

(* The polynomial with which basis function j of degree n coincides on the knot interval
   [t_i, t_(i+1)): the same recursion over polynomials. *)
Fixpoint basis_poly (i n j : nat) : {poly F} :=
  if n is m.+1 then
    (t (j + m.+1)%N - t j)^-1 *: (('X - (t j)%:P) * basis_poly i m j)
    + (t (j + m.+2)%N - t j.+1)^-1 *: (((t (j + m.+2)%N)%:P - 'X) * basis_poly i m j.+1)
  else ((i == j)%:R)%:P.

(* The polynomial piece on [t_i, t_(i+1)) of the curve with scalar coefficients
   c_0 .. c_(m-1). *)
Definition curve_piece (n m : nat) (c : nat -> F) (i : nat) : {poly F} :=
  \sum_(j < m) c j *: basis_poly i n j.

(* The curve as a function of time. *)
Definition curve_fun (n m : nat) (c : nat -> F) (x : F) : F :=
  \sum_(j < m) c j * basis_fun n j x.

(* Greville abscissae (degree n >= 1) *)
Definition greville (n j : nat) : F := (\sum_(r < n) t (j + r.+1)%N) / n%:R.
End CoxDeBoor.

Arguments basis_poly : simpl never.
Arguments basis_fun : simpl never.
