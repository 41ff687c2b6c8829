(* Property C30: fixed-step integrators; C45: the same integrators with integer times. *)
From mathcomp Require Import all_ssreflect all_algebra.
From Verif Require Import Prelude KnotModel IntegratorModel IntegratorProofs Examples.
Set Implicit Arguments.
Unset Strict Implicit.
Unset Printing Implicit Defensive.
Import GRing.Theory Num.Theory Order.Theory.
Local Open Scope ring_scope.

(* ------------------------------------------------------------------ C30 *)
(* Simpson: exact up to degree 3 for every interval (also a > b) and at least two points *)
Theorem C30_simpson : forall (F : realFieldType) (a b : F) (p P : {poly F}) n,
  (2 <= n)%N -> P^`() = p -> (size p <= 4)%N ->
  integrateFunctor (@dbl_div F) (@dbl_id F) Simpson a b (fun x => p.[x] : F^o) n 0 =
  Ok (P.[b] - P.[a] : F^o).
Proof. move=> F a b p P n; exact: (@poly_exact F Simpson a b p P n). Qed.
Print Assumptions C30_simpson.

(* trapezoids: exact up to degree 1 *)
Theorem C30_trapezoid : forall (F : realFieldType) (a b : F) (p P : {poly F}) n,
  (2 <= n)%N -> P^`() = p -> (size p <= 2)%N ->
  integrateFunctor (@dbl_div F) (@dbl_id F) Trapezoidal a b (fun x => p.[x] : F^o) n 0 =
  Ok (P.[b] - P.[a] : F^o).
Proof. move=> F a b p P n; exact: (@poly_exact F Trapezoidal a b p P n). Qed.
Print Assumptions C30_trapezoid.

(* vector-valued polynomials *)
Theorem C30_simpson_vector : forall (F : realFieldType) (V : lmodType F) (a b : F)
  (c : nat -> V) n, (2 <= n)%N ->
  integrateFunctor (@dbl_div F) (@dbl_id F) Simpson a b
    (fun x => \sum_(i < 4) x ^+ i *: c i) n 0 =
  Ok (\sum_(i < 4) (b ^+ i.+1 / i.+1%:R) *: c i - \sum_(i < 4) (a ^+ i.+1 / i.+1%:R) *: c i).
Proof. move=> F V a b c n; exact: (@integrate_exact_any F V Simpson a b c n). Qed.
Print Assumptions C30_simpson_vector.

(* point count (rounded up to odd for Simpson), ends, range and order of the sample points *)
Theorem C30_points : forall (F : realFieldType) alg (a b : F) n, (2 <= n)%N -> exists xs,
  [/\ samplePoints (@dbl_div F) alg a b n = Ok xs,
      size xs = (if alg is Simpson then if odd n then n else n.+1 else n),
      head 0 xs = a, last 0 xs = b &
      a <= b -> all (fun x => a <= x <= b) xs && sorted <=%R xs].
Proof. exact points_spec. Qed.
Print Assumptions C30_points.

(* the result is a fixed combination of the values at these points; the weights sum to b - a *)
Theorem C30_weights : forall (F : realFieldType) (V : lmodType F) alg (a b : F) n (zero : V),
  (2 <= n)%N -> a != b -> exists (xs ws : seq F),
  [/\ samplePoints (@dbl_div F) alg a b n = Ok xs, size ws = size xs,
      \sum_(w <- ws) w = b - a &
      forall f : F -> V, integrateFunctor (@dbl_div F) (@dbl_id F) alg a b f n zero =
      Ok (\sum_(j < size xs) nth 0 ws j *: f (nth 0 xs j))].
Proof. exact integrate_samples. Qed.
Print Assumptions C30_weights.

(* with one point (Simpson: at most one) the step is a division by zero *)
Theorem C30_too_few : forall (F : realFieldType) (V : lmodType F) alg (a b : F) (f : F -> V) n zero,
  a != b -> (if alg is Simpson then n <= 1 else n == 1)%N ->
  integrateFunctor (@dbl_div F) (@dbl_id F) alg a b f n zero = UB.
Proof. move=> F V alg a b f n zero; exact: too_few. Qed.
Print Assumptions C30_too_few.

Definition ok_eq (o : outcome Q^o) (v : Q) : bool := if o is Ok x then x == v else false.
Definition int_dblQ : int -> Q := @int_dbl rat_realFieldType.
Example C30_example :
  ok_eq (integrateFunctor (@dbl_div Q) (@dbl_id Q) Simpson 0 2%:R (fun x => x ^+ 3 : Q^o) 4 0) 4%:R
  && ok_eq (integrateFunctor (@dbl_div Q) (@dbl_id Q) Trapezoidal 0 2%:R (fun x => x : Q^o) 4 0) 2%:R
  && (if samplePoints (@dbl_div Q) Simpson 0 2%:R 4 is Ok xs
      then xs == [:: 0; 1/2%:R; 1; 3%:R/2%:R; 2%:R] else false).
Proof. by vm_compute. Qed.
(* the degrees are sharp *)
Example C30_sharp :
  ~~ ok_eq (integrateFunctor (@dbl_div Q) (@dbl_id Q) Simpson 0 1 (fun x => x ^+ 4 : Q^o) 5 0) (1/5%:R)
  && ~~ ok_eq (integrateFunctor (@dbl_div Q) (@dbl_id Q) Trapezoidal 0 1 (fun x => x ^+ 2 : Q^o) 5 0)
    (1/3%:R).
Proof. by vm_compute. Qed.

(* ------------------------------------------------------------------ C45 *)
(* evalFunctorIntegralNumerically with floating point times: exact up to degree 3 for both
   orders of the bounds *)
Theorem C45_exact : forall (F : realFieldType) (V : lmodType F) (a b : F) (c : nat -> V) n,
  (2 <= n)%N ->
  evalFunctorIntegralNumerically (@dbl_div F) (@dbl_id F) (fun x y => x < y) a b
    (fun x => \sum_(i < 4) x ^+ i *: c i) n 0 =
  Ok (\sum_(i < 4) (b ^+ i.+1 / i.+1%:R) *: c i - \sum_(i < 4) (a ^+ i.+1 / i.+1%:R) *: c i).
Proof. exact numerically_exact. Qed.
Print Assumptions C45_exact.

(* swapping the bounds negates the result, for floating point and for integer times *)
Theorem C45_antisymmetric : forall (F : realFieldType) (V : lmodType F) (T : realDomainType)
  (tdiv : T -> int -> T) (dbl : T -> F) (a b : T) (f : T -> V) n,
  evalFunctorIntegralNumerically tdiv dbl (fun x y => x < y) b a f n 0 =
  (do v <- evalFunctorIntegralNumerically tdiv dbl (fun x y => x < y) a b f n 0 ; Ok (- v)).
Proof. exact numerically_anti. Qed.
Print Assumptions C45_antisymmetric.

(* integer times: exact as with floating point times if the number of panels divides the
   length of the interval *)
Theorem C45_int_divisible_partial : forall (F : realFieldType) (V : lmodType F) alg (a b : int)
  (f : int -> V) (g : F -> V) n zero, (2 <= n)%N ->
  ((if alg is Simpson then n - n %% 2 else n - 1)%N%:Z %| b - a)%Z ->
  (forall t, f t = g t%:~R) ->
  integrateFunctor quotz (int_dbl F) alg a b f n zero =
  integrateFunctor (@dbl_div F) (@dbl_id F) alg a%:~R b%:~R g n zero.
Proof. exact main_int_divisible. Qed.
Print Assumptions C45_int_divisible_partial.

(* in general the integral of a constant is taken over the rounded length only *)
Theorem C45_int_constant : forall (F : realFieldType) (V : lmodType F) alg (a b : int) (v : V)
  n zero, (2 <= n)%N -> a != b ->
  let M := (if alg is Simpson then n - n %% 2 else n - 1)%N%:Z in
  integrateFunctor quotz (int_dbl F) alg a b (fun _ => v) n zero =
  Ok ((quotz (b - a) M * M)%:~R *: v).
Proof. exact main_int_constant. Qed.
Print Assumptions C45_int_constant.

(* so with integer times not even constants are integrated correctly *)
Theorem C45_int_refuted : exists (a b : int) n, (2 < n)%N /\
  integrateFunctor quotz int_dblQ Simpson a b (fun _ => 1 : Q^o) n 0 <>
  Ok ((b - a)%:~R : Q^o).
Proof.
exists 0, 10, 5%N; split; first exact: isT.
move=> h.
have : ok_eq (integrateFunctor quotz int_dblQ Simpson 0 10 (fun _ => 1 : Q^o) 5 0)
  (10 - 0)%:~R by rewrite h; exact: eqxx.
by vm_compute.
Qed.
Print Assumptions C45_int_refuted.

Example C45_example :
  ok_eq (integrateFunctor quotz int_dblQ Simpson 0 10 (fun _ => 1 : Q^o) 5 0) 8%:R &&
  ok_eq (integrateFunctor quotz int_dblQ Simpson 0 12 (fun _ => 1 : Q^o) 5 0) 12%:R &&
  ok_eq (evalFunctorIntegralNumerically quotz int_dblQ (fun x y => x < y) 12 0
    (fun t => t%:~R : Q^o) 5 0) (- 72%:R) &&
  (if samplePoints quotz Simpson 0 10 5 is Ok xs then xs == [:: 0; 2; 4; 6; 10] :> seq int
   else false).
Proof. by vm_compute. Qed.
