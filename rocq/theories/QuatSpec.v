(* Derivatives of quaternion curves: jets (sequences of all derivatives at one time), the rule
   of Leibniz, jets of t |-> exp(b(t) phi), angular velocity. *)
From mathcomp Require Import all_ssreflect all_algebra.
From Verif Require Import Prelude DMModel DMSpec QuatModel QuatAlg.
Set Implicit Arguments.
Unset Strict Implicit.
Unset Printing Implicit Defensive.
Import GRing.Theory.
Local Open Scope ring_scope.

Section Jets.
Variable F : comRingType.
Notation H := (quat F).
Definition jet := nat -> H.

(* rule of Leibniz *)
Definition jmul (f g : jet) : jet := fun n => \sum_(k < n.+1) (f k * g (n - k)%N) *+ 'C(n, k).
(* constant curve *)
Definition jconst (q : H) : jet := fun n => if n == 0%N then q else 0.
(* solution of R' = b' Phi R with R(t) = r: b k is the k-th derivative of b at t *)
Fixpoint rot_list (b : nat -> F) (Phi r : H) (n : nat) : seq H :=
  if n is n'.+1 then
    let l := rot_list b Phi r n' in
    rcons l (\sum_(k < n'.+1) (b k.+1 *+ 'C(n', k)) *: (Phi * nth 0 l (n' - k)%N))
  else [:: r].
Definition rot_jet (b : nat -> F) (Phi r : H) : jet := fun n => nth 0 (rot_list b Phi r n) n.
(* product J_i J_{i+1} ... J_{i+rest} *)
Fixpoint jprod (J : nat -> jet) (i rest : nat) : jet :=
  if rest is rest'.+1 then jmul (J i) (jprod J i.+1 rest') else J i.
(* q0 J_1 ... J_m *)
Definition jcurve (q0 : H) (J : nat -> jet) (m : nat) : jet :=
  if m is m'.+1 then jmul (jconst q0) (jprod J 1 m') else jconst q0.

(* jets of conj(q), of q' and of the angular velocity 2 vec(q' conj(q)) *)
Definition jconj (q : jet) : jet := fun n => quatInv (q n).
Definition jderiv (q : jet) : jet := fun n => q n.+1.
Definition omega (q : jet) (n : nat) : v3 F := v3scale 2%:R (qeps (jmul (jderiv q) (jconj q) n)).
End Jets.

(* what is assumed of the exponential map: unit values, exp 0 = 1, exp v commutes with v *)
Definition exp_like (F : realFieldType) (expq : v3 F -> quat F) : Prop :=
  [/\ forall v, qnorm2 (expq v) = 1,
      expq (V3 0 0 0) = quatIdentity F &
      forall v, qplus (mulV v) (expq v) = qplus (expq v) (mulV v)].

(* Curves as elements of a ring A with a derivation D; ev evaluates at one time. *)
Definition derivation (A : comRingType) (D : A -> A) : Prop :=
  (forall a b, D (a + b) = D a + D b) /\ (forall a b, D (a * b) = D a * b + a * D b).
(* all derivatives at that time of a quaternion curve with components in A *)
Definition jet_of (A F : comRingType) (D : A -> A) (ev : A -> F) (q : quat A) : jet F :=
  fun n => qmap ev (ssrnat.iter n (qmap D) q).

(* The quaternion curve of a manifold spline on segment i and all its derivatives at time t:
   P_0 exp(b_1(t) phi_1) ... exp(b_{k-1}(t) phi_{k-1}), phi_j = log(P_{j-1}^-1 P_j), where b_j
   are the cumulative basis functions and exp(b phi)' = b' (phi/2) exp(b phi). *)
Section Curve.
Variables (F : realFieldType) (T : realDomainType) (dbl : T -> F) (one : T).
Variables (expq : v3 F -> quat F) (logq : quat F -> v3 F).
Definition quat_pt (k : nat) (kps : seq (T * vec F)) (i j : nat) : quat F :=
  quat_of (nth kp0 kps (i.+1 - k + j)).2.
Definition quat_phi k kps i j : v3 F :=
  logq (quatInv (quat_pt k kps i j.-1) * quat_pt k kps i j).
Definition quat_jet k kps t i : jet F :=
  jcurve (quat_pt k kps i 0)
    (fun j => rot_jet (fun n => cum_weight dbl one k kps t i n j) (mulV (quat_phi k kps i j))
                (expq (v3scale (cum_weight dbl one k kps t i 0 j) (quat_phi k kps i j))))
    (k - 1).
End Curve.
