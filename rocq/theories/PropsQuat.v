(* Properties C33-C35: unit quaternion splines. *)
From mathcomp Require Import all_ssreflect all_algebra.
From mathcomp.algebra_tactics Require Import ring.
From mathcomp.zify Require Import zify.
From Verif Require Import Prelude DMModel DMSpec DMProofs DMEvalProofs QuatModel QuatAlg QuatSpec
  QuatProofs QuatManifoldProofs Examples.
Set Implicit Arguments.
Unset Strict Implicit.
Unset Printing Implicit Defensive.
Import GRing.Theory Num.Theory Order.Theory.
Local Open Scope ring_scope.

(* ------------------------------------------------------------------ C33 *)
(* Values have unit norm: every spline built by public calls whose control vertices have unit
   norm, every exponential with unit values and exp 0 = 1, every time of the valid interval. *)
Theorem C33_unit_norm : forall (F : realFieldType) (T : realDomainType) (dbl : T -> F) (one : T)
  (expq : v3 F -> quat F) (logq : quat F -> v3 F) (norm : quat F -> F) (ieps : F),
  exact_time dbl one -> exp_like expq ->
  forall k kps (s : dspline F T), built dbl (uq_manifold expq logq norm ieps) k kps s ->
  forall t nc np, kp_knot kps (k - 1) <= t <= kp_knot kps (size kps - k) -> (np <= k.+1)%N ->
  (forall j, (j < size kps)%N -> qnorm2 (quat_of (nth kp0 kps j).2) = 1) ->
  exists ev q, [/\ dm_evaluator dbl s t = Ok ev,
    uq_evalD dbl one expq logq ieps norm nc np s ev 0 = Ok q & qnorm2 q = 1].
Proof. exact main_unit. Qed.
Print Assumptions C33_unit_norm.

(* ------------------------------------------------------------------ C34 *)
(* The recursion on any factors R_1 ... R_{m} (quaternion curves with components in a ring A
   with a derivation D, derivatives taken at one time by ev), any derivative order d: the
   result is the d-th derivative of the product. *)
Theorem C34_recursion : forall (A : comRingType) (F : realFieldType) (D : A -> A)
  (ev : {rmorphism A -> F}) (R : nat -> quat A) (riD : nat -> nat -> outcome (quat F)) rest d,
  derivation D ->
  (forall e j, (e <= d)%N -> (0 < j <= rest.+1)%N -> riD e j = Ok (jet_of D ev (R j) e)) ->
  productRest riD rest d 1 (factorial d) = Ok (jet_of D ev (\prod_(1 <= j < rest.+2) R j) d).
Proof. exact productRest_deriv. Qed.
Print Assumptions C34_recursion.

(* No integer division of the recursion truncates: after taking the derivatives ds of the first
   factors the carried factor times prod ds_i! is still d!. *)
Theorem C34_no_truncation : forall d ds, (sumn ds <= d)%N ->
  (foldl (fun kf e => kf %/ factorial e) (factorial d) ds * \prod_(e <- ds) e`!)%N = d`!.
Proof. exact kf_exact. Qed.
Print Assumptions C34_no_truncation.

(* The spline: evalD<d> for d <= 3 gives the d-th derivative of the curve
   P_0 prod exp(b_j phi_j); higher orders throw. *)
Theorem C34_spline_derivatives : forall (F : realFieldType) (T : realDomainType) (dbl : T -> F)
  (one : T) (expq : v3 F -> quat F) (logq : quat F -> v3 F) (norm : quat F -> F) (ieps : F),
  exact_time dbl one -> exp_like expq ->
  forall k kps (s : dspline F T), built dbl (uq_manifold expq logq norm ieps) k kps s ->
  forall t nc np, kp_knot kps (k - 1) <= t <= kp_knot kps (size kps - k) -> (np <= k.+1)%N ->
  let evD ev := uq_evalD dbl one expq logq ieps norm nc np s ev in
  let angD ev := evalAngularDerivative dbl one expq logq ieps norm nc np s ev in
  exists i ev, [/\ is_segment k kps t i, dm_evaluator dbl s t = Ok ev,
  (forall d, (d <= 3)%N -> (2 <= k)%N || (d <= 1)%N ->
     evD ev d = Ok (quat_jet dbl one expq logq k kps t i d)),
  (forall d, (3 < d)%N -> (2 <= k)%N -> evD ev d = Throw ExnSpline)
  & (forall d, (0 < d <= 3)%N -> (2 <= k)%N || (d <= 1)%N ->
     angD ev d = Ok (omega (quat_jet dbl one expq logq k kps t i) d.-1))].
Proof. exact main_quat. Qed.
Print Assumptions C34_spline_derivatives.

(* quat_jet is what it says: if components of the curve live in a differential ring and the
   factors satisfy R_j' = b_j' Phi_j R_j with constant Phi_j, then jcurve lists its derivatives *)
Theorem C34_curve_jet : forall (A F : comRingType) (D : A -> A) (ev : {rmorphism A -> F}),
  derivation D -> forall q0 (b : nat -> A) (Phi R : nat -> quat A) m n,
  qmap D q0 = 0 -> (forall j, qmap D (Phi j) = 0) ->
  (forall j, qmap D (R j) = D (b j) *: (Phi j * R j)) ->
  jet_of D ev (q0 * \prod_(1 <= j < m.+1) R j) n =
  jcurve (qmap ev q0) (fun j => rot_jet (fun e => ev (ssrnat.iter e D (b j))) (qmap ev (Phi j))
                                  (qmap ev (R j))) m n.
Proof. exact jet_curve. Qed.
Print Assumptions C34_curve_jet.

(* A spline of order 1 has no factors: second and higher derivatives read outside the arrays. *)
Theorem C34_order1_undefined : forall (F : realFieldType) (T : realDomainType) (dbl : T -> F)
  (one : T) (expq : v3 F -> quat F) (logq : quat F -> v3 F) (norm : quat F -> F) (ieps : F),
  exact_time dbl one ->
  forall k kps (s : dspline F T), built dbl (uq_manifold expq logq norm ieps) k kps s ->
  forall t nc np, kp_knot kps (k - 1) <= t <= kp_knot kps (size kps - k) -> (np <= k.+1)%N ->
  forall d, k = 1%N -> (1 < d)%N ->
  exists2 ev, dm_evaluator dbl s t = Ok ev &
    uq_evalD dbl one expq logq ieps norm nc np s ev d = UB.
Proof. exact main_quat_ub. Qed.
Print Assumptions C34_order1_undefined.

(* ------------------------------------------------------------------ C35 *)
(* Whatever the values q(0..d) of the quaternion derivatives are, evalAngularDerivative<d>,
   d = 1..3, is twice the vector part of the (d-1)-th derivative of q' conj(q) (omega). *)
Theorem C35_angular_derivatives : forall (F : realFieldType) (T : realDomainType) (dbl : T -> F)
  (one : T) (expq : v3 F -> quat F) (logq : quat F -> v3 F) (norm : quat F -> F) (ieps : F) nc np
  (s : dspline F T) (ev : evaluator F T) (q : jet F) d, (0 < d <= 3)%N ->
  (forall e, (e <= d)%N -> uq_evalD dbl one expq logq ieps norm nc np s ev e = Ok (q e)) ->
  evalAngularDerivative dbl one expq logq ieps norm nc np s ev d = Ok (omega q d.-1).
Proof. exact angularE. Qed.
Print Assumptions C35_angular_derivatives.

(* omega is what it says, for curves over a differential ring *)
Theorem C35_omega : forall (A F : comRingType) (D : A -> A) (ev : {rmorphism A -> F}),
  derivation D -> forall q n,
  v3scale 2%:R (qeps (jet_of D ev (qmap D q * quatInv q) n)) = omega (jet_of D ev q) n.
Proof. exact jet_omega. Qed.
Print Assumptions C35_omega.

(* ------------------------------------------------------------------ C64 *)
(* projectIntoManifold: a nonzero quaternion whose norm is computed exactly becomes a positive
   multiple of itself of unit norm; the result is in the manifold and projecting again changes
   nothing *)
Theorem C64_project : forall (F : realFieldType) (norm : quat F -> F) (q : quat F), q != 0 ->
  0 <= norm q -> norm q ^+ 2 = qnorm2 q ->
  qnorm2 (uq_project norm q) = 1 /\ exists2 a, 0 < a & q = qscale a (uq_project norm q).
Proof.
by move=> F norm q q0 n0 e; split; [exact: project_unit|exact: project_direction].
Qed.
Print Assumptions C64_project.
Theorem C64_project_in : forall (F : realFieldType) (norm : quat F -> F),
  (forall q, qnorm2 q = 1 -> norm q = 1) -> forall ieps (q : quat F), ieps != 0 -> q != 0 ->
  norm q ^+ 2 = qnorm2 q ->
  uq_isIn norm ieps (uq_project norm q) /\
  uq_project norm (uq_project norm q) = uq_project norm q.
Proof. exact project_in. Qed.
Print Assumptions C64_project_in.

(* update of a control vertex multiplies exp v from the left and stays on the manifold *)
Theorem C64_update : forall (F : realFieldType) (expq : v3 F -> quat F) (norm : quat F -> F),
  (forall q, qnorm2 q = 1 -> norm q = 1) ->
  forall p v, qnorm2 p = 1 -> qnorm2 (expq v) = 1 ->
  uq_update expq norm p v = qplus (expq v) p /\ qnorm2 (uq_update expq norm p v) = 1.
Proof. exact updateE. Qed.
Print Assumptions C64_update.

(* minimalDifference and update are inverse to each other where exp and log are *)
Theorem C64_difference_update : forall (F : realFieldType) (expq : v3 F -> quat F)
  (logq : quat F -> v3 F) (norm : quat F -> F), (forall q, qnorm2 q = 1 -> norm q = 1) ->
  forall p v, qnorm2 p = 1 -> qnorm2 (expq v) = 1 -> logq (expq v) = v ->
  uq_minimalDifference logq p (uq_update expq norm p v) = v.
Proof. exact difference_update. Qed.
Print Assumptions C64_difference_update.
Theorem C64_update_difference : forall (F : realFieldType) (expq : v3 F -> quat F)
  (logq : quat F -> v3 F) (norm : quat F -> F), (forall q, qnorm2 q = 1 -> norm q = 1) ->
  forall p q, qnorm2 p = 1 -> qnorm2 q = 1 ->
  expq (logq (qplus q (quatInv p))) = qplus q (quatInv p) ->
  uq_update expq norm p (uq_minimalDifference logq p q) = q.
Proof. exact update_difference. Qed.
Print Assumptions C64_update_difference.

(* so are the exp and log of the spline, which multiply from the right *)
Theorem C64_exp_log : forall (F : realFieldType) (expq : v3 F -> quat F) (logq : quat F -> v3 F)
  p, qnorm2 p = 1 ->
  (forall v, logq (expq v) = v -> uq_log logq p (uq_exp expq p v) = v) /\
  (forall q, expq (logq (qplus (quatInv p) q)) = qplus (quatInv p) q ->
     uq_exp expq p (uq_log logq p q) = q).
Proof. by move=> F expq logq p u; split=> x e; [exact: log_exp|exact: exp_log]. Qed.
Print Assumptions C64_exp_log.

(* ------------------------------------------------------------------ examples *)
(* the Cayley map as exponential: unit values, commutes with its argument *)
Definition cayley (v : v3 Q) : quat Q :=
  let n := dot3 v v in
  qmk (v3scale (2%:R / (1 + n)) v) ((1 - n) / (1 + n)).
Definition ex_log (q : quat Q) : v3 Q := v3scale (1 / (1 + qw q)) (qeps q).
Definition ex_norm (q : quat Q) : Q := if qnorm2 q == 1 then 1 else 2%:R.
Example ex_exp_like : exp_like cayley.
Proof.
split.
- move=> [x y z]; rewrite /cayley /qnorm2 /qmk /dot3 /=.
  have h : 1 + (x * x + y * y + z * z) != 0.
    have := sqr_ge0 x; have := sqr_ge0 y; have := sqr_ge0 z; rewrite !expr2 => hz hy hx.
    by apply/lt0r_neq0/ltr_spaddl; rewrite ?addr_ge0 // ltr01.
  by field.
- by apply/eqP; vm_compute.
- by case=> x y z; rewrite /cayley /mulV /qplus /qmk /dot3 /=; congr Quat; ring.
Qed.

(* order 3, six knots, unit control vertices *)
Definition exq (a b c d : int) (n : nat) : vec Q :=
  vec_of (Quat (a%:~R / n%:R) (b%:~R / n%:R) (c%:~R / n%:R) (d%:~R / n%:R)).
Definition qmf := uq_manifold cayley ex_log ex_norm (1 / 10%:R).
Definition q_os : seq (cop Q rat_realDomainType) :=
  [:: AddVertex 0 (exq 0 0 0 1 1); AddVertex 1 (exq 3 0 0 4 5); AddVertex 2%:R (exq 0 3 0 4 5);
      AddVertex 3%:R (exq 2 2 1 0 3); AddVertex 4%:R (exq 1 2 2 0 3); AddVertex 5%:R (exq 0 0 0 1 1)].
Definition q_kps := knot_points qmf q_os.
Example q_knots : knot_list qmf q_os = [:: 0; 1; 2%:R; 3%:R; 4%:R; 5%:R].
Proof. by apply/eqP; vm_compute. Qed.
Example q_units : all (fun kp => qnorm2 (quat_of kp.2) == 1) q_kps.
Proof. by vm_compute. Qed.
Example q_built : exists s, built (fun x : Q => x) qmf 3 q_kps s.
Proof.
have sz : (2 * 3 <= size (knot_list qmf q_os))%N by vm_compute.
have [s hs _] := DMMainProofs.main_structure (fun x : Q => x) (ltn0Sn 2) sz.
by exists s; apply: built_init hs.
Qed.
Example q_range : kp_knot q_kps (3 - 1) <= 5%:R / 2%:R <= kp_knot q_kps (size q_kps - 3).
Proof. by vm_compute. Qed.
Example q_time : exact_time (fun x : Q => x) 1.
Proof. by split=> //; apply: ltr01. Qed.

Example C33_ex : exists s ev q, [/\ dm_evaluator (fun x : Q => x) s (5%:R / 2%:R) = Ok ev,
  uq_evalD (fun x : Q => x) 1 cayley ex_log (1 / 10%:R) ex_norm true 3 s ev 0 = Ok q
  & qnorm2 q = 1].
Proof.
have [s B] := q_built; exists s.
apply: (C33_unit_norm q_time ex_exp_like B true q_range (isT : (3 <= 4)%N)) => j.
by have /all_nthP h := q_units => jk; apply/eqP; apply: h.
Qed.
Example C34_ex : exists s i ev, [/\ is_segment 3 q_kps (5%:R / 2%:R) i,
  dm_evaluator (fun x : Q => x) s (5%:R / 2%:R) = Ok ev,
  uq_evalD (fun x : Q => x) 1 cayley ex_log (1 / 10%:R) ex_norm true 3 s ev 3 =
    Ok (quat_jet (fun x : Q => x) 1 cayley ex_log 3 q_kps (5%:R / 2%:R) i 3%N)
  & evalAngularDerivative (fun x : Q => x) 1 cayley ex_log (1 / 10%:R) ex_norm true 3 s ev 3 =
    Ok (omega (quat_jet (fun x : Q => x) 1 cayley ex_log 3 q_kps (5%:R / 2%:R) i) 2)].
Proof.
have [s B] := q_built; exists s.
have [i [ev [h1 h2 h3 _ h4]]] := C34_spline_derivatives q_time ex_exp_like B true q_range (isT : (3 <= 4)%N).
by exists i, ev; split=> //; [apply: h3|apply: h4].
Qed.

(* three factors with the derivatives of 1 + a t k, second derivative of the product at t = 0:
   2 (a1 a2 + a1 a3 + a2 a3) k k = - 2 * 11 *)
Example C34_ex_recursion :
  let riD e j : outcome (quat Q) :=
    match e with 0%N => Ok (Quat 0 0 0 1) | 1%N => Ok (Quat 0 0 j%:R 0) | _ => Ok (Quat 0 0 0 0) end in
  if productRest riD 2 2 1 (factorial 2) is Ok q then q == Quat 0 0 0 (- 22%:R) else false.
Proof. by vm_compute. Qed.
Example C34_ex_factor : foldl (fun kf e => (kf %/ factorial e)%N) (factorial 6) [:: 1; 2; 3]%N = 60%N.
Proof. by vm_compute. Qed.

(* differential rings with such curves exist: polynomials over F_5, nilpotent Phi = i + 2j *)
Example C34_ex_curve :
  let A := [comRingType of {poly 'F_5}] in
  let Phi : quat A := Quat 1 2%:R 0 0 in
  let R := 1 + ('X : A) *: Phi in
  [/\ derivation (@deriv _ : A -> A), qmap (@deriv _ : A -> A) Phi = 0, Phi != 0
    & qmap (@deriv _ : A -> A) R = deriv ('X : A) *: (Phi * R)].
Proof.
have nE n : n%:R = (n%:R)%:P :> {poly 'F_5} by rewrite -(rmorph_nat (polyC_rmorphism _)).
have c5 : 5%:R = 0 :> {poly 'F_5} by rewrite nE (_ : 5%:R = 0 :> 'F_5) //; apply/val_inj.
split.
- by split=> a b; [exact: derivD|exact: derivM].
- by rewrite /qmap /= nE !derivC.
- by apply/eqP => -[/eqP]; rewrite oner_eq0.
- rewrite -!qplusE -!qaddE -!qscaleE derivX /qmap /qscale /qadd /qplus /qmk /= /dot3 /=.
  have d2 : (2%:R : {poly 'F_5})^`() = 0 by rewrite nE derivC.
  rewrite !derivD !derivM !derivX -polyC1 -polyC0 !derivC d2 polyC1 polyC0; congr Quat; try ring.
  have -> : 1 * (0 * (1 + 'X * 0) - (1 * (0 + 'X * 1) + 2%:R * (0 + 'X * 2%:R) +
    0 * (0 + 'X * 0))) = - (5%:R * 'X) :> {poly 'F_5} by ring.
  by rewrite c5; ring.
Qed.

(* the norm of (0,0,3,4) is 5 *)
Example C64_ex_project : exists q : quat Q, [/\ q != 0, q = Quat 0 0 3%:R 4%:R &
  qnorm2 (uq_project (fun _ => 5%:R) q) = 1].
Proof.
exists (Quat 0 0 3%:R 4%:R); split; [by vm_compute|by []|].
have e : (fun _ : quat Q => 5%:R) (Quat 0 0 3%:R 4%:R : quat Q) ^+ 2 = qnorm2 (Quat 0 0 3%:R 4%:R) :> Q.
  by apply/eqP; vm_compute.
have q0 : (Quat 0 0 3%:R 4%:R : quat Q) != 0 by vm_compute.
have n0 : 0 <= 5%:R :> Q by vm_compute.
by have [] := @C64_project _ (fun _ => 5%:R) (Quat 0 0 3%:R 4%:R : quat Q) q0 n0 e.
Qed.
(* Cayley map: log (exp v) = v, so that update and minimalDifference are inverse *)
Example C64_ex_update : forall p v, qnorm2 p = 1 ->
  uq_minimalDifference ex_log p (uq_update cayley ex_norm p v) = v.
Proof.
move=> p v u; apply: C64_difference_update => //.
- by move=> q e; rewrite /ex_norm e eqxx.
- by case: ex_exp_like => h _ _; exact: h.
case: v => x y z; rewrite /ex_log /cayley /qmk /dot3 /v3scale /qeps /=.
have h : 1 + (x * x + y * y + z * z) != 0.
  have := sqr_ge0 x; have := sqr_ge0 y; have := sqr_ge0 z; rewrite !expr2 => hz hy hx.
  by apply/lt0r_neq0/ltr_spaddl; rewrite ?addr_ge0 // ltr01.
have e : 1 + (1 - (x * x + y * y + z * z)) / (1 + (x * x + y * y + z * z)) =
         2%:R / (1 + (x * x + y * y + z * z)) by field.
by rewrite e; congr V3; field; rewrite h.
Qed.
