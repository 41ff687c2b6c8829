(* Property C65: Jacobians of unit quaternion splines. *)
From mathcomp Require Import all_ssreflect all_algebra.
From mathcomp.algebra_tactics Require Import ring.
From mathcomp.zify Require Import zify.
From Verif Require Import Prelude DMModel DMSpec QuatModel QuatAlg QuatSpec QuatProofs
  QuatJacobianModel QuatJacobianSpec QuatJacobianProofs QuatJacobianMain Examples PropsQuat.
Set Implicit Arguments.
Unset Strict Implicit.
Unset Printing Implicit Defensive.
Import GRing.Theory Num.Theory Order.Theory.
Local Open Scope ring_scope.

(* ------------------------------------------------------------------ C65 *)
(* Move every control vertex P_j of the segment to exp(e delta_j) P_j. The Jacobian of the d-th
   derivative of the curve (d <= 2), applied to the stacked delta_j, is the e-part of the d-th
   derivative of the moved curve; likewise for the angular velocity and acceleration. Every
   spline built by public calls with unit control vertices, every order, every time of the valid
   interval, every exponential and logarithm with left differentials S and L. *)
Theorem C65_jacobians : forall (F : realFieldType) (T : realDomainType) (dbl : T -> F) (one : T)
  (expq : v3 F -> quat F) (logq : quat F -> v3 F) (norm : quat F -> F) (ieps : F)
  (S L : v3 F -> m3 F), exact_time dbl one -> exp_like expq ->
  forall k kps (s : dspline F T), built dbl (uq_manifold expq logq norm ieps) k kps s ->
  forall t nc np, kp_knot kps (k - 1) <= t <= kp_knot kps (size kps - k) -> (np <= k.+1)%N ->
  (forall j, (j < size kps)%N -> qnorm2 (quat_of (nth kp0 kps j).2) = 1) ->
  let jacD ev := uq_evalJacobian dbl one expq logq S L nc np s ev in
  let angD ev := evalAngularDerivativeJacobian dbl one expq logq S L ieps norm nc np s ev in
  let moved i delta := dual_jet dbl one expq logq S L delta k kps t i in
  exists i ev, [/\ is_segment k kps t i, dm_evaluator dbl s t = Ok ev,
  (forall d, (d <= 2)%N -> (2 <= k)%N || (d == 0)%N ->
     exists2 M, jacD ev d = Ok M &
       forall delta, quat_of (jac_apply k M delta) = qmap (@du F) (moved i delta d))
  & (forall d, (0 < d <= 2)%N -> (2 <= k)%N ->
     exists2 M, angD ev d = Ok M &
       forall delta, v3_of (jac_apply k M delta) = v3map (@du F) (omega (moved i delta) d.-1))].
Proof. exact main_jacobian. Qed.
Print Assumptions C65_jacobians.

(* Higher orders throw; for order 1 the derivatives have no factor and read outside the arrays. *)
Theorem C65_other_orders : forall (F : realFieldType) (T : realDomainType) (dbl : T -> F) (one : T)
  (expq : v3 F -> quat F) (logq : quat F -> v3 F) (norm : quat F -> F) (ieps : F)
  (S L : v3 F -> m3 F), exact_time dbl one -> exp_like expq ->
  forall k kps (s : dspline F T), built dbl (uq_manifold expq logq norm ieps) k kps s ->
  forall t nc np, kp_knot kps (k - 1) <= t <= kp_knot kps (size kps - k) -> (np <= k.+1)%N ->
  let jacD ev := uq_evalJacobian dbl one expq logq S L nc np s ev in
  let angD ev := evalAngularDerivativeJacobian dbl one expq logq S L ieps norm nc np s ev in
  exists2 ev, dm_evaluator dbl s t = Ok ev &
  [/\ (forall d, (2 < d)%N -> (2 <= k)%N -> jacD ev d = Throw ExnSpline),
      (forall d, (2 < d)%N -> (2 <= k)%N -> angD ev d = Throw ExnSpline)
    & (forall d, (0 < d)%N -> k = 1%N -> jacD ev d = UB)].
Proof. exact main_jacobian_fail. Qed.
Print Assumptions C65_other_orders.

(* The moved curve starts from the curve itself *)
Theorem C65_moved_value : forall (F : realFieldType) (T : realDomainType) (dbl : T -> F) (one : T)
  (expq : v3 F -> quat F) (logq : quat F -> v3 F) (S L : v3 F -> m3 F) k kps t i delta d,
  qmap (@re F) (dual_jet dbl one expq logq S L delta k kps t i d) =
  quat_jet dbl one expq logq k kps t i d.
Proof. exact re_djet. Qed.
Print Assumptions C65_moved_value.

(* The e-part is the derivative with respect to a parameter: for components in a ring with two
   derivations (D time, Ds parameter), the parameter derivative of the n-th time derivative of
   q0 prod R_j is the e-part of the dual curve made of values and parameter derivatives. *)
Theorem C65_meaning : forall (A F : comRingType) (D Ds : A -> A) (ev : {rmorphism A -> F}),
  derivation D -> derivation Ds -> forall q0 (b : nat -> A) (Phi R : nat -> quat A) m n,
  qmap D q0 = 0 -> (forall j, qmap D (Phi j) = 0) ->
  (forall j, qmap D (R j) = D (b j) *: (Phi j * R j)) ->
  let dof := dual_of Ds ev : A -> dual_comRingType F in
  qmap ev (qmap Ds (ssrnat.iter n (qmap D) (q0 * \prod_(1 <= j < m.+1) R j))) =
  qmap (@du F) (jcurve (qmap dof q0)
    (fun j => rot_jet (fun e => dof (ssrnat.iter e D (b j))) (qmap dof (Phi j)) (qmap dof (R j))) m n).
Proof. exact dual_curve. Qed.
Print Assumptions C65_meaning.

(* minimalDifferenceAndJacobian: moving the target to exp(e delta) to moves the difference by
   the Jacobian applied to delta *)
Theorem C65_minimal_difference : forall (F : realFieldType) (logq : quat F -> v3 F)
  (L : v3 F -> m3 F) (dlogAtId : quat F -> quat F -> v3 F) (dexpAtId : v3 F -> jac F) xHat to delta,
  qnorm2 (qplus to (quatInv xHat)) = 1 ->
  (forall c, (c < 3)%N -> dexpAtId (V3 0 0 0) c = mulV (unit3 F c)) ->
  (forall q v, qnorm2 q = 1 -> dlogAtId q (mulV v * q) = m3app (L (logq q)) v) ->
  let r := uq_minimalDifferenceAndJacobian logq dlogAtId dexpAtId xHat to in
  dlog logq L (qdual to (mulV delta * to) * qdual (quatInv xHat) 0) =
  v3dual r.1 (m3app r.2 delta).
Proof. exact minimalDifferenceJacobianE. Qed.
Print Assumptions C65_minimal_difference.

(* dexp and dlog of the group: differentials of v |-> p exp(v) and q |-> log(p^-1 q) *)
Theorem C65_group_differentials : forall (F : realFieldType) (expq : v3 F -> quat F)
  (logq : quat F -> v3 F) (S L : v3 F -> m3 F) (dlogAtId : quat F -> quat F -> v3 F)
  (dexpAtId : v3 F -> jac F),
  (forall p v w, (forall c, (c < 3)%N -> dexpAtId v c = mulV (S v c) * expq v) ->
     let M := uq_dexp dexpAtId p v in
     qdual p 0 * dexp expq S (v3dual v w) =
     qdual (uq_exp expq p v) (vx w *: M 0%N + vy w *: M 1%N + vz w *: M 2%N)) /\
  (forall from to dq,
     (forall q dq, dlogAtId q dq = m3app (L (logq q)) (v3scale 2%:R (qeps (dq * quatInv q)))) ->
     dlog logq L (qdual (quatInv from) 0 * qdual to dq) =
     v3dual (uq_log logq from to) (uq_dlog dlogAtId from to dq)).
Proof. by move=> F expq logq S L dl de; split; [exact: dexpE|exact: dlogE]. Qed.
Print Assumptions C65_group_differentials.

(* ------------------------------------------------------------------ examples *)
(* the left differentials of the Cayley map and of its inverse *)
Definition ex_S (v : v3 Q) : m3 Q := fun c =>
  let n := dot3 v v in let w := unit3 _ c in
  v3scale (4%:R / (1 + n) ^+ 2)
    (v3add (v3sub (v3scale (1 - n) w) (v3scale 2%:R (cross v w))) (v3scale (2%:R * dot3 v w) v)).
Definition ex_L (v : v3 Q) : m3 Q := fun c =>
  let n := dot3 v v in let w := unit3 _ c in
  v3scale (1 / 4%:R)
    (v3add (v3add (v3scale (1 - n) w) (v3scale 2%:R (cross v w))) (v3scale (2%:R * dot3 v w) v)).

Lemma cayley_den (x y z : Q) : 1 + (x * x + y * y + z * z) != 0.
Proof.
have := sqr_ge0 x; have := sqr_ge0 y; have := sqr_ge0 z; rewrite !expr2 => hz hy hx.
by apply/lt0r_neq0/ltr_spaddl; rewrite ?addr_ge0 // ltr01.
Qed.
(* over the dual numbers: (1 + v.v) exp(v) = (1 - v.v) + 2 v, the equation defining the map *)
Example C65_ex_S : forall v : v3 (dual_comRingType _),
  (1 + dot3 v v) *: dexp cayley ex_S v = qmk (v3add v v) (1 - dot3 v v).
Proof.
case=> [[x x'] [y y'] [z z']]; have h := cayley_den x y z.
apply: quat_dual_eq; rewrite ?qreZ ?qduZ /dexp.
  rewrite qre_dual -qscaleE /qscale /cayley /qmap /v3map /qmk /dot3 /=.
  by congr Quat; field.
rewrite qre_dual qdu_dual -qplusE -!qscaleE -qaddE.
rewrite /qscale /qadd /qplus /m3app /ex_S /cayley /qmap /v3map /qmk /dot3 /unit3 /=.
by congr Quat; field.
Qed.
Lemma cayley_log v : ex_log (cayley v) = v.
Proof.
case: v => x y z; have h := cayley_den x y z.
rewrite /ex_log /cayley /qmk /dot3 /v3scale /qeps /=.
have e : 1 + (1 - (x * x + y * y + z * z)) / (1 + (x * x + y * y + z * z)) =
         2%:R / (1 + (x * x + y * y + z * z)) by field.
by rewrite e; congr V3; field; rewrite h.
Qed.
(* its inverse: (1 + w) log(q) = vec(q) for the unit q = p + e V(w) p, p = exp(v) *)
Example C65_ex_L : forall v w,
  let q := qdual (cayley v) (mulV w * cayley v) in
  v3scale (1 + qw q) (dlog ex_log ex_L q) = qeps q.
Proof.
move=> v w; have u : qnorm2 (cayley v) = 1 by case: ex_exp_like.
rewrite /dlog qre_dual qdu_dual qeps_tan // cayley_log.
case: v w u => x y z [a b c] _; have h := cayley_den x y z.
rewrite -qplusE /cayley /ex_L /m3app /qplus /qdual /v3dual /v3scale /qeps /mulV /qmk /dot3 /unit3 /=.
by congr V3; congr Dual; rewrite /=; field.
Qed.

(* order 3, six knots, unit control vertices, t = 5/2 *)
Example C65_ex : exists s i ev M A, [/\ is_segment 3 q_kps (5%:R / 2%:R) i,
  dm_evaluator (fun x : Q => x) s (5%:R / 2%:R) = Ok ev,
  uq_evalJacobian (fun x : Q => x) 1 cayley ex_log ex_S ex_L true 3 s ev 2 = Ok M /\
  (forall delta, quat_of (jac_apply 3 M delta) =
     qmap (@du _) (dual_jet (fun x : Q => x) 1 cayley ex_log ex_S ex_L delta 3 q_kps (5%:R / 2%:R) i 2%N))
  & evalAngularDerivativeJacobian (fun x : Q => x) 1 cayley ex_log ex_S ex_L (1 / 10%:R) ex_norm true 3 s ev 2
    = Ok A /\
  (forall delta, v3_of (jac_apply 3 A delta) = v3map (@du _)
     (omega (dual_jet (fun x : Q => x) 1 cayley ex_log ex_S ex_L delta 3 q_kps (5%:R / 2%:R) i) 1))].
Proof.
have [s B] := q_built; exists s.
have hu j : (j < size q_kps)%N -> qnorm2 (quat_of (nth kp0 q_kps j).2) = 1.
  by have /all_nthP h := q_units => jk; apply/eqP; apply: h.
have [i [ev [h1 h2 h3 h4]]] := C65_jacobians ex_S ex_L q_time ex_exp_like B true q_range (isT : (3 <= 4)%N) hu.
have [M e1 e2] := h3 2%N isT isT; have [A e3 e4] := h4 2%N isT isT.
by exists i, ev, M, A.
Qed.
Example C65_ex_other : exists s ev, dm_evaluator (fun x : Q => x) s (5%:R / 2%:R) = Ok ev /\
  uq_evalJacobian (fun x : Q => x) 1 cayley ex_log ex_S ex_L true 3 s ev 3 = Throw ExnSpline.
Proof.
have [s B] := q_built; exists s.
have [ev h1 [h2 _ _]] := C65_other_orders ex_S ex_L q_time ex_exp_like B true q_range (isT : (3 <= 4)%N).
by exists ev; split=> //; apply: h2.
Qed.
(* two derivations of polynomials over F_5, nilpotent Phi (C34_ex_curve) *)
Example C65_ex_meaning : exists (A : comRingType) (D Ds : A -> A) q0 (b : nat -> A) (Phi R : nat -> quat A),
  [/\ derivation D, derivation Ds, qmap D q0 = 0 /\ qmap Ds (R 1%N) != 0, (forall j, qmap D (Phi j) = 0)
    & (forall j, qmap D (R j) = D (b j) *: (Phi j * R j))].
Proof.
have [h1 h2 h3 h4] := C34_ex_curve.
exists [comRingType of {poly 'F_5}], (@deriv _), (@deriv _), 1, (fun _ => 'X), (fun _ => Quat 1 2%:R 0 0).
exists (fun _ => 1 + ('X : [comRingType of {poly 'F_5}]) *: Quat 1 2%:R 0 0); split=> //; split.
  by rewrite -qoneE /qmap /= -polyC1 -polyC0 !derivC.
apply/eqP => /(congr1 (@qx _)); rewrite -qscaleE -qaddE /= add0r mulr1 derivX => /eqP.
by rewrite oner_eq0.
Qed.
(* minimalDifference with the differentials of the Cayley map, dexpAtId 0 = V *)
Example C65_ex_minimal : forall xHat to delta, qnorm2 (qplus to (quatInv xHat)) = 1 ->
  let r := uq_minimalDifferenceAndJacobian ex_log
    (fun q dq => m3app (ex_L (ex_log q)) (v3scale 2%:R (qeps (dq * quatInv q))))
    (fun v c => mulV (unit3 _ c)) xHat to in
  dlog ex_log ex_L (qdual to (mulV delta * to) * qdual (quatInv xHat) 0) = v3dual r.1 (m3app r.2 delta).
Proof. by move=> xHat to delta u; apply: C65_minimal_difference => // q v u'; rewrite qeps_tan. Qed.
