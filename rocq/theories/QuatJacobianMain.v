(* The Jacobians of the angular derivatives of a quaternion spline and of the group operations;
   the theorems for splines built by public calls. *)
From mathcomp Require Import all_ssreflect all_algebra.
From mathcomp.algebra_tactics Require Import ring.
From mathcomp.zify Require Import zify.
From Verif Require Import Prelude DMModel DMSpec DMProofs DMAccessProofs DMEvalProofs
  DMMainProofs QuatModel QuatAlg QuatSpec
  QuatProofs QuatJacobianModel QuatJacobianSpec QuatJacobianProofs.
Set Implicit Arguments.
Unset Strict Implicit.
Unset Printing Implicit Defensive.
Import GRing.Theory Num.Theory Order.Theory.
Local Open Scope ring_scope.

(* ------------------------------------------------------------------ angular derivatives *)
Section Angular.
Variable F : realFieldType.
Notation H := (quat F).
Notation DF := (dual_comRingType F).
Notation qre := (qmap (re (F := F))).
Notation qdu := (qmap (du (F := F))).

Lemma omega_low (R : comRingType) (q : jet R) d : (0 < d <= 2)%N ->
  omega q d.-1 = v3scale 2%:R (qeps (q d * quatInv (q 0%N))).
Proof.
case: d => [|[|[|//]]] // _; rewrite /omega /= ?jmul0 // jmul1 /jderiv /jconj.
congr v3scale; rewrite qmul_inv -qaddE -qscaleE /qeps /qadd /= !mulr0 !add0r //.
Qed.

(* the formula of the code *)
Definition ang (v d dv dd : H) : v3 F :=
  v3scale 2%:R
   (v3add (v3sub (v3sub (v3sub (v3add (v3scale (qeta dv) (qeps d)) (v3scale (qeta v) (qeps dd)))
                               (v3scale (qeta dd) (qeps v)))
                        (v3scale (qeta d) (qeps dv)))
                 (m3app (crossMx (qeps v)) (qeps dd)))
          (m3app (crossMx (qeps d)) (qeps dv))).

Lemma du_ang (q0 qd : quat DF) :
  v3map (du (F := F)) (v3scale 2%:R (qeps (qd * quatInv q0))) = ang (qre q0) (qre qd) (qdu q0) (qdu qd).
Proof.
have e2 (v : v3 DF) : v3scale 2%:R v = v3add v v by case: v => a b c; congr V3; rewrite -mulr2n mulr_natl.
rewrite e2 -qplusE; case: q0 => [[a a'] [b b'] [c c'] [d d']].
case: qd => [[e e'] [f f'] [g g'] [h h']].
by apply: v3_eq => /=; rewrite /dot3 /=; ring.
Qed.

(* ang is linear in the tangents *)
Lemma ang_sum n (v d : H) (dv dd : nat -> H) (w : nat -> F) r :
  \sum_(c < n) vec_of3 (ang v d (dv c) (dd c)) r * w c =
  vec_of3 (ang v d (\sum_(c < n) w c *: dv c) (\sum_(c < n) w c *: dd c)) r.
Proof.
elim: n => [|n IH].
  rewrite !big_ord0; case: r => [|[|[|r]]] //=; ring.
rewrite !big_ord_recr /= IH; set X := \sum_(_ < _) _; set Y := \sum_(_ < _) _.
move: X Y (dv n) (dd n) (w n) => X Y x y z; rewrite -!qscaleE -!qaddE.
by clear IH; case: r => [|[|[|r]]] /=; rewrite /qeta /=; ring.
Qed.

Lemma jac_apply_cols k (M : mat F) delta :
  quat_of (jac_apply k M delta) =
  \sum_(c < 3 * k) vec_of3 (delta (c %/ 3)%N) (c %% 3)%N *: quat_of (fun r => M r c).
Proof.
rewrite /jac_apply; elim: (3 * k)%N => [|n IH]; first by rewrite big_ord0 /quat_of !big_ord0.
rewrite big_ord_recr /= -IH /quat_of !big_ord_recr /= -qscaleE -qaddE /qadd /qscale /=.
by congr Quat; congr (_ + _); apply: mulrC.
Qed.
End Angular.

Section AngularSpline.
Variables (F : realFieldType) (T : realDomainType).
Variables (dbl : T -> F) (one : T).
Hypothesis et : exact_time dbl one.
Variables (expq : v3 F -> quat F) (logq : quat F -> v3 F) (norm : quat F -> F) (ieps : F).
Variables (S L : v3 F -> m3 F).
Hypothesis ex : exp_like expq.
Variables (k : nat) (kps : seq (T * vec F)) (t : T) (i : nat) (nc : bool) (np : nat).
Hypotheses (gd : good k kps) (sg : is_segment k kps t i) (npk : (np <= k.+1)%N).
Hypothesis unitP : forall j, (j < k)%N -> qnorm2 (quat_pt k kps i j) = 1.
Notation cs := (canon dbl k kps).
Notation ev := (ev_of dbl k kps t i).
Notation angJ := (evalAngularDerivativeJacobian dbl one expq logq S L ieps norm nc np cs ev).
Notation djet delta := (dual_jet dbl one expq logq S L delta k kps t i).

Lemma angularJacobianE d : (1 < k)%N -> (0 < d <= 2)%N -> exists2 M, angJ d = Ok M &
  forall delta, v3_of (jac_apply k M delta) = v3map (du (F := F)) (omega (djet delta) d.-1).
Proof.
move=> k1 /andP[d0 d2]; rewrite /evalAngularDerivativeJacobian.
rewrite (evalDE et logq norm ieps ex nc gd sg npk k1 (leq_trans d2 (leqnSn 2))).
rewrite (evalDE et logq norm ieps ex nc gd sg npk k1 (leq0n 3)).
have [|D eD hD] := jacobianE et logq S L ex nc gd sg npk unitP d2; first by rewrite k1.
have [|Q eQ hQ] := @jacobianE F T dbl one et expq logq S L ex k kps t i nc np gd sg npk unitP 0 isT.
  by rewrite k1.
rewrite eD eQ; eexists; first by reflexivity.
move=> delta; rewrite omega_low ?d0 // du_ang -hD -hQ !re_djet.
set v := quat_jet _ _ _ _ _ _ _ _ 0%N; set q := quat_jet _ _ _ _ _ _ _ _ d.
rewrite (jac_apply_cols k Q delta) (jac_apply_cols k D delta).
have key r := ang_sum (3 * k) v q (fun c => quat_of (fun r => Q r c)) (fun c => quat_of (fun r => D r c))
  (fun c => vec_of3 (delta (c %/ 3)%N) (c %% 3)%N) r.
move: (key 0%N) (key 1%N) (key 2%N).
case: (ang v q _ _) => x y z; rewrite [vec_of3 (V3 x y z) 0%N]/= [vec_of3 (V3 x y z) 1%N]/= [vec_of3 (V3 x y z) 2%N]/=.
by rewrite /v3_of => <- <- <-; congr V3; apply: eq_bigr.
Qed.
Lemma angularJacobian_throw d : (1 < k)%N -> (2 < d)%N -> angJ d = Throw ExnSpline.
Proof.
move=> k1 d2; rewrite /evalAngularDerivativeJacobian.
rewrite (evalDE et logq norm ieps ex nc gd sg npk k1 (leq0n 3)).
have [d3|d3] := leqP d 3.
  rewrite (evalDE et logq norm ieps ex nc gd sg npk k1 d3) /=.
  by rewrite (jacobian_throw et logq S L ex nc gd sg npk d2 k1).
by rewrite (evalD_throw et logq norm ieps ex nc gd sg npk k1 d3).
Qed.
End AngularSpline.

(* ------------------------------------------------------------------ splines built by public calls *)
Section Main.
Variables (F : realFieldType) (T : realDomainType).
Variables (dbl : T -> F) (one : T).
Variables (expq : v3 F -> quat F) (logq : quat F -> v3 F) (norm : quat F -> F) (ieps : F).
Variables (S L : v3 F -> m3 F).
Notation mf := (uq_manifold expq logq norm ieps).
Hypotheses (et : exact_time dbl one) (ex : exp_like expq).
Variables (k : nat) (kps : seq (T * vec F)) (s : dspline F T).
Hypothesis bs : built dbl mf k kps s.
Variables (t : T) (nc : bool) (np : nat).
Hypothesis tr : kp_knot kps (k - 1) <= t <= kp_knot kps (size kps - k).
Hypothesis npk : (np <= k.+1)%N.
Notation jacD := (fun ev => uq_evalJacobian dbl one expq logq S L nc np s ev).
Notation angD := (fun ev => evalAngularDerivativeJacobian dbl one expq logq S L ieps norm nc np s ev).
Notation djet i delta := (dual_jet dbl one expq logq S L delta k kps t i).

Let gd : good k kps. Proof. by have [] := builtE (mf := mf) isT bs. Qed.
Let sE : s = canon dbl k kps. Proof. by have [] := builtE (mf := mf) isT bs. Qed.
Let sg_ex : exists2 i, is_segment k kps t i & dm_evaluator dbl s t = Ok (ev_of dbl k kps t i).
Proof.
case/andP: tr => t1 t2; have [i sg] := segment_ex gd t1 t2; exists i => //.
by rewrite sE; apply: evaluatorE.
Qed.

Lemma main_jacobian : (forall j, (j < size kps)%N -> qnorm2 (quat_of (nth kp0 kps j).2) = 1) ->
  exists i ev, [/\ is_segment k kps t i, dm_evaluator dbl s t = Ok ev,
  (forall d, (d <= 2)%N -> (2 <= k)%N || (d == 0)%N ->
     exists2 M, jacD ev d = Ok M &
       forall delta, quat_of (jac_apply k M delta) = qmap (@du F) (djet i delta d))
  & (forall d, (0 < d <= 2)%N -> (2 <= k)%N ->
     exists2 M, angD ev d = Ok M &
       forall delta, v3_of (jac_apply k M delta) = v3map (@du F) (omega (djet i delta) d.-1))].
Proof.
move=> hu; have [i sg he] := sg_ex; exists i, (ev_of dbl k kps t i).
have uP j : (j < k)%N -> qnorm2 (quat_pt k kps i j) = 1.
  by have [i1 i2 _ _] := sg => jk; apply: hu; move: i1 i2 jk; clear; lia.
split=> // d; rewrite sE => h1 h2.
  exact: (jacobianE et logq S L ex nc gd sg npk uP h1 h2).
exact: (angularJacobianE et logq norm ieps S L ex nc gd sg npk uP h2 h1).
Qed.

Lemma main_jacobian_fail : exists2 ev, dm_evaluator dbl s t = Ok ev &
  [/\ (forall d, (2 < d)%N -> (2 <= k)%N -> jacD ev d = Throw ExnSpline),
      (forall d, (2 < d)%N -> (2 <= k)%N -> angD ev d = Throw ExnSpline)
    & (forall d, (0 < d)%N -> k = 1%N -> jacD ev d = UB)].
Proof.
have [i sg he] := sg_ex; exists (ev_of dbl k kps t i) => //; rewrite sE; split=> d h1 h2.
- exact: (jacobian_throw et logq S L ex nc gd sg npk h1 h2).
- exact: (angularJacobian_throw et logq norm ieps S L ex nc gd sg npk h2 h1).
- exact: (jacobian_ub et expq logq S L nc gd sg npk h2 h1).
Qed.
End Main.

(* ------------------------------------------------------------------ meaning of the dual curve *)
Section Meaning.
Variables (A F : comRingType) (Ds : A -> A) (ev : {rmorphism A -> F}).
Hypothesis der : derivation Ds.
Let DsN a b : Ds (a - b) = Ds a - Ds b.
Proof.
have [hD _] := der; have D0 : Ds 0 = 0 by apply: (@addrI _ (Ds 0)); rewrite -hD !addr0.
have h x : Ds (- x) = - Ds x by apply: (@addrI _ (Ds x)); rewrite -hD !subrr.
by rewrite hD h.
Qed.
Lemma dual_of_morph : rmorphism (dual_of Ds ev : A -> dual_comRingType F).
Proof.
have [hD hM] := der; split; last split.
- by move=> a b; rewrite /dual_of DsN !rmorphB.
- move=> a b; rewrite /dual_of hM rmorphM rmorphD !rmorphM; congr Dual; exact: addrC.
- rewrite /dual_of rmorph1; congr Dual.
  have : Ds (1 * 1) = Ds 1 + Ds 1 by rewrite hM mulr1 mul1r.
  by rewrite mulr1 => /eqP; rewrite -subr_eq0 opprD addNKr oppr_eq0 => /eqP ->; rewrite rmorph0.
Qed.
Definition dual_of_rmorphism : {rmorphism A -> dual_comRingType F} :=
  Eval hnf in @GRing.RMorphism.Pack _ _ _ (dual_of Ds ev) dual_of_morph.
Lemma qdu_of q : qmap (@du F) (qmap (dual_of Ds ev) q) = qmap ev (qmap Ds q).
Proof. by []. Qed.
End Meaning.

(* a curve whose components depend on time (derivation D) and on a parameter (derivation Ds) *)
Lemma dual_curve (A F : comRingType) (D Ds : A -> A) (ev : {rmorphism A -> F}) :
  derivation D -> derivation Ds -> forall q0 (b : nat -> A) (Phi R : nat -> quat A) m n,
  qmap D q0 = 0 -> (forall j, qmap D (Phi j) = 0) ->
  (forall j, qmap D (R j) = D (b j) *: (Phi j * R j)) ->
  let dof := dual_of Ds ev : A -> dual_comRingType F in
  qmap ev (qmap Ds (ssrnat.iter n (qmap D) (q0 * \prod_(1 <= j < m.+1) R j))) =
  qmap (@du F) (jcurve (qmap dof q0)
    (fun j => rot_jet (fun e => dof (ssrnat.iter e D (b j))) (qmap dof (Phi j)) (qmap dof (R j))) m n).
Proof.
move=> hD hDs q0 b Phi R m n h0 hP hR dof.
rewrite -qdu_of; congr (qmap _ _).
exact: (jet_curve (dual_of_rmorphism ev hDs) hD m n h0 hP hR).
Qed.

(* ------------------------------------------------------------------ group operations *)
Section Group.
Variable F : realFieldType.
Variables (expq : v3 F -> quat F) (logq : quat F -> v3 F) (S L : v3 F -> m3 F).
Variables (dlogAtId : quat F -> quat F -> v3 F) (dexpAtId : v3 F -> jac F).
Notation qdu := (qmap (@du F)).

Lemma m3app_cols (A B : m3 F) v : (forall c, (c < 3)%N -> A c = B c) -> m3app A v = m3app B v.
Proof. by move=> h; rewrite /m3app !h. Qed.
Lemma qeps_tan v (q : quat F) : qnorm2 q = 1 -> v3scale 2%:R (qeps (mulV v * q * quatInv q)) = v.
Proof.
move=> u; rewrite -mulrA qmul_inv u scale1r mulr1 /mulV /qeps /=.
by case: v => x y z; congr V3 => /=; field.
Qed.

Lemma minimalDifferenceJacobianE xHat to delta :
  qnorm2 (qplus to (quatInv xHat)) = 1 ->
  (forall c, (c < 3)%N -> dexpAtId (V3 0 0 0) c = mulV (unit3 F c)) ->
  (forall q v, qnorm2 q = 1 -> dlogAtId q (mulV v * q) = m3app (L (logq q)) v) ->
  let r := uq_minimalDifferenceAndJacobian logq dlogAtId dexpAtId xHat to in
  dlog logq L (qdual to (mulV delta * to) * qdual (quatInv xHat) 0) =
  v3dual r.1 (m3app r.2 delta).
Proof.
rewrite /uq_minimalDifferenceAndJacobian qplusE; set q := to * quatInv xHat => u h1 h2 /=.
have er : qmap (@re F) (qdual to (mulV delta * to) * qdual (quatInv xHat) 0) = q.
  by rewrite qreM !qre_dual.
have ed : qdu (qdual to (mulV delta * to) * qdual (quatInv xHat) 0) = mulV delta * q.
  by rewrite qduM !qre_dual !qdu_dual mulr0 addr0 mulrA.
rewrite /dlog er ed qeps_tan //; congr v3dual.
rewrite -[X in m3app _ X]m3app_unit -m3app_mul; apply: m3app_cols => c c3.
by rewrite h1 // /quatOPlus qplusE h2.
Qed.

Lemma dexpE p v w :
  (forall c, (c < 3)%N -> dexpAtId v c = mulV (S v c) * expq v) ->
  let M := uq_dexp dexpAtId p v in
  qdual p 0 * dexp expq S (v3dual v w) =
  qdual (uq_exp expq p v) (vx w *: M 0%N + vy w *: M 1%N + vz w *: M 2%N).
Proof.
move=> h M; have e v' w' : v3map (@re F) (v3dual v' w') = v' by case: v'.
have e' v' w' : v3map (@du F) (v3dual v' w') = w' by case: w'.
apply: quat_dual_eq.
  by rewrite qreM /dexp e e' !qre_dual /uq_exp qplusE.
rewrite qduM /dexp e e' !qre_dual !qdu_dual mul0r add0r /M /uq_dexp /japp /quatPlus !qplusE !h //.
by rewrite mulV_m3app !mulrDl !mulrDr -!scalerAl -!scalerAr.
Qed.

Lemma dlogE from to dq :
  (forall q dq, dlogAtId q dq = m3app (L (logq q)) (v3scale 2%:R (qeps (dq * quatInv q)))) ->
  dlog logq L (qdual (quatInv from) 0 * qdual to dq) =
  v3dual (uq_log logq from to) (uq_dlog dlogAtId from to dq).
Proof.
move=> h; rewrite /dlog qreM qduM !qre_dual !qdu_dual mul0r add0r /uq_log /uq_dlog !qplusE.
by rewrite h.
Qed.
End Group.
