(* Pose splines: quantities in the body frame, the Jacobian of the linear acceleration,
   construction from poses. *)
From mathcomp Require Import all_ssreflect all_algebra.
From mathcomp.algebra_tactics Require Import ring.
From mathcomp.zify Require Import zify.
From Verif Require Import Prelude CoxDeBoor BSplineModel BSplineSpec BSplineProofs BSplineLineProofs
  BSplineAppendProofs PoseModel PoseSpec DerivProofs PoseProofs PoseTimeProofs.
Set Implicit Arguments.
Unset Strict Implicit.
Unset Printing Implicit Defensive.
Import GRing.Theory Num.Theory Order.Theory.
Local Open Scope ring_scope.

Section Body.
Variables (F : realFieldType) (eps : F) (s : bspline F).
Hypotheses (wfs : wf s) (e0 : 0 < eps) (el : eps <= last_len s).
Variables (i : nat) (x : F).
Hypotheses (ins : inside s i x) (dim6 : bs_dim s = 6%N).
Variable R : rotation F.
Hypotheses (Rd : rot_deriv R) (Rp : rot_proper R).
Notation pw := (pw eps s).

Lemma cross_cols (C : mat F) w (p : vec F) r : (r < 3)%N ->
  fsum 3 (fun y => mulm 3 C (crossMx w) y r * p y) = - cross w (mulv 3 (trm C) p) r.
Proof. by case: r => [|[|[|r]]] // _; rewrite /mulm /mulv /cross /trm /crossMx /=; ring. Qed.

Lemma body_transport d : exists C w v a,
  [/\ orientation R eps s x = Ok C, angularVelocityBodyFrame R eps s x = Ok w,
      linearBodyFrame R eps s x d = Ok v, linearBodyFrame R eps s x d.+1 = Ok a
    & has_rate 3 (fun t => linearBodyFrame R eps s t d) x (fun r => a r - cross w v r)].
Proof.
have [C [w [hC hw [f fE fD]]]] := orientation_body_rate wfs e0 el ins dim6 Rd Rp.
have P n := pwE wfs e0 el ins dim6 n.
have [h0 _] := near_self (P 0%N); have [h1 _] := near_self (P d); have [h2 _] := near_self (P d.+1).
have eC : rotM R (tail3 (pw 0 x)) = C by move: hC; rewrite /orientation h0 /= => -[].
exists C, w, (mulv 3 (trm C) (pw d x)), (mulv 3 (trm C) (pw d.+1 x)); split=> //.
- by rewrite /linearBodyFrame h0 /= h1 /= eC.
- by rewrite /linearBodyFrame h0 /= h2 /= eC.
exists (fun t => mulv 3 (trm (f t)) (pw d t)).
  apply: near_imp (near_and (near_and (P 0%N) (P d)) fE) => t [[[a _] [b _]] c].
  by move: c; rewrite /orientation /linearBodyFrame a /= b /= => -[->].
have fx : f x = C by have := near_self fE; rewrite hC => -[->].
move=> r r3; have := @deriv_sum _ 3 (fun y t => f t y r * pw d t y)
  (fun y => f x y r * pw d.+1 x y + mulm 3 C (crossMx w) y r * pw d x y) x.
move=> H; apply: deriv_ext (H _) => //; last first.
  move=> y y3; apply: deriv_ext (deriv_mul (fD y r y3 r3) (pw_deriv wfs e0 el ins dim6 d y)) => //.
  by rewrite addrC mulrC.
by rewrite fsumD cross_cols // fx.
Qed.
End Body.

Section Acc.
Variables (F : realFieldType) (eps : F) (s : bspline F).
Hypotheses (wfs : wf s) (dim6 : bs_dim s = 6%N).
Variable x : F.
Hypotheses (e0 : 0 < eps) (x1 : tmin s <= x) (x2 : x < tmax s + eps).

Lemma linear_acc_jac : exists v v' J idx,
  [/\ linearAccelerationAndJacobian eps s x = Ok (v, J, idx), linearAcceleration eps s x = Ok v',
      eqv 3 v v', localCoefficientVectorIndices eps s x = Ok idx
    & jacobian_of 3 (fun s' => linearAcceleration eps s' x) s J idx].
Proof.
have [P [dP [idx [hidx _ H1 H2 H3]]]] := pose_local wfs dim6 e0 x1 x2.
have [v [J [h1 h2 h3]]] := H3 2%N; have [h4 h5] := H2 2%N.
exists v, (valD eps x s 2), J, idx; split=> //.
- by rewrite /linearAccelerationAndJacobian h1.
- by rewrite /linearAcceleration h4.
- by move=> r _; rewrite h2 h5.
move=> dC; exists (fun h => valD eps x (moved s dC h) 2).
  by move=> h; have [h6 _] := H1 dC h 2%N; rewrite /linearAcceleration h6.
move=> r r3; rewrite h3; last by apply: leq_trans r3 _.
have e h : valD eps x (moved s dC h) 2 r = P 2%N r + h * dP dC 2%N r.
  by have [_ ->] := H1 dC h 2%N.
by apply: deriv_ext (deriv_affine (P 2%N r) (dP dC 2%N r) 0) => // h; rewrite e.
Qed.
(* the body frame quantity is the world quantity seen from the body *)
Lemma linear_body_world (R : rotation F) d : rot_orthonormal R -> exists C v b,
  [/\ orientation R eps s x = Ok C, evalD6 eps s x d = Ok v, linearBodyFrame R eps s x d = Ok b
    & eqv 3 (mulv 3 C b) v].
Proof.
move=> Ro; have [P [dP [idx [_ _ _ H2 _]]]] := pose_local wfs dim6 e0 x1 x2.
have [h0 _] := H2 0%N; have [hd _] := H2 d; set C := rotM R (tail3 (valD eps x s 0)).
exists C, (valD eps x s d), (mulv 3 (trm C) (valD eps x s d)).
split; [by rewrite /orientation h0|by []|by rewrite /linearBodyFrame h0 /= hd|].
move=> r r3; have oc := orthonormalC (Ro (tail3 (valD eps x s 0))).
rewrite {1}/mulv (eq_fsum (g := fun y => fsum 3 (fun z => C r y * C z y * valD eps x s d z))).
  rewrite exchange_fsum (eq_fsum (g := fun z => (z == r)%:R * valD eps x s d z)) ?fsum_delta //.
  by move=> z z3; rewrite -fsum_mulr eq_sym -(oc _ _ r3 z3).
by move=> y _; rewrite /mulv fsum_mull; apply: eq_fsum => z _; rewrite /trm mulrA.
Qed.
Lemma body_world (R : rotation F) : rot_orthonormal R -> exists C v vb a ab,
  [/\ orientation R eps s x = Ok C,
      linearVelocity eps s x = Ok v /\ linearVelocityBodyFrame R eps s x = Ok vb,
      linearAcceleration eps s x = Ok a /\ linearAccelerationBodyFrame R eps s x = Ok ab,
      eqv 3 (mulv 3 C vb) v & eqv 3 (mulv 3 C ab) a].
Proof.
move=> Ro; have [C [v [vb [h1 h2 h3 h4]]]] := linear_body_world 1 Ro.
have [C' [a [ab [h1' h2' h3' h4']]]] := linear_body_world 2 Ro.
move: h1'; rewrite h1 => -[e]; rewrite -{}e in h4'.
exists C, v, vb, a, ab; split=> //; split=> //.
  by rewrite /linearVelocity h2.
by rewrite /linearAcceleration h2'.
Qed.
End Acc.

Section Construct.
Variables (F : realFieldType) (eps : F) (R : rotation F).
Hypotheses (e0 : 0 < eps) (Rx : rot_ext R).
Variable solve : nat -> mat F -> vec F -> vec F.
Hypothesis es : exact_solver solve.
Notation representable := (representable R).

Lemma cvt_ext (c c' : vec F) : eqv 6 c c' ->
  eqm 4 4 (curveValueToTransformation R c) (curveValueToTransformation R c').
Proof.
move=> h r y r4 y4.
have h3 : eqv 3 (tail3 c) (tail3 c') by move=> z z3; apply: h; rewrite /= -[6%N]/(3 + 3)%N ltn_add2l.
case: (lt4 r4) => [r3|->]; last by rewrite !cvt_bot.
case: (lt4 y4) => [y3|->]; first by rewrite !cvt_rot //; apply: rotM_ext.
by rewrite !cvt_pos //; apply: h; apply: leq_trans r3 _.
Qed.

Lemma init_poses (s : bspline F) t0 t1 T0 T1 :
  (2 <= bs_order s)%N -> (size (bs_knots s) <= 2 * bs_order s)%N -> t0 < t1 ->
  representable T0 -> representable T1 ->
  exists2 s', initPoseSpline R eps solve s t0 t1 T0 T1 = Ok s' &
  [/\ wf s', [/\ bs_order s' = bs_order s, bs_dim s' = 6%N
               & numValidTimeSegments (bs_order s') (size (bs_knots s')) = 1%N],
      tmin s' = t0 /\ tmax s' = t1,
      exists A B, [/\ transformation R eps s' t0 = Ok A, transformation R eps s' t1 = Ok B,
        eqm 4 4 A T0 & eqm 4 4 B T1]
    & forall x, t0 <= x <= t1 -> exists p v a,
        [/\ position eps s' x = Ok p, linearVelocity eps s' x = Ok v,
            linearAcceleration eps s' x = Ok a &
            forall r, (r < 3)%N ->
            [/\ p r = T0 r 3%N + (x - t0) / (t1 - t0) * (T1 r 3%N - T0 r 3%N),
                v r = (T1 r 3%N - T0 r 3%N) / (t1 - t0) & a r = 0]]].
Proof.
move=> k2 kn tt [r0 b0] [r1 b1].
have [s' hs [ws [ho hd] [h1 h2] hn H]] := initSpline_line e0 es k2 kn
  (p0 := poseVec R T0) (p1 := poseVec R T1) isT erefl tt.
exists s'; first exact: hs.
have d6 : bs_dim s' = 6%N by rewrite hd.
have E x d : t0 <= x <= t1 -> exists2 v, evalD6 eps s' x d = Ok v & forall r, (r < 6)%N -> v r =
  (((transformationToCurveValue R T1 r - transformationToCurveValue R T0 r) / (t1 - t0)) *:
   ('X - t0%:P) + (transformationToCurveValue R T0 r)%:P)^`(d).[x].
  by move=> /andP[x1 x2]; have [v hv Hv] := H x d x1 x2; exists v => //; rewrite /evalD6 hv /= d6.
have tn : t1 - t0 != 0 by rewrite subr_eq0 (gt_eqF tt).
have ends : t0 <= t0 <= t1 /\ t0 <= t1 <= t1 by rewrite !lexx (ltW tt).
case: ends => en0 en1.
split=> //.
- have [v0 hv0 Hv0] := E t0 0%N en0; have [v1 hv1 Hv1] := E t1 0%N en1.
  exists (curveValueToTransformation R v0), (curveValueToTransformation R v1).
  split; try by rewrite /transformation ?hv0 ?hv1.
    move=> r c r4 c4; rewrite -(tf_roundtrip r0 b0 r4 c4); apply: cvt_ext => // y y6.
    by rewrite Hv0 // derivn0 hornerD hornerZ hornerD hornerN hornerX !hornerC subrr mulr0 add0r.
  move=> r c r4 c4; rewrite -(tf_roundtrip r1 b1 r4 c4); apply: cvt_ext => // y y6.
  by rewrite Hv1 // derivn0 hornerD hornerZ hornerD hornerN hornerX !hornerC divfK // subrK.
move=> x hx; have [p hp Hp] := E x 0%N hx; have [v hv Hv] := E x 1%N hx; have [a ha Ha] := E x 2%N hx.
exists p, v, a; split; try by rewrite /position /linearVelocity /linearAcceleration ?hp ?hv ?ha.
move=> r r3; have r6 : (r < 6)%N by apply: leq_trans r3 _.
have eT T : transformationToCurveValue R T r = T r 3%N.
  by case: r r3 {r6} => [|[|[|r]]].
rewrite Hp // Hv // Ha // !eT; split.
- by rewrite derivn0 hornerD hornerZ hornerD hornerN hornerX !hornerC; field.
- by rewrite derivn1 derivD derivZ derivB derivX !derivC subr0 addr0 hornerZ hornerC mulr1.
- by rewrite /= derivD derivZ derivB derivX !derivC subr0 addr0 derivZ -polyC1 derivC scaler0 horner0.
Qed.

Lemma add_pose (s : bspline F) t T junk : wf s -> bs_dim s = 6%N -> 0 < last_len s -> tmax s < t ->
  representable T ->
  exists2 s', addPoseSegment R eps solve s t T junk = Ok s' &
  [/\ wf s', bs_dim s' = 6%N, size (bs_knots s') = (size (bs_knots s)).+1, tmax s' = t
    & exists A A' B, [/\ transformation R eps s (tmax s) = Ok A,
        transformation R eps s' (tmax s) = Ok A', transformation R eps s' t = Ok B,
        eqm 4 4 A' A & eqm 4 4 B T]].
Proof.
move=> ws d6 l0 tt [rT bT].
have [s' hs [ws' [o1 o2 o3] hk _ [p0 [v0 [v1 [h0 h1 h2 H]]]]]] :=
  addCurveSegmentE e0 ws l0 tt es (p1 := poseVec R T) junk (esym d6).
exists s'; first exact: hs.
have d6' : bs_dim s' = 6%N by rewrite o3.
have E (s1 : bspline F) x v : bs_dim s1 = 6%N -> eval eps s1 x = Ok v ->
    transformation R eps s1 x = Ok (curveValueToTransformation R v).
  by move=> dd; rewrite /eval => hv; rewrite /transformation /evalD6 hv /= dd.
split=> //.
  have k2 := wf_order ws; have sz := wf_size ws.
  rewrite /tmax o1 o2 hk; last by lia.
  have -> : ((size (bs_knots s)).+1 - bs_order s = (size (bs_knots s) - bs_order s).+1)%N by lia.
  by rewrite /ext_kn /= ltnn subSnn mul1r addrC subrK.
exists (curveValueToTransformation R p0), (curveValueToTransformation R v0), (curveValueToTransformation R v1).
split; try exact: E.
  by apply: cvt_ext => r r6; case: (H r); rewrite ?d6.
move=> r c r4 c4; rewrite -(tf_roundtrip rT bT r4 c4); apply: cvt_ext => // y y6.
by case: (H y); rewrite ?d6.
Qed.
End Construct.
