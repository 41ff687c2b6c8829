(* Packaging of the pose results: refutations and combined statements. *)
From mathcomp Require Import all_ssreflect all_algebra.
From mathcomp.algebra_tactics Require Import ring.
From mathcomp.zify Require Import zify.
From Verif Require Import Prelude CoxDeBoor BSplineModel BSplineSpec PoseModel PoseSpec DerivProofs
  PoseProofs PoseCayley PoseTimeProofs Examples PoseExamples.
Set Implicit Arguments.
Unset Strict Implicit.
Unset Printing Implicit Defensive.
Import GRing.Theory Num.Theory Order.Theory.
Local Open Scope ring_scope.

#[local] Opaque evalJ6 evalD6 evalD evalDAndJacobian qex pex lex eps0
  angularAccelerationBodyFrame orientation angularVelocity angularVelocityAndJacobian
  linearBodyFrame angularVelocityBodyFrame localCoefficientVectorIndices.

Lemma has_rate_uniq (F : realFieldType) n (f : F -> outcome (vec F)) x D E r : (r < n)%N ->
  has_rate n f x D -> has_rate n f x E -> D r = E r.
Proof.
move=> rn [g [d d0 gE] gD] [g' [d' d'0 g'E] g'D].
apply: deriv_uniq (gD r rn) _; apply: deriv_local (g'D r rn).
exists (Num.min d d') => [|t]; rewrite lt_minr ?d0 // => /andP[h h'].
by have := gE t h; rewrite (g'E t h') => -[->].
Qed.

Lemma jacobian_uniq (F : realFieldType) n (f : bspline F -> outcome (vec F)) s J J' idx dC r :
  (r < n)%N -> jacobian_of n f s J idx -> jacobian_of n f s J' idx ->
  dir s J idx dC r = dir s J' idx dC r.
Proof.
move=> rn /(_ dC)[v vE vD] /(_ dC)[v' v'E v'D].
apply: deriv_uniq (vD r rn) _; apply: deriv_ext (v'D r rn) => // h.
by have := vE h; rewrite v'E => -[->].
Qed.

Lemma acc_node_refuted : exists (R : rotation Q) (s : bspline Q) (t : Q),
  [/\ [/\ rot_ext R, rot_proper R, rot_deriv R & rot_av R],
      wf s, bs_dim s = 6%N, tmin s <= t <= tmax s &
    exists J idx, [/\ accelerationBodyFrameNode_J eps0 s t = Ok J,
      localCoefficientVectorIndices eps0 s t = Ok idx &
      ~ jacobian_of 3 (fun s' => accelerationBodyFrameNode_value R eps0 s' t) s J idx]].
Proof.
have [q1 q2] := andP qex_range.
exists cayQ, qex, 3%:R; split; last 1 first.
- have [v0 [J0 [v1 [J1 [idx [h0 h1 H]]]]]] :=
    body_frame_jac qex_wf (erefl : bs_dim qex = 6%N) eps0_pos q1 q2 (@cay_ext Q) 2 (@cay_deriv Q).
  have [C [C' [Jo [idx' [ho _ _ hi _]]]]] :=
    orientation_jac qex_wf (erefl : bs_dim qex = 6%N) eps0_pos q1 q2 (@cay_ext Q) (@cay_deriv Q).
  move: ho; rewrite /orientationAndJacobian h0 /= => -[_ _ ei].
  exists J1, idx; split; [by rewrite /accelerationBodyFrameNode_J h1| by rewrite hi ei|] => K.
  have := qex_differ; rewrite h0 h1.
  by rewrite (jacobian_uniq qdir (isT : (1 < 3)%N) K H) eqxx.
- by split; [exact: cay_ext|exact: cay_proper|exact: cay_deriv|exact: cay_av].
- exact: qex_wf.
- exact: erefl.
by rewrite q1; apply: (isT : 3%:R <= tmax qex).
Qed.

Lemma angular_sign_refuted : exists (R : rotation Q) (s : bspline Q) (t : Q),
  [/\ [/\ rot_ext R, rot_proper R, rot_deriv R & rot_av R],
      wf s, bs_dim s = 6%N, tmin s <= t <= tmax s &
    exists w v J idx, [/\ angularVelocity R eps0 s t = Ok w,
      angularVelocityAndJacobian R eps0 s t = Ok (v, J, idx) & v 0%N <> w 0%N]].
Proof.
have [q1 q2] := andP pex_range.
exists cayQ, pex, 3%:R; split; last 1 first.
- have [w [v [J [idx [hw hv ne]]]]] : exists w v J idx,
    [/\ angularVelocity cayQ eps0 pex 3%:R = Ok w,
        angularVelocityAndJacobian cayQ eps0 pex 3%:R = Ok (v, J, idx) & v 0%N != w 0%N].
    move: pex_sign.
    move: (angularVelocity _ _ _ _) (angularVelocityAndJacobian _ _ _ _) => [w|e|] // [[[v J] idx]|e|] // ne.
    by exists w, v, J, idx.
  exists w, v, J, idx; split; [exact: hw|exact: hv|exact/eqP].
- by split; [exact: cay_ext|exact: cay_proper|exact: cay_deriv|exact: cay_av].
- exact: pex_wf.
- exact: erefl.
by rewrite q1; apply: (isT : 3%:R <= tmax pex).
Qed.

Lemma angular_acc_refuted : exists (R : rotation Q) (s : bspline Q) (i : nat) (t : Q),
  [/\ [/\ rot_ext R, rot_proper R, rot_deriv R & rot_av R],
      wf s /\ bs_dim s = 6%N, eps0 <= last_len s, inside s i t &
    exists a, angularAccelerationBodyFrame R eps0 s t = Ok a /\
      ~ has_rate 3 (angularVelocityBodyFrame R eps0 s) t a].
Proof.
exists cayQ, lex, 1%N, lt0; split; last 1 first.
- have [C [v0 [v1 [a [hC h0 h1 ha H]]]]] := angular_body_rate lex_wf eps0_pos lex_last lex_inside
    (erefl : bs_dim lex = 6%N) (@cay_deriv Q) (@cay_ext Q) (@cay_proper Q) (@cay_av Q).
  exists a; split; first exact: ha.
  move=> K; have := lex_acc; rewrite ha hC h0 h1.
  by rewrite -(has_rate_uniq (isT : (0 < 3)%N) K H) eqxx.
- by split; [exact: cay_ext|exact: cay_proper|exact: cay_deriv|exact: cay_av].
- by split; [exact: lex_wf|exact: erefl].
- exact: lex_last.
exact: lex_inside.
Qed.

(* values that are time derivatives of each other *)
Lemma kinematics (F : realFieldType) (eps : F) (s : bspline F) i x (R : rotation F) :
  wf s -> 0 < eps -> eps <= last_len s -> inside s i x -> bs_dim s = 6%N -> rot_deriv R ->
  exists v a C w, [/\ linearVelocity eps s x = Ok v, linearAcceleration eps s x = Ok a,
    orientation R eps s x = Ok C, angularVelocity R eps s x = Ok w &
    [/\ has_rate 3 (position eps s) x v, has_rate 3 (linearVelocity eps s) x a
      & has_mrate 3 3 (orientation R eps s) x (fun r c => cross w (fun y => C y c) r)]].
Proof.
move=> wfs e0 el ins d6 Rd.
have [C [w [hC hw H]]] := orientation_rate wfs e0 el ins d6 Rd.
have [v hv [f fn fD]] := position_rate wfs e0 el ins d6 0.
have [a ha [g gn gD]] := position_rate wfs e0 el ins d6 1.
exists v, a, C, w; split; rewrite ?/linearVelocity ?/linearAcceleration ?hv ?ha //.
split=> //.
  exists f => [|r r3]; last by apply: fD; apply: ltn_trans r3 _.
  by apply: near_imp fn => t; rewrite /position => ->.
exists g => [|r r3]; last by apply: gD; apply: ltn_trans r3 _.
by apply: near_imp gn => t; rewrite /linearVelocity => ->.
Qed.
