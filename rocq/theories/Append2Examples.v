(* addCurveSegment2 with lambda = 1 on a constant curve of order 3. *)
From mathcomp Require Import all_ssreflect all_algebra.
From mathcomp.algebra_tactics Require Import ring.
From mathcomp.zify Require Import zify.
From Verif Require Import Prelude CoxDeBoor CoxDeBoorProofs BSplineModel BSplineSpec BSplineProofs
  BSplineEvalProofs BSplineCoefProofs LinSolve Examples BSplineRemoveProofs BSplineAppendProofs
  Append2Spec Append2Proofs.
Set Implicit Arguments.
Unset Strict Implicit.
Unset Printing Implicit Defensive.
Import GRing.Theory Num.Theory Order.Theory.
Local Open Scope ring_scope.

(* knots 0..5, all three control vertices 1 *)
Definition cc_knots : seq Q := [:: 0; 1; 2%:R; 3%:R; 4%:R; 5%:R].
Definition cc : bspline Q := BSpline 3 cc_knots (DMat 1 3 (fun _ _ => 1)) (initializeBasisMatrices 3 cc_knots).
Definition cc_p1 : dvec Q := DVec 1 (fun _ => 1).
(* the extended knots with the unit control vertices *)
Definition cu_knots : seq Q := [:: 0; 1; 2%:R; 3%:R; 4%:R; 5%:R; 6%:R].
Definition cu (q : nat) : bspline Q :=
  BSpline 3 cu_knots (DMat 1 4 (fun r j => (j == q.+1)%N%:R)) (initializeBasisMatrices 3 cu_knots).

Lemma cc_wf : wf cc. Proof. by split. Qed.
Lemma cu_wf q : wf (cu q). Proof. by split. Qed.
Lemma cc_last : 0 < last_len cc. Proof. by vm_compute. Qed.
Lemma cc_eps : eps0 <= last_len cc. Proof. by vm_compute. Qed.
Lemma cc_tmax : tmax cc = 3%:R. Proof. by apply/eqP; vm_compute. Qed.
Lemma cc_tm : tmax cc < 4%:R. Proof. by vm_compute. Qed.
Lemma cu_tmax q : tmax (cu q) = 4%:R. Proof. by apply/eqP; vm_compute. Qed.
Lemma cu_far q : (`|tmax (cu q) - 3%:R| < eps0) = false. Proof. by vm_compute. Qed.
Lemma cu_near q : (`|tmax (cu q) - 4%:R| < eps0) = true. Proof. by vm_compute. Qed.
Lemma cu_seg3 q : segment_of eps0 (cu q) 3%:R 3.
Proof. by rewrite /segment_of cu_far; split; [exact: isT|exact: isT|vm_compute]. Qed.
Lemma cu_seg4 q : segment_of eps0 (cu q) 4%:R 3.
Proof. by rewrite /segment_of cu_near; split; [vm_compute|exact: erefl]. Qed.
Lemma cu_pos q : kn (cu q) 3 < kn (cu q) 4. Proof. by vm_compute. Qed.

Lemma cu_knE (s : bspline Q) : bs_knots s = cu_knots -> forall j, kn s j = kn (cu 0) j.
Proof. by rewrite /kn => ->. Qed.

Lemma cu_weight q x d w : segment_of eps0 (cu q) x 3 -> (q < 3)%N ->
  ok_at (evalD eps0 (cu q) x d) 0 w -> weight (cu 0) x 3 d q = w.
Proof.
move=> seg q3 /ok_at_eq[v hv Hv].
have [v' hv' Hv'] := evalD_weight (cu_wf q) d seg (cu_pos q).
have [ev] : Ok v = Ok v' := etrans (esym hv) hv'.
rewrite -Hv ev Hv' (@fsum_pick _ _ q); last 2 first.
- exact: q3.
- move=> c _ cq; rewrite -[bs_coef (cu q) _ _]/((c.+1 == q.+1)%N%:R) eqSS (negPf cq).
  exact: mul0r.
by rewrite -[bs_coef (cu q) _ _]/((q.+1 == q.+1)%N%:R) eqxx mul1r.
Qed.

Lemma w300 : weight (cu 0) 3%:R 3 0 0 = 2%:R^-1.
Proof. by apply: (cu_weight (cu_seg3 0)) => //; vm_compute. Qed.
Lemma w301 : weight (cu 0) 3%:R 3 0 1 = 2%:R^-1.
Proof. by apply: (cu_weight (cu_seg3 1)) => //; vm_compute. Qed.
Lemma w302 : weight (cu 0) 3%:R 3 0 2 = 0.
Proof. by apply: (cu_weight (cu_seg3 2)) => //; vm_compute. Qed.
Lemma w400 : weight (cu 0) 4%:R 3 0 0 = 0.
Proof. by apply: (cu_weight (cu_seg4 0)) => //; vm_compute. Qed.
Lemma w401 : weight (cu 0) 4%:R 3 0 1 = 2%:R^-1.
Proof. by apply: (cu_weight (cu_seg4 1)) => //; vm_compute. Qed.
Lemma w402 : weight (cu 0) 4%:R 3 0 2 = 2%:R^-1.
Proof. by apply: (cu_weight (cu_seg4 2)) => //; vm_compute. Qed.
Lemma w321 : weight (cu 0) 3%:R 3 2 1 = - 2%:R.
Proof. by apply: (cu_weight (cu_seg3 1)) => //; vm_compute. Qed.
Lemma w322 : weight (cu 0) 3%:R 3 2 2 = 1.
Proof. by apply: (cu_weight (cu_seg3 2)) => //; vm_compute. Qed.
Lemma w421 : weight (cu 0) 4%:R 3 2 1 = - 2%:R.
Proof. by apply: (cu_weight (cu_seg4 1)) => //; vm_compute. Qed.
Lemma w422 : weight (cu 0) 4%:R 3 2 2 = 1.
Proof. by apply: (cu_weight (cu_seg4 2)) => //; vm_compute. Qed.

Section Any.
Variable s : bspline Q.
Hypothesis ws : wf s.
Hypothesis os : bs_order s = 3%N.
Hypothesis ks : bs_knots s = cu_knots.

Lemma any_seg x : segment_of eps0 (cu 0) x 3 -> segment_of eps0 s x 3.
Proof. by rewrite /segment_of /tmax /tmin /kn os ks. Qed.

Lemma any_eval x d v : segment_of eps0 (cu 0) x 3 -> evalD eps0 s x d = Ok v ->
  v 0%N = bs_coef s 0%N 1%N * weight (cu 0) x 3 d 0 + bs_coef s 0%N 2%N * weight (cu 0) x 3 d 1
        + bs_coef s 0%N 3%N * weight (cu 0) x 3 d 2.
Proof.
move=> seg hv; have pos : kn s 3 < kn s 4 by rewrite /kn ks; exact: (cu_pos 0).
have [v' hv' Hv'] := evalD_weight ws d (any_seg seg) pos.
have [ev] : Ok v = Ok v' := etrans (esym hv) hv'.
rewrite ev Hv' os; rewrite /fsum /floop /=.
have wE c : weight s x 3 d c = weight (cu 0) x 3 d c by rewrite /weight /kn os ks.
rewrite -!wE add0r; exact: erefl.
Qed.
End Any.

Lemma coef_spline_id (F : realFieldType) (s : bspline F) : coef_spline s (bs_coef s) = s.
Proof. by case: s => o ks [r c C] B. Qed.

Lemma cc_value : ok_at (evalD eps0 cc 3%:R 0) 0 1. Proof. by vm_compute. Qed.

Lemma cc_refuted (solve : nat -> mat Q -> vec Q -> vec Q) : exact_solver solve ->
  exists s' v0 v1,
  [/\ addCurveSegment2 eps0 solve cc 4%:R cc_p1 1 zerov = Ok s',
      eval eps0 s' (tmax cc) = Ok v0, eval eps0 s' 4%:R = Ok v1
    & ~ (v0 0%N = 1 /\ v1 0%N = 1)].
Proof.
move=> ex; have [s' [p0 [hs hp0 [ws os ns ds] [K C'] [E hE [opt _]]]]] :=
  @add2E _ eps0 eps0_pos cc cc_wf cc_last _ cc_tm solve ex cc_p1 1 zerov erefl.
have ks : bs_knots s' = cu_knots.
  have sz : size (bs_knots s') = size cu_knots by rewrite ns; exact: erefl.
  apply: (@eq_from_nth _ 0 _ _ sz) => j; rewrite ns => jn; rewrite -[nth _ _ _]/(kn s' j) (K j jn); apply/eqP.
  have : all (fun j => ext_kn cc 4%:R j == nth 0 cu_knots j) (iota 0 7) by vm_compute.
  by move/allP/(_ j); rewrite mem_iota => /(_ jn).
have nc : bs_ncoef s' = 4%N.
  have := wf_cols ws; rewrite os ns -[bs_order cc]/3%N -[size (bs_knots cc)]/6%N; clear; lia.
rewrite cc_tmax in hp0 hE opt.
have p01 : p0 0%N = 1.
  have [v hv Hv] := ok_at_eq cc_value.
  by have [->] : Ok p0 = Ok v := etrans (esym hp0) hv.
have d1 : bs_dim s' = 1%N by rewrite ds; exact: erefl.
have c1 : bs_coef s' 0%N 1%N = 1 by rewrite (C' 0%N 1%N isT); exact: erefl.
(* cost of the extended knots with control vertices y and z at the end *)
have cost C E' : C 0%N 1%N = 1 ->
    append_cost eps0 1 3%:R 4%:R p0 cc_p1 (coef_spline s' C) E' ->
    E' = (2%:R^-1 + C 0%N 2%N * 2%:R^-1 - 1) ^+ 2
       + (C 0%N 2%N * 2%:R^-1 + C 0%N 3%N * 2%:R^-1 - 1) ^+ 2
       + 2%:R * (C 0%N 3%N - 2%:R * C 0%N 2%N) ^+ 2.
  move=> e1 [v0 [v1 [a0 [a1 [h0 h1 h2 h3 ->]]]]].
  have wC D : wf (coef_spline s' D) := wf_with_coef ws D.
  have H0 := any_eval (wC C) os ks (cu_seg3 0) h0.
  have H1 := any_eval (wC C) os ks (cu_seg4 0) h1.
  have H2 := any_eval (wC _) os ks (cu_seg3 0) h2.
  have H3 := any_eval (wC _) os ks (cu_seg4 0) h3.
  rewrite -[bs_dim _]/(bs_dim s') d1 /= add0r H0 H1 H2 H3 p01.
  rewrite /= -[bs_ncoef _]/(bs_ncoef s') nc /= e1.
  rewrite w300 w301 w302 w400 w401 w402 w321 w322 w421 w422.
  by clear; ring.
have own : append_cost eps0 1 3%:R 4%:R p0 cc_p1 (coef_spline s' (bs_coef s')) E.
  by rewrite coef_spline_id.
have [v0 [v1 [_ [_ [h0 h1 _ _ _]]]]] := hE.
exists s', v0, v1; split; [exact: hs|rewrite cc_tmax; exact: h0|exact: h1|].
have H0 := any_eval ws os ks (cu_seg3 0) h0; have H1 := any_eval ws os ks (cu_seg4 0) h1.
rewrite H0 H1 c1 w300 w301 w302 w400 w401 w402 => -[z0 z1].
have y1 : bs_coef s' 0%N 2%N = 1.
  have -> : bs_coef s' 0%N 2%N = 2%:R * (1 * 2%:R^-1 + bs_coef s' 0%N 2%N * 2%:R^-1 + bs_coef s' 0%N 3%N * 0) - 1.
    by clear; field.
  by rewrite z0; clear; ring.
have y2 : bs_coef s' 0%N 3%N = 1.
  have -> : bs_coef s' 0%N 3%N = 2%:R * (1 * 0 + bs_coef s' 0%N 2%N * 2%:R^-1 + bs_coef s' 0%N 3%N * 2%:R^-1) - bs_coef s' 0%N 2%N.
    by clear; field.
  by rewrite z1 y1; clear; ring.
have eE := cost _ _ c1 own; rewrite y1 y2 in eE.
pose C2 : mat Q := fun r j => if (j == 3)%N then 2%:R else bs_coef s' r j.
have same2 : same_but_two s' C2.
  by move=> r j; rewrite nc /C2; case: eqP => [->|].
have [E' hE' [le _]] := opt C2 same2.
have eE' := cost C2 _ c1 hE'.
move: le; rewrite eE eE' /C2 [(2 == 3)%N]/= [(3 == 3)%N]/= y1.
by apply/negP; vm_compute.
Qed.

Lemma interpolates_refuted (solve : nat -> mat Q -> vec Q -> vec Q) :
  exact_solver solve -> exists (s s' : bspline Q) (t : Q) (p1 : dvec Q) lambda junk v0 v1,
  [/\ wf s /\ 0 < last_len s, tmax s < t /\ dv_size p1 = bs_dim s,
      (forall r j, bs_coef s r j = 1) /\ (forall r, p1 r = 1),
      addCurveSegment2 eps0 solve s t p1 lambda junk = Ok s'
    & [/\ eval eps0 s' (tmax s) = Ok v0, eval eps0 s' t = Ok v1
        & ~ (v0 0%N = 1 /\ v1 0%N = 1)]].
Proof.
move=> ex; have [s' [v0 [v1 [hs h0 h1 ne]]]] := cc_refuted ex.
exists cc, s', 4%:R, cc_p1, 1, zerov, v0, v1; split.
- split; [exact: cc_wf|exact: cc_last].
- split; [exact: cc_tm|exact: erefl].
- split; move=> *; exact: erefl.
- exact: hs.
split; [exact: h0|exact: h1|exact: ne].
Qed.

Lemma cc_same s' : addCurveSegment2 eps0 (@pinv_solve Q) cc 4%:R cc_p1 1 zerov = Ok s' ->
  same_but_two s' (fun _ _ => 1).
Proof.
move=> hs'; have [s2 [p0 [hs hp0 [ws os ns ds] [K C'] _]]] :=
  @add2E _ eps0 eps0_pos cc cc_wf cc_last _ cc_tm _ (@pinv_exact Q) cc_p1 1 zerov erefl.
have [->] : Ok s' = Ok s2 := etrans (esym hs') hs.
have nc : bs_ncoef s2 = 4%N.
  have := wf_cols ws; rewrite os ns -[bs_order cc]/3%N -[size (bs_knots cc)]/6%N; clear; lia.
move=> r j; rewrite nc => jl; have jn : (j.+1 < bs_ncoef cc)%N by exact: jl.
by rewrite (C' r j jn).
Qed.

Lemma cu_last : 0 < last_len (cu 0). Proof. by vm_compute. Qed.
Lemma cu_eps : eps0 <= last_len (cu 0). Proof. by vm_compute. Qed.
Lemma cu_tm : tmax (cu 0) < 5%:R. Proof. by vm_compute. Qed.
Lemma cu_x1 : kn (cu 0) 2 <= 5%:R / 2%:R. Proof. by vm_compute. Qed.
Lemma cu_x2 : 5%:R / 2%:R < kn (cu 0) 3. Proof. by vm_compute. Qed.
