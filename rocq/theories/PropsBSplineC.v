(* Property theorems C16-C19 (class BSpline: initialisation, appending and removing segments,
   least-squares fits). *)
From mathcomp Require Import all_ssreflect all_algebra.
From Verif Require Import Prelude CoxDeBoor BSplineModel BSplineSpec BSplineProofs
  LinSolve BSplineFitProofs BSplineLineProofs BSplineRemoveProofs BSplineAppendProofs Examples.
Set Implicit Arguments.
Unset Strict Implicit.
Unset Printing Implicit Defensive.
Import GRing.Theory Num.Theory Order.Theory.
Local Open Scope ring_scope.
(* keep "done" from evaluating the model on the concrete examples *)
#[local] Opaque evalD eval initSpline initSpline2 initSpline3 initSplineSparse
  initSplineSparseKnots addCurveSegment removeCurveSegment setKnotsAndCoefficients fit_normal_equations
  fit_normal_equations_sparse pinv_solve.

(* solvers with the assumed behaviour exist over every field *)
Theorem exact_solver_exists : forall F : realFieldType, exists solve, @exact_solver F solve.
Proof. exact (fun F => ex_intro _ _ (@pinv_exact F)). Qed.
Print Assumptions exact_solver_exists.

(* ---------------------------------------------------------------- C16 *)
(* Value and every derivative of the curve are those of the straight line. *)
Theorem C16_initSpline_line : forall (F : realFieldType) (eps : F), 0 < eps ->
  forall solve, exact_solver solve ->
  forall (s : bspline F) t0 t1 (p0 p1 : dvec F),
  (2 <= bs_order s)%N -> (size (bs_knots s) <= 2 * bs_order s)%N ->
  (1 <= dv_size p0)%N -> dv_size p0 = dv_size p1 -> t0 < t1 ->
  exists2 s', initSpline eps solve s t0 t1 p0 p1 = Ok s' &
  [/\ wf s', bs_order s' = bs_order s /\ bs_dim s' = dv_size p0,
      tmin s' = t0 /\ tmax s' = t1,
      numValidTimeSegments (bs_order s') (size (bs_knots s')) = 1%N
    & forall x d, t0 <= x -> x <= t1 -> exists2 v, evalD eps s' x d = Ok v &
        forall r, (r < dv_size p0)%N ->
          v r = (((p1 r - p0 r) / (t1 - t0)) *: ('X - t0%:P) + (p0 r)%:P)^`(d).[x]].
Proof. exact initSpline_line. Qed.
Print Assumptions C16_initSpline_line.
Example C16_ex : exists s0, exists2 s',
  bs_new Q 5 = Ok s0 /\
  initSpline eps0 (@pinv_solve Q) s0 1 3%:R (DVec 2 (fun r => r%:R)) (DVec 2 (fun r => (5 + r)%N%:R))
    = Ok s' &
  forall x, 1 <= x -> x <= 3%:R -> exists2 v, evalD eps0 s' x 0 = Ok v &
    v 1%N = (5%:R / 2%:R) * (x - 1) + 1.
Proof.
have lt : (1 : Q) < 3%:R by vm_compute.
have [s0 h0 [o0 n0]] : exists2 s0, bs_new Q 5 = Ok s0 & bs_order s0 = 5%N /\ size (bs_knots s0) = 0%N.
  by eexists; first reflexivity.
have k2 : (2 <= bs_order s0)%N by rewrite o0.
have kn : (size (bs_knots s0) <= 2 * bs_order s0)%N by rewrite n0.
have [s' hs [_ _ _ _ H]] := C16_initSpline_line eps0_pos (@pinv_exact Q) k2 kn
  (p0 := DVec 2 (fun r => r%:R)) (p1 := DVec 2 (fun r => (5 + r)%N%:R)) isT erefl lt.
exists s0, s'; first by split; [exact: h0|exact: hs].
move=> x x1 x2; have [v hv Hv] := H x 0%N x1 x2; exists v; first exact: hv.
rewrite (Hv 1%N isT) derivn0 hornerD hornerZ hornerD hornerN hornerX !hornerC /=.
by have -> : ((5 + 1)%:R - 1 : Q) / (3%:R - 1) = 5%:R / 2%:R by apply/eqP; vm_compute.
Qed.

(* ---------------------------------------------------------------- C17 *)
(* One segment [tmax, t] is added; both its ends are interpolated; all coefficients but the
   last two of the new spline are kept.  The knots up to the old end are kept, the later
   ones continue with the length of the new segment. *)
Theorem C17_addCurveSegment : forall (F : realFieldType) (eps : F), 0 < eps ->
  forall s : bspline F, wf s -> 0 < last_len s -> forall t, tmax s < t ->
  forall solve, exact_solver solve -> forall (p1 : dvec F) junk, dv_size p1 = bs_dim s ->
  exists2 s', addCurveSegment eps solve s t p1 junk = Ok s' &
  [/\ wf s', [/\ bs_order s' = bs_order s, size (bs_knots s') = (size (bs_knots s)).+1
               & bs_dim s' = bs_dim s],
      (forall j, (j < (size (bs_knots s)).+1)%N -> kn s' j =
         let e := (size (bs_knots s) - bs_order s)%N in
         if (j <= e)%N then kn s j else tmax s + (j - e)%:R * (t - tmax s)),
      (forall r j, (j.+1 < bs_ncoef s)%N -> bs_coef s' r j = bs_coef s r j)
    & exists p0 v0 v1, [/\ eval eps s (tmax s) = Ok p0, eval eps s' (tmax s) = Ok v0,
        eval eps s' t = Ok v1 & forall r, (r < bs_dim s)%N -> v0 r = p0 r /\ v1 r = p1 r]].
Proof. exact addCurveSegmentE. Qed.
Print Assumptions C17_addCurveSegment.

(* Orders 2 and 3: the curve is unchanged on all segments not using those coefficients. *)
Theorem C17_unchanged_low_order : forall (F : realFieldType) (eps : F), 0 < eps ->
  forall s : bspline F, wf s -> 0 < last_len s -> forall t, tmax s < t ->
  forall solve, exact_solver solve -> forall p1 junk s' x i d,
  addCurveSegment eps solve s t p1 junk = Ok s' ->
  dv_size p1 = bs_dim s -> eps <= last_len s -> (bs_order s <= 3)%N ->
  (bs_order s <= i.+1)%N -> (i.+1 < bs_ncoef s)%N -> kn s i <= x -> x < kn s i.+1 ->
  exists v v', [/\ evalD eps s x d = Ok v, evalD eps s' x d = Ok v' & forall r, v' r = v r].
Proof. exact addCurveSegment_low_order. Qed.
Print Assumptions C17_unchanged_low_order.

(* Every order, when the old trailing knots have the spacing of the new segment. *)
Theorem C17_unchanged_regular : forall (F : realFieldType) (eps : F), 0 < eps ->
  forall s : bspline F, wf s -> 0 < last_len s -> forall t, tmax s < t ->
  forall solve, exact_solver solve -> forall p1 junk s' x i d,
  addCurveSegment eps solve s t p1 junk = Ok s' ->
  dv_size p1 = bs_dim s -> eps <= last_len s ->
  (forall j, (j < bs_order s)%N ->
     kn s (size (bs_knots s) - bs_order s + j) = tmax s + j%:R * (t - tmax s)) ->
  (bs_order s <= i.+1)%N -> (i.+1 < bs_ncoef s)%N -> kn s i <= x -> x < kn s i.+1 ->
  exists v v', [/\ evalD eps s x d = Ok v, evalD eps s' x d = Ok v' & forall r, v' r = v r].
Proof. exact addCurveSegment_regular. Qed.
Print Assumptions C17_unchanged_regular.

(* Every order and knot vector: the segments far enough from the end. *)
Theorem C17_unchanged_prefix : forall (F : realFieldType) (eps : F), 0 < eps ->
  forall s : bspline F, wf s -> 0 < last_len s -> forall t, tmax s < t ->
  forall solve, exact_solver solve -> forall p1 junk s' x i d,
  addCurveSegment eps solve s t p1 junk = Ok s' ->
  dv_size p1 = bs_dim s -> eps <= last_len s ->
  (bs_order s <= i.+1)%N -> (i.+1 + bs_order s < size (bs_knots s))%N ->
  (i + 2 * bs_order s <= (size (bs_knots s)).+1)%N -> kn s i <= x -> x < kn s i.+1 ->
  exists v v', [/\ evalD eps s x d = Ok v, evalD eps s' x d = Ok v' & forall r, v' r = v r].
Proof. exact addCurveSegment_prefix. Qed.
Print Assumptions C17_unchanged_prefix.

(* Order 4: replacing the trailing knots changes the curve on a segment that does not use
   the two solved coefficients. *)
Theorem C17_refuted : forall solve : nat -> mat Q -> vec Q -> vec Q, exact_solver solve ->
  exists (s s' : bspline Q) t p1 junk x i v v',
  [/\ wf s, eps0 <= last_len s, tmax s < t /\ dv_size p1 = bs_dim s,
      addCurveSegment eps0 solve s t p1 junk = Ok s'
    & [/\ kn s i <= x < kn s i.+1, (i.+1 < bs_ncoef s)%N,
          eval eps0 s x = Ok v, eval eps0 s' x = Ok v' & v 0%N != v' 0%N]].
Proof. exact append_refuted. Qed.
Print Assumptions C17_refuted.
Example C17_ex : exists2 s',
  addCurveSegment eps0 (@pinv_solve Q) ex3 6%:R (DVec 2 (fun r => r%:R)) zerov = Ok s' &
  (exists2 v1, eval eps0 s' 6%:R = Ok v1 & v1 1%N = 1) /\
  (exists v v', [/\ evalD eps0 ex3 (3%:R / 2%:R) 0 = Ok v, evalD eps0 s' (3%:R / 2%:R) 0 = Ok v'
    & forall r, v' r = v r]).
Proof.
have l0 : 0 < last_len ex3 by vm_compute.
have tm : tmax ex3 < 6%:R by vm_compute.
have [s' hs [_ _ _ _ [p0 [v0 [v1 [_ _ hv1 H]]]]]] :=
  C17_addCurveSegment eps0_pos ex3_wf l0 tm (@pinv_exact Q) (p1 := DVec 2 (fun r => r%:R)) zerov erefl.
exists s'; first exact: hs.
split; first by exists v1; [exact: hv1|case: (H 1%N isT)].
have a : kn ex3 2 <= 3%:R / 2%:R by vm_compute.
have b : 3%:R / 2%:R < kn ex3 3 by vm_compute.
exact: (C17_unchanged_low_order eps0_pos ex3_wf l0 tm (@pinv_exact Q) 0 hs erefl ex3_last
  (i := 2) isT isT isT a b).
Qed.

(* ---------------------------------------------------------------- C18 *)
(* Uniform knots: values and derivatives on the remaining interval are kept. *)
Theorem C18_uniform_partial : forall (F : realFieldType) (eps : F), 0 < eps ->
  forall s : bspline F, wf s -> (2 * bs_order s < size (bs_knots s))%N ->
  forall x d h, (forall j, (j.+1 < size (bs_knots s))%N -> kn s j.+1 = kn s j + h) ->
  0 < last_len s -> tmin (removeCurveSegment s) <= x -> x < tmax (removeCurveSegment s) + eps ->
  exists v v', [/\ evalD eps s x d = Ok v, evalD eps (removeCurveSegment s) x d = Ok v'
    & forall r, v' r = v r].
Proof. exact remove_uniform. Qed.
Print Assumptions C18_uniform_partial.

(* Order 2: any strictly increasing knots. *)
Theorem C18_order2_partial : forall (F : realFieldType) (eps : F), 0 < eps ->
  forall s : bspline F, wf s -> (2 * bs_order s < size (bs_knots s))%N ->
  forall x d, bs_order s = 2%N ->
  (forall j, (j.+1 < size (bs_knots s))%N -> kn s j < kn s j.+1) ->
  tmin (removeCurveSegment s) <= x -> x < tmax (removeCurveSegment s) + eps ->
  exists v v', [/\ evalD eps s x d = Ok v, evalD eps (removeCurveSegment s) x d = Ok v'
    & forall r, v' r = v r].
Proof. exact remove_order2. Qed.
Print Assumptions C18_order2_partial.

(* the remaining interval *)
Theorem C18_interval : forall (F : realFieldType) (s : bspline F), wf s ->
  (2 * bs_order s < size (bs_knots s))%N ->
  tmin (removeCurveSegment s) = kn s (bs_order s) /\ tmax (removeCurveSegment s) = tmax s.
Proof. exact remove_interval. Qed.
Print Assumptions C18_interval.

(* Non-uniform knots, order 3: the value changes, the stored matrices belong to other
   segments. *)
Theorem C18_refuted : exists (s : bspline Q) x v v',
  [/\ wf s, tmin (removeCurveSegment s) <= x <= tmax (removeCurveSegment s),
      eps0 <= last_len s
    & [/\ eval eps0 s x = Ok v, eval eps0 (removeCurveSegment s) x = Ok v' & v 0%N != v' 0%N]].
Proof. exact remove_refuted. Qed.
Print Assumptions C18_refuted.
Example C18_ex : exists v v', [/\ evalD eps0 ap (9%:R / 2%:R) 0 = Ok v,
  evalD eps0 (removeCurveSegment ap) (9%:R / 2%:R) 0 = Ok v' & forall r, v' r = v r].
Proof.
have u j : (j.+1 < size (bs_knots ap))%N -> kn ap j.+1 = kn ap j + 1.
  by move=> h; rewrite /kn !nth_mkseq // ?(ltnW h) // -addn1 natrD.
have l0 : 0 < last_len ap by vm_compute.
have a : tmin (removeCurveSegment ap) <= 9%:R / 2%:R by vm_compute.
have b : 9%:R / 2%:R < tmax (removeCurveSegment ap) + eps0 by vm_compute.
exact: (C18_uniform_partial eps0_pos ap_wf isT 0 u l0 a b).
Qed.

(* ---------------------------------------------------------------- C19 *)
(* initSpline3 (dense solver): the fit minimises the cost over all coefficient vectors. *)
Theorem C19_initSpline3 : forall (F : realFieldType) (eps : F), 0 < eps ->
  forall solve, exact_solver solve ->
  forall (s : bspline F) (times : dvec F) (pts : dmat F) m lambda,
  (2 <= bs_order s)%N -> (size (bs_knots s) <= numKnotsRequired (bs_order s) m)%N ->
  (1 <= m)%N -> (1 <= dm_rows pts)%N -> (2 <= dv_size times)%N ->
  dm_cols pts = dv_size times -> nondecreasing times -> 0 <= lambda ->
  exists2 s', initSpline3 eps solve s times pts m lambda = Ok s' &
  [/\ wf s', bs_order s' = bs_order s, bs_dim s' = dm_rows pts,
      numValidTimeSegments (bs_order s') (size (bs_knots s')) = m
    & tmin s' = times 0%N /\ tmax s' = times (dv_size times).-1] /\
  is_best_fit eps s' times pts lambda (if bs_order s == 2 then 1 else 2)%N.
Proof. exact initSpline3_best. Qed.
Print Assumptions C19_initSpline3.

Theorem C19_initSplineSparse : forall (F : realFieldType) (eps : F), 0 < eps ->
  forall solve, exact_solver solve ->
  forall (s : bspline F) (times : dvec F) (pts : dmat F) m lambda,
  (2 <= bs_order s)%N -> (size (bs_knots s) <= numKnotsRequired (bs_order s) m)%N ->
  (1 <= m)%N -> (1 <= dm_rows pts)%N -> (2 <= dv_size times)%N ->
  dm_cols pts = dv_size times -> nondecreasing times -> 0 <= lambda ->
  exists2 s', initSplineSparse eps solve s times pts m lambda = Ok s' &
  [/\ wf s', bs_order s' = bs_order s, bs_dim s' = dm_rows pts,
      numValidTimeSegments (bs_order s') (size (bs_knots s')) = m
    & tmin s' = times 0%N /\ tmax s' = times (dv_size times).-1] /\
  is_best_fit eps s' times pts lambda (if bs_order s == 2 then 1 else 2)%N.
Proof. exact initSplineSparse_best. Qed.
Print Assumptions C19_initSplineSparse.

Theorem C19_initSplineSparseKnots : forall (F : realFieldType) (eps : F), 0 < eps ->
  forall solve, exact_solver solve ->
  forall (s : bspline F) (times : dvec F) (pts : dmat F) ks lambda,
  (2 <= bs_order s)%N -> (size (bs_knots s) <= size ks)%N -> (2 * bs_order s <= size ks)%N ->
  sorted <=%R ks -> (1 <= dm_rows pts)%N -> (2 <= dv_size times)%N ->
  dm_cols pts = dv_size times -> nondecreasing times -> 0 <= lambda ->
  nth 0 ks (bs_order s).-1 <= times 0%N ->
  times (dv_size times).-1 <= nth 0 ks (size ks - bs_order s) ->
  exists2 s', initSplineSparseKnots eps solve s times pts ks lambda = Ok s' &
  [/\ wf s', bs_order s' = bs_order s, bs_dim s' = dm_rows pts, bs_knots s' = ks
    & is_best_fit eps s' times pts lambda (if bs_order s == 2 then 1 else 2)%N].
Proof. exact initSplineSparseKnots_best. Qed.
Print Assumptions C19_initSplineSparseKnots.

(* initSpline2 has no integral: it penalises the second derivative at the knots. *)
Theorem C19_initSpline2 : forall (F : realFieldType) (eps : F), 0 < eps ->
  forall solve, exact_solver solve ->
  forall (s : bspline F) (times : dvec F) (pts : dmat F) m lambda,
  (2 <= bs_order s)%N -> (size (bs_knots s) <= numKnotsRequired (bs_order s) m)%N ->
  (1 <= m)%N -> (1 <= dm_rows pts)%N -> (2 <= dv_size times)%N ->
  dm_cols pts = dv_size times -> nondecreasing times ->
  exists2 s', initSpline2 eps solve s times pts m lambda = Ok s' &
  [/\ wf s', bs_order s' = bs_order s, bs_dim s' = dm_rows pts,
      numValidTimeSegments (bs_order s') (size (bs_knots s')) = m
    & tmin s' = times 0%N /\ tmax s' = times (dv_size times).-1] /\
  exists2 E, fit_cost2 eps s' times pts lambda E &
    forall c s'' E'', setCoefficientVector s' c = Ok s'' ->
      fit_cost2 eps s'' times pts lambda E'' -> E <= E''.
Proof. exact initSpline2_best. Qed.
Print Assumptions C19_initSpline2.

(* every competitor has a cost, so "minimal" quantifies over all coefficient matrices *)
Theorem C19_cost_exists : forall (F : realFieldType) (eps : F) (s : bspline F), wf s ->
  0 < eps -> forall (times : dvec F) (pts : dmat F) lambda d X,
  (forall i, (i < dm_cols pts)%N -> tmin s <= times i <= tmax s) ->
  exists E, fit_cost eps (with_coef s X) times pts lambda d E.
Proof. exact cost_exists. Qed.
Print Assumptions C19_cost_exists.

(* the sparse and the dense variant assemble the same matrix and right-hand side *)
Theorem C19_same_system : forall (F : realFieldType) (eps : F) (s : bspline F), wf s ->
  (0 < bs_dim s)%N -> forall (times : dvec F) (pts : dmat F) lambda,
  orel (fun p q : mat F * vec F => (forall x y, p.1 x y = q.1 x y) /\ forall x, p.2 x = q.2 x)
    (fit_normal_equations eps s times pts lambda)
    (fit_normal_equations_sparse eps s times pts lambda).
Proof. exact fit_sparse_dense. Qed.
Print Assumptions C19_same_system.

(* fit of four points, one of the times repeated, two segments of order 4 *)
Definition C19_times : dvec Q := DVec 4 (fun i => (if i == 1 then 0 else i * i)%N%:R).
Definition C19_pts : dmat Q := DMat 2 4 (fun r i => (r + 3 * i)%N%:R).
Example C19_ex : exists s0, exists2 s', bs_new Q 4 = Ok s0 /\
  initSpline3 eps0 (@pinv_solve Q) s0 C19_times C19_pts 2 1 = Ok s' &
  tmax s' = 9%:R /\ is_best_fit eps0 s' C19_times C19_pts 1 2.
Proof.
have nd : nondecreasing C19_times.
  by move=> [|[|[|[|i]]]] [|[|[|[|j]]]] //= _ _; vm_compute.
have [s0 h0 [o0 n0]] : exists2 s0, bs_new Q 4 = Ok s0 & bs_order s0 = 4%N /\ size (bs_knots s0) = 0%N.
  by eexists; first reflexivity.
have k2 : (2 <= bs_order s0)%N by rewrite o0.
have kn : (size (bs_knots s0) <= numKnotsRequired (bs_order s0) 2)%N by rewrite n0.
have [s' hs [[_ _ _ _ [_ tm]] B]] := C19_initSpline3 eps0_pos (@pinv_exact Q) k2 kn
  (times := C19_times) (pts := C19_pts) isT isT isT erefl nd ler01.
exists s0, s'; first by split; [exact: h0|exact: hs].
split; first exact: tm.
by move: B; rewrite o0.
Qed.
