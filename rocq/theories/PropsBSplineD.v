(* Property theorems C58 and C59 (class BSpline: views of the coefficients, time intervals,
   matrix form). *)
From mathcomp Require Import all_ssreflect all_algebra.
From Verif Require Import Prelude CoxDeBoor BSplineModel BSplineSpec BSplineProofs
  BSplineEvalProofs BSplineViewProofs Examples.
Set Implicit Arguments.
Unset Strict Implicit.
Unset Printing Implicit Defensive.
Import GRing.Theory Num.Theory Order.Theory.
Local Open Scope ring_scope.
#[local] Opaque evalD U_mat Mi Di basisMatrix localCoefficientVector segmentCoefficientVector.

(* ---------------------------------------------------------------- C58 *)
(* Segment i: its coefficient vector holds columns i .. i+k-1 of the coefficient matrix, its
   index list addresses the same numbers in the complete coefficient vector, and its vertex
   list addresses the same columns. *)
Theorem C58_segment_views : forall (F : realFieldType) (s : bspline F) i,
  wf s -> (i < numValidTimeSegments (bs_order s) (size (bs_knots s)))%N ->
  let k := bs_order s in let D := bs_dim s in
  exists c idx vidx, [/\
    segmentCoefficientVector s i = Ok c /\ dv_size c = (k * D)%N,
    forall j r, (r < D)%N -> (j < k)%N -> c (j * D + r)%N = bs_coef s r (i + j)%N,
    segmentCoefficientVectorIndices s i = Ok idx /\ size idx = (k * D)%N,
    (forall p, (p < k * D)%N -> (nth 0%N idx p < dv_size (coefficientVector s))%N /\
       coefficientVector s (nth 0%N idx p) = c p)
    & segmentVvCoefficientVectorIndices s i = Ok vidx /\ size vidx = k /\
      forall j, (j < k)%N -> exists2 v, vvCoefficientVector s (nth 0%N vidx j) = Ok v &
        dv_size v = D /\ forall r, (r < D)%N -> v r = c (j * D + r)%N].
Proof. move=> F s i w; exact: (segment_views w). Qed.
Print Assumptions C58_segment_views.

(* The views by time are the views of the segment that contains the time. *)
Theorem C58_local_views : forall (F : realFieldType) (eps : F) (s : bspline F) x i,
  wf s -> segment_of eps s x i ->
  let k := bs_order s in
  [/\ (k <= i.+1)%N /\ (i.+1 - k < numValidTimeSegments k (size (bs_knots s)))%N,
      localCoefficientVector eps s x = segmentCoefficientVector s (i.+1 - k),
      localCoefficientVectorIndices eps s x = segmentCoefficientVectorIndices s (i.+1 - k),
      localVvCoefficientVectorIndices eps s x = segmentVvCoefficientVectorIndices s (i.+1 - k)
    & exists2 C, localCoefficientMatrix eps s x = Ok C &
        [/\ dm_rows C = bs_dim s, dm_cols C = k
          & forall r j, C r j = bs_coef s r (i.+1 - k + j)%N]].
Proof. move=> F eps s x i w; exact: (local_views w). Qed.
Print Assumptions C58_local_views.

(* The time intervals of the segments tile the valid interval of the spline, ... *)
Theorem C58_intervals_tile : forall (F : realFieldType) (s : bspline F), wf s ->
  let m := numValidTimeSegments (bs_order s) (size (bs_knots s)) in
  [/\ timeInterval s = Ok (tmin s, tmax s), (0 < m)%N,
      (exists b, timeInterval_i s 0 = Ok (tmin s, b)),
      (exists a, timeInterval_i s m.-1 = Ok (a, tmax s))
    & forall i, (i.+1 < m)%N -> exists a b c,
        timeInterval_i s i = Ok (a, b) /\ timeInterval_i s i.+1 = Ok (b, c)].
Proof. move=> F s w; exact: (intervalsE w). Qed.
Print Assumptions C58_intervals_tile.

(* ... and a time inside the interval of segment i is served by the vertices of segment i. *)
Theorem C58_interval_vertices : forall (F : realFieldType) (eps : F) (s : bspline F) i a b x,
  wf s -> (i < numValidTimeSegments (bs_order s) (size (bs_knots s)))%N ->
  timeInterval_i s i = Ok (a, b) -> a <= x -> x < b -> eps <= `|tmax s - x| ->
  localVvCoefficientVectorIndices eps s x = segmentVvCoefficientVectorIndices s i.
Proof. move=> F eps s i a b x w; exact: (interval_vertices w). Qed.
Print Assumptions C58_interval_vertices.

Theorem C58_out_of_range : forall (F : realFieldType) (s : bspline F) i,
  wf s -> (numValidTimeSegments (bs_order s) (size (bs_knots s)) <= i)%N ->
  [/\ segmentCoefficientVector s i = Throw ExnRuntime,
      segmentCoefficientVectorIndices s i = Throw ExnRuntime,
      segmentVvCoefficientVectorIndices s i = Throw ExnRuntime,
      basisMatrix s i = Throw ExnSpline
    & timeInterval_i s i = Throw ExnSpline].
Proof. move=> F s i w; exact: (segment_bad w). Qed.
Print Assumptions C58_out_of_range.

(* One vertex: reading returns the column; writing through the map changes this column only. *)
Theorem C58_vertex_read : forall (F : realFieldType) (s : bspline F) i,
  (i < bs_ncoef s)%N -> exists2 v, vvCoefficientVector s i = Ok v &
  dv_size v = bs_dim s /\ forall r, v r = bs_coef s r i.
Proof. move=> F s i; exact: vv_read. Qed.
Print Assumptions C58_vertex_read.

Theorem C58_vertex_write : forall (F : realFieldType) (s : bspline F) i v,
  wf s -> (i < bs_ncoef s)%N ->
  exists2 s', vvCoefficientVector_write s i v = Ok s' &
  [/\ wf s', bs_order s' = bs_order s /\ bs_knots s' = bs_knots s, bs_dim s' = bs_dim s,
      (exists2 v', vvCoefficientVector s' i = Ok v' & forall r, v' r = v r)
    & bs_ncoef s' = bs_ncoef s /\
      forall j r, j != i -> bs_coef s' r j = bs_coef s r j].
Proof. move=> F s i v w; exact: (vv_write w). Qed.
Print Assumptions C58_vertex_write.

Theorem C58_vertex_bad : forall (F : realFieldType) (s : bspline F) i v,
  (bs_ncoef s <= i)%N ->
  vvCoefficientVector s i = Throw ExnSpline /\
  vvCoefficientVector_write s i v = Throw ExnSpline.
Proof. move=> F s i v; exact: vv_bad. Qed.
Print Assumptions C58_vertex_bad.

(* Setting the coefficient matrix keeps everything else, and rejects a matrix of another size. *)
Theorem C58_set_matrix : forall (F : realFieldType) (s : bspline F) (C : dmat F),
  wf s ->
  (if (dm_rows C == bs_dim s) && (dm_cols C == bs_ncoef s)
   then exists2 s', setCoefficientMatrix s C = Ok s' &
     [/\ wf s', bs_order s' = bs_order s, bs_knots s' = bs_knots s & bs_coef s' = C]
   else setCoefficientMatrix s C = Throw ExnSpline).
Proof. move=> F s C w; exact: (set_matrix w). Qed.
Print Assumptions C58_set_matrix.

Example C58_ex : exists c, segmentCoefficientVector ex3 1 = Ok c /\
  (forall j r, (r < 2)%N -> (j < 3)%N -> c (j * 2 + r)%N = (r + (1 + j) * (1 + j))%N%:R) /\
  localVvCoefficientVectorIndices eps0 ex3 3%:R = Ok [:: 1; 2; 3]%N.
Proof.
have h : (1 < numValidTimeSegments (bs_order ex3) (size (bs_knots ex3)))%N by vm_compute.
have [c [idx [vidx [[e1 _] e2 _ _ _]]]] := C58_segment_views ex3_wf h.
exists c; split; first exact: e1.
split; last exact: ex3_idx3.
by move=> j r rD jk; rewrite (e2 j r rD jk).
Qed.

(* ---------------------------------------------------------------- C59 *)
(* Value and derivatives are U(t,d)^T M_i c with c the local coefficient vector. *)
Theorem C59_matrix_form : forall (F : realFieldType) (eps : F) (s : bspline F) x d,
  wf s -> 0 < eps -> tmin s <= x -> x < tmax s + eps ->
  let k := bs_order s in let D := bs_dim s in
  exists i U M c v, [/\
    localVvCoefficientVectorIndices eps s x = Ok (iota i k),
    U_mat eps s x d = Ok U /\ Mi s i = Ok M,
    localCoefficientVector eps s x = Ok c, evalD eps s x d = Ok v
    & forall r, (r < D)%N -> v r =
       fsum (D * k) (fun a => U a r * fsum (k * D) (fun b => M a b * c b))].
Proof. move=> F eps s x d w; exact: (time_matrix_form w). Qed.
Print Assumptions C59_matrix_form.

(* Differentiation is multiplication by the derivative matrix: U(t,d+1) = D_i^T U(t,d). *)
Theorem C59_derivative_matrix : forall (F : realFieldType) (eps : F) (s : bspline F) x d,
  wf s -> 0 < eps -> tmin s <= x -> x < tmax s + eps ->
  let k := bs_order s in let D := bs_dim s in
  exists i U U' Dm, [/\
    localVvCoefficientVectorIndices eps s x = Ok (iota i k),
    U_mat eps s x d = Ok U, U_mat eps s x d.+1 = Ok U', Di s i = Ok Dm
    & forall a c, (a < D * k)%N -> (c < D)%N ->
       U' a c = fsum (D * k) (fun b => Dm b a * U b c)].
Proof. move=> F eps s x d w; exact: (time_U_derivative w). Qed.
Print Assumptions C59_derivative_matrix.

(* M_i consists of the entries of the basis matrix, one copy per output row. *)
Theorem C59_basis_blocks : forall (F : realFieldType) (s : bspline F) i,
  wf s -> (i < numValidTimeSegments (bs_order s) (size (bs_knots s)))%N ->
  let k := bs_order s in let D := bs_dim s in
  exists B M, [/\ basisMatrix s i = Ok B, Mi s i = Ok M
  & forall r p j c, (r < D)%N -> (p < k)%N -> (j < k)%N -> (c < D)%N ->
      M (r * k + p)%N (j * D + c)%N = (r == c)%:R * B p j].
Proof. move=> F s i w; exact: (basisMatrixE w). Qed.
Print Assumptions C59_basis_blocks.

(* Column j of the basis matrix is the Cox-de Boor basis function j of the segment, written in
   powers of the normalised time. *)
Theorem C59_basis_function : forall (F : realFieldType) (s : bspline F) i j x,
  wf s -> (i < numValidTimeSegments (bs_order s) (size (bs_knots s)))%N ->
  let k := bs_order s in (j < k)%N ->
  exists a b B, [/\ timeInterval_i s i = Ok (a, b), basisMatrix s i = Ok B
  & a < b -> fsum k (fun q => B q j * ((x - a) / (b - a)) ^+ q)
    = (basis_poly (kn s) (k + i - 1) k.-1 (i + j)).[x]].
Proof. move=> F s i j x w; exact: (basis_function w). Qed.
Print Assumptions C59_basis_function.

Example C59_ex : exists i U M c v, [/\
    localVvCoefficientVectorIndices eps0 ex3 3%:R = Ok (iota i 3),
    U_mat eps0 ex3 3%:R 1 = Ok U /\ Mi ex3 i = Ok M,
    localCoefficientVector eps0 ex3 3%:R = Ok c, evalD eps0 ex3 3%:R 1 = Ok v
    & v 0%N = 8%:R / 3%:R /\
      v 0%N = fsum 6 (fun a => U a 0%N * fsum 6 (fun b => M a b * c b))].
Proof.
have h1 : tmin ex3 <= 3%:R by vm_compute.
have h2 : 3%:R < tmax ex3 + eps0 by vm_compute.
have [i [U [M [c [v [e1 e2 e3 e4 H]]]]]] := C59_matrix_form 1 ex3_wf eps0_pos h1 h2.
exists i, U, M, c, v; split; [exact: e1|exact: e2|exact: e3|exact: e4|].
split; last exact: (H 0%N isT).
by move: ex3_deriv; rewrite e4 /ok_at => /eqP.
Qed.
