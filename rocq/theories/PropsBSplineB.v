(* Property theorems C03 (refutation), C11, C14, C15, C20, C21 (class BSpline). *)
From mathcomp Require Import all_ssreflect all_algebra.
From Verif Require Import Prelude CoxDeBoor BSplineModel BSplineSpec BSplineProofs
  BSplineEvalProofs BSplineAccessProofs BSplineCoefProofs BSplineInitProofs
  BSplineIntegralProofs BSplineQuadProofs BSplineMoreProofs BSplineCumProofs
  BSplineSumProofs Examples.
Set Implicit Arguments.
Unset Strict Implicit.
Unset Printing Implicit Defensive.
Import GRing.Theory Num.Theory Order.Theory.
Local Open Scope ring_scope.
(* keep "done" from evaluating the model on the concrete examples *)
#[local] Opaque evalD eval evalIntegral getLocalBiVector computeUAndTIndex
  segmentIndex spline_piece setKnotsAndCoefficients initializeBasisMatrices
  setCoefficientVector curveQuadraticIntegral curveQuadraticIntegralDiag
  curveQuadraticIntegralSparse curveQuadraticIntegralDiagSparse
  getLocalCumulativeBiVector getBiVector getCumulativeBiVector Mmat.

(* ---------------------------------------------------------------- C03, C05: limits *)
(* Without "the last valid segment is at least as long as the snap distance" the lookup
   picks a segment that does not contain the time. *)
Theorem C03_refuted : forall (F : realFieldType) (eps : F), 0 < eps ->
  exists (s : bspline F) x u i, [/\ wf s, tmin s <= x, x <= tmax s, 0 < last_len s
    & [/\ computeUAndTIndex eps s x = Ok (u, i), x < kn s i & u < 0]].
Proof. exact lookup_refuted. Qed.
Print Assumptions C03_refuted.

Theorem C05_short_last_segment_refuted : forall (F : realFieldType) (eps : F), 0 < eps ->
  exists (s : bspline F) x l c, [/\ wf s, tmin s <= x, x <= tmax s, 0 < last_len s
    & [/\ getLocalBiVector eps s x = Ok l, (c < bs_order s)%N & l c < 0]].
Proof. exact partition_refuted. Qed.
Print Assumptions C05_short_last_segment_refuted.

(* ---------------------------------------------------------------- C11 *)
(* a freshly constructed spline accepts a decreasing knot sequence *)
Theorem C11_refuted : exists (s0 : bspline Q) ks c, [/\ bs_new Q 2 = Ok s0,
  ~~ sorted <=%R ks & is_ok (setKnotsAndCoefficients s0 ks c)].
Proof. exact decreasing_accepted. Qed.
Print Assumptions C11_refuted.

(* no fresh spline checks the order of its knots *)
Theorem C11_fresh_unchecked : forall (F : realFieldType) (k : nat) (s0 : bspline F) ks c,
  bs_new F k = Ok s0 -> (2 * k <= size ks)%N -> (dm_cols c + k = size ks)%N ->
  setKnotsAndCoefficients s0 ks c = Ok (BSpline k ks c (initializeBasisMatrices k ks)).
Proof. exact setKnots_fresh. Qed.
Print Assumptions C11_fresh_unchecked.

(* with a longer stored knot vector the check reads past the end of a valid argument *)
Theorem C11_out_of_bounds_refuted : forall (F : realFieldType) (s : bspline F) ks c,
  (minimumKnotsRequired (bs_order s) <= size ks)%N -> sorted <=%R ks -> (0 < size ks)%N ->
  (size ks < size (bs_knots s))%N -> setKnotsAndCoefficients s ks c = UB.
Proof. exact setKnots_shorter_ub. Qed.
Print Assumptions C11_out_of_bounds_refuted.
Example C11_out_of_bounds_ex :
  setKnotsAndCoefficients ex3 [:: 0; 1; 2%:R; 3%:R; 4%:R; 5%:R] (DMat 1 3 zerom) = UB.
Proof. exact: C11_out_of_bounds_refuted. Qed.

(* the contract holds when the stored knot vector has the length of the new one *)
Theorem C11_same_length_partial : forall (F : realFieldType) (s : bspline F) ks c,
  size (bs_knots s) = size ks -> ~~ sorted <=%R ks ->
  setKnotsAndCoefficients s ks c = Throw ExnSpline.
Proof. exact setKnots_rejects. Qed.
Print Assumptions C11_same_length_partial.
Example C11_same_length_ex :
  setKnotsAndCoefficients ex3 [:: 0; 0; 1; 2%:R; 4%:R; 6%:R; 5%:R] ex3_coef = Throw ExnSpline.
Proof. exact: C11_same_length_partial. Qed.

(* ---------------------------------------------------------------- C14 *)
Theorem C14_integral : forall (F : realFieldType) (eps thr : F) (s : bspline F) t1 t2,
  wf s -> 0 < eps -> eps <= last_len s -> 0 <= thr ->
  tmin s <= t1 <= tmax s -> tmin s <= t2 <= tmax s ->
  above_threshold thr s t1 -> above_threshold thr s t2 ->
  exists2 v, evalIntegral eps thr s t1 t2 = Ok v &
    forall r G, curve_antiderivative s r G -> v r = G t2 - G t1.
Proof. exact integral_exact. Qed.
Print Assumptions C14_integral.

(* antiderivatives exist, so the statement above is not vacuous *)
Theorem C14_antiderivative_exists : forall (F : realFieldType) (s : bspline F) r,
  wf s -> exists G, curve_antiderivative s r G.
Proof. exact integral_antiderivative. Qed.
Print Assumptions C14_antiderivative_exists.

Theorem C14_laws : forall (F : realFieldType) (eps thr : F) (s : bspline F) t1 t2 t3,
  wf s -> 0 < eps -> eps <= last_len s -> 0 <= thr ->
  tmin s <= t1 <= tmax s -> tmin s <= t2 <= tmax s -> tmin s <= t3 <= tmax s ->
  above_threshold thr s t1 -> above_threshold thr s t2 -> above_threshold thr s t3 ->
  exists v12 v21 v23 v13, [/\ evalIntegral eps thr s t1 t2 = Ok v12,
    evalIntegral eps thr s t2 t1 = Ok v21, evalIntegral eps thr s t2 t3 = Ok v23,
    evalIntegral eps thr s t1 t3 = Ok v13
    & forall r, v21 r = - v12 r /\ v12 r + v23 r = v13 r].
Proof. exact integral_laws. Qed.
Print Assumptions C14_laws.
Example C14_ex : exists2 v, evalIntegral eps0 eps1 ex3 1 3%:R = Ok v &
  forall G, curve_antiderivative ex3 0 G -> v 0%N = G 3%:R - G 1.
Proof.
have [v hv H] := C14_integral ex3_wf eps0_pos ex3_last (ltW eps1_pos) (t1 := 1) (t2 := 3%:R)
  isT isT ex3_above1 ex3_above3.
by exists v; [exact: hv|move=> G HG; exact: (H 0%N G HG)].
Qed.
(* the model computes: the value at row 0 *)
Example C14_value : ok_at (evalIntegral eps0 eps1 ex3 1 3%:R) 0 (77%:R / 18%:R).
Proof. by vm_compute. Qed.

(* ---------------------------------------------------------------- C15 *)
(* c^T Q e is the integral of (D^d curve_c)^T W (D^d curve_e), where curve_c is the spline
   after setCoefficientVector(c); W may be asymmetric up to the tolerance of the check. *)
Theorem C15_quadratic_integral : forall (F : realFieldType) (wtol : F) (s : bspline F)
  (W : dmat F) d, wf s -> dm_rows W = bs_dim s -> dm_cols W = bs_dim s ->
  (forall r c, (r < bs_dim s)%N -> (c < bs_dim s)%N -> `|W r c - W c r| <= wtol) ->
  exists2 Qm, curveQuadraticIntegral wtol s W d = Ok Qm &
  let N := (bs_ncoef s * bs_dim s)%N in
  forall c e s1 s2 G, setCoefficientVector s (DVec (bs_dim s * bs_ncoef s) c) = Ok s1 ->
    setCoefficientVector s (DVec (bs_dim s * bs_ncoef s) e) = Ok s2 ->
    antiderivative_of s (fun i => fsum (bs_dim s) (fun r => fsum (bs_dim s) (fun q => W r q *:
      ((spline_piece s1 r i)^`(d) * (spline_piece s2 q i)^`(d))))) G ->
    bil N N c Qm e = G (tmax s) - G (tmin s).
Proof. exact quad_integral. Qed.
Print Assumptions C15_quadratic_integral.

Theorem C15_symmetric_psd : forall (F : realFieldType) (wtol : F) (s : bspline F)
  (W : dmat F) d, 0 <= wtol -> wf s -> dm_rows W = bs_dim s -> dm_cols W = bs_dim s ->
  (forall r c, (r < bs_dim s)%N -> (c < bs_dim s)%N -> W r c = W c r) ->
  exists2 Qm, curveQuadraticIntegral wtol s W d = Ok Qm &
  let N := (bs_ncoef s * bs_dim s)%N in
  (forall x y, (x < N)%N -> (y < N)%N -> Qm x y = Qm y x) /\
  ((forall v : nat -> F, 0 <= bil (bs_dim s) (bs_dim s) v W v) ->
    forall c, 0 <= bil N N c Qm c).
Proof. exact quad_symmetric_psd. Qed.
Print Assumptions C15_symmetric_psd.

Theorem C15_diag : forall (F : realFieldType) (wtol : F) (s : bspline F) (w : nat -> F) d,
  wf s -> 0 <= wtol ->
  exists Q1 Q2, [/\ curveQuadraticIntegralDiag s (DVec (bs_dim s) w) d = Ok Q1,
    curveQuadraticIntegral wtol s
      (DMat (bs_dim s) (bs_dim s) (fun r c => (r == c)%:R * w r)) d = Ok Q2
    & forall x y, (x < bs_ncoef s * bs_dim s)%N -> (y < bs_ncoef s * bs_dim s)%N ->
        Q1 x y = Q2 x y].
Proof. exact quad_diag. Qed.
Print Assumptions C15_diag.

Theorem C15_sparse : forall (F : realFieldType) (wtol : F) (s : bspline F) (W : dmat F) d,
  dm_rows W = bs_dim s -> dm_cols W = bs_dim s ->
  orel (fun Q1 Q2 : mat F => forall x y, Q1 x y = Q2 x y)
    (curveQuadraticIntegral wtol s W d) (curveQuadraticIntegralSparse wtol s W d).
Proof. exact quad_sparse. Qed.
Print Assumptions C15_sparse.

Theorem C15_diag_sparse : forall (F : realFieldType) (s : bspline F) (w : dvec F) d,
  dv_size w = bs_dim s ->
  orel (fun Q1 Q2 : mat F => forall x y, Q1 x y = Q2 x y)
    (curveQuadraticIntegralDiag s w d) (curveQuadraticIntegralDiagSparse s w d).
Proof. exact quad_diag_sparse. Qed.
Print Assumptions C15_diag_sparse.
Example C15_ex : exists2 Qm, curveQuadraticIntegral eps1 ex3 exW 1 = Ok Qm &
  forall x y, (x < 8)%N -> (y < 8)%N -> Qm x y = Qm y x.
Proof.
have [Qm h [H _]] := @C15_symmetric_psd Q eps1 ex3 exW 1 (ltW eps1_pos) ex3_wf erefl erefl exW_sym.
by exists Qm; [exact: h|exact: H].
Qed.

(* ---------------------------------------------------------------- C20 *)
Theorem C20_cumulative : forall (F : realFieldType) (eps : F) (s : bspline F) x,
  wf s -> 0 < eps -> eps <= last_len s -> tmin s <= x -> x <= tmax s ->
  exists l c, [/\ getLocalBiVector eps s x = Ok l, getLocalCumulativeBiVector eps s x = Ok c,
    dv_size c = bs_order s,
    (forall i, (i < bs_order s)%N -> c i = fsum (bs_order s - i) (fun j => l (i + j)%N))
    & c 0%N = 1 /\ (forall i j, (i <= j)%N -> (j < bs_order s)%N ->
        [/\ 0 <= c j, c j <= c i & c i <= 1])].
Proof. exact cumulative_all. Qed.
Print Assumptions C20_cumulative.

(* getCumulativeBiVector: suffix sums of the weights of all coefficients *)
Theorem C20_cumulative_vector : forall (F : realFieldType) (eps : F) (s : bspline F) x,
  wf s -> 0 < eps -> eps <= last_len s -> tmin s <= x -> x <= tmax s ->
  exists w : nat -> F, exists2 b, getCumulativeBiVector eps s x = Ok b &
  [/\ dv_size b = numValidTimeSegments (bs_order s) (size (bs_knots s)),
      (forall j, (j < dv_size b)%N -> b j = fsum (bs_ncoef s - j) (fun m => w (j + m)%N))
    & forall C : mat F, exists2 v, eval eps (with_coef s C) x = Ok v & forall r,
      v r = fsum (bs_ncoef s) (fun j => w j * C r j)].
Proof. exact cumulativeBiVector. Qed.
Print Assumptions C20_cumulative_vector.
Example C20_ex : exists2 c, getLocalCumulativeBiVector eps0 ex3 3%:R = Ok c &
  dv_size c = 3%N /\ c 2%N <= c 1%N.
Proof.
have [l [c [_ hc sz _ [_ H]]]] := C20_cumulative ex3_wf eps0_pos ex3_last (x := 3%:R) isT isT.
by exists c; [exact: hc|split; [exact: sz|case: (H 1%N 2%N isT isT)]].
Qed.

(* ---------------------------------------------------------------- C21 *)
(* the entries that are returned are right, but there are fewer of them than coefficients *)
Theorem C21_entries_partial : forall (F : realFieldType) (eps : F) (s : bspline F) x,
  wf s -> 0 < eps -> eps <= last_len s -> tmin s <= x -> x <= tmax s ->
  exists w : nat -> F, exists2 b, getBiVector eps s x = Ok b &
  [/\ dv_size b = numValidTimeSegments (bs_order s) (size (bs_knots s)),
      (dv_size b < bs_ncoef s)%N,
      (forall j, (j < dv_size b)%N -> b j = w j)
    & forall C : mat F, exists2 v, eval eps (with_coef s C) x = Ok v & forall r,
      v r = fsum (bs_ncoef s) (fun j => w j * C r j)].
Proof. exact BiVector_weight. Qed.
Print Assumptions C21_entries_partial.

(* a coefficient that contributes to the value has no entry: at t = 3 coefficient 2 of ex3
   changes the value, the returned vector has two entries *)
Theorem C21_refuted : exists (s : bspline Q) x j (C1 C2 : mat Q) b v1 v2,
  [/\ wf s, tmin s <= x <= tmax s, getBiVector eps0 s x = Ok b, (dv_size b <= j < bs_ncoef s)%N
    & [/\ forall r i, i != j -> C1 r i = C2 r i, eval eps0 (with_coef s C1) x = Ok v1,
      eval eps0 (with_coef s C2) x = Ok v2 & v1 0%N != v2 0%N]].
Proof. exact BiVector_refuted. Qed.
Print Assumptions C21_refuted.
