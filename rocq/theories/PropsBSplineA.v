(* Property theorems C01-C10, C12, C13 (class BSpline: set-up and evaluation). *)
From mathcomp Require Import all_ssreflect all_algebra.
From Verif Require Import Prelude CoxDeBoor BSplineModel BSplineSpec BSplineProofs
  BSplineEvalProofs BSplineAccessProofs BSplineCoefProofs BSplineInitProofs
  BSplineJacobianProofs BSplinePolyProofs BSplineMoreProofs Examples.
Set Implicit Arguments.
Unset Strict Implicit.
Unset Printing Implicit Defensive.
Import GRing.Theory Num.Theory.
Local Open Scope ring_scope.
(* keep "done" from evaluating the model on the concrete examples *)
#[local] Opaque evalD Phi evalDAndJacobian getLocalBiVector computeUAndTIndex
  segmentIndex spline_piece setKnotsAndCoefficients initializeBasisMatrices
  localCoefficientVector setLocalCoefficientVector setCoefficientVector coefficientVector
  localVvCoefficientVectorIndices localCoefficientVectorIndices curve_fun Mmat.

(* ---------------------------------------------------------------- C01 *)
Theorem C01_counts : forall k m, (1 <= k)%N -> (1 <= m)%N ->
  [/\ numValidTimeSegments k (numKnotsRequired k m) = m,
      numKnotsRequired k m = (numCoefficientsRequired k m + k)%N
    & numKnotsRequired k m = (m + 2 * k - 1)%N].
Proof. exact counts_all. Qed.
Print Assumptions C01_counts.
Example C01_counts_ex : numValidTimeSegments 4 (numKnotsRequired 4 7) = 7%N.
Proof. by case: (@C01_counts 4 7). Qed.

Theorem C01_minimum : forall k n, (1 <= k)%N ->
  (0 < numValidTimeSegments k n)%N = (minimumKnotsRequired k <= n)%N /\
  minimumKnotsRequired k = (2 * k)%N.
Proof. exact minimum_all. Qed.
Print Assumptions C01_minimum.
Example C01_minimum_ex : (0 < numValidTimeSegments 4 7)%N = false.
Proof. by case: (@C01_minimum 4 7 isT) => -> ->. Qed.

Theorem C01_accepted_sizes : forall (F : realFieldType) (s s' : bspline F) ks c,
  (1 <= bs_order s)%N -> setKnotsAndCoefficients s ks c = Ok s' ->
  [/\ (2 * bs_order s <= size ks)%N, (dm_cols c + bs_order s = size ks)%N,
      bs_order s' = bs_order s, bs_knots s' = ks
    & bs_coef s' = c /\ bs_basis s' = initializeBasisMatrices (bs_order s) ks].
Proof. exact setKnots_ok. Qed.
Print Assumptions C01_accepted_sizes.
Example C01_accepted_sizes_ex : (dm_cols ex3_coef + 3 = size ex3_knots)%N.
Proof. by case: ex3_set => s0 [<-] h; case: (C01_accepted_sizes _ h). Qed.

(* well-sized, nondecreasing input is accepted (the old knot vector must not be longer:
   otherwise the check reads out of bounds, see C11) *)
Theorem C01_accepts : forall (F : realFieldType) (s : bspline F) ks c,
  (2 <= bs_order s)%N -> sorted <=%R ks ->
  (2 * bs_order s <= size ks)%N -> (dm_cols c + bs_order s = size ks)%N ->
  (size (bs_knots s) <= size ks)%N ->
  setKnotsAndCoefficients s ks c
  = Ok (BSpline (bs_order s) ks c (initializeBasisMatrices (bs_order s) ks)).
Proof. exact setKnots_succeeds. Qed.
Print Assumptions C01_accepts.
Example C01_accepts_ex : is_ok (setKnotsAndCoefficients ex3 ex3_knots ex3_coef).
Proof. by rewrite C01_accepts. Qed.

Theorem C01_rejects : forall (F : realFieldType) (s : bspline F) ks c,
  (2 <= bs_order s)%N -> (size (bs_knots s) <= size ks)%N ->
  ~~ ((2 * bs_order s <= size ks)%N && (dm_cols c + bs_order s == size ks)%N) ->
  setKnotsAndCoefficients s ks c = Throw ExnSpline.
Proof. exact setKnots_throws. Qed.
Print Assumptions C01_rejects.
Example C01_rejects_ex :
  setKnotsAndCoefficients ex3 ex3_knots (DMat 2 5 zerom) = Throw ExnSpline.
Proof. by apply: C01_rejects. Qed.

(* ---------------------------------------------------------------- C02 *)
Theorem C02_initialised : forall (F : realFieldType) (s s' : bspline F) ks c,
  (2 <= bs_order s)%N -> sorted <=%R ks ->
  setKnotsAndCoefficients s ks c = Ok s' -> wf s'.
Proof. exact setKnots_wf. Qed.
Print Assumptions C02_initialised.
Example C02_initialised_ex : wf ex3.
Proof. by case: ex3_set => s0 [<-] h; apply: (C02_initialised _ _ h). Qed.

Theorem C02_evalD_safe : forall (F : realFieldType) (eps : F) (s : bspline F), wf s ->
  forall x d, 0 < eps ->
  if (tmin s <= x) && (x < tmax s + eps) then exists v, evalD eps s x d = Ok v
  else evalD eps s x d = Throw ExnSpline.
Proof. exact evalD_total. Qed.
Print Assumptions C02_evalD_safe.

Theorem C02_Phi_safe : forall (F : realFieldType) (eps : F) (s : bspline F), wf s ->
  forall x d, 0 < eps ->
  if (tmin s <= x) && (x < tmax s + eps) then exists v, Phi eps s x d = Ok v
  else Phi eps s x d = Throw ExnSpline.
Proof. exact Phi_total. Qed.
Print Assumptions C02_Phi_safe.

Theorem C02_jacobian_safe : forall (F : realFieldType) (eps : F) (s : bspline F), wf s ->
  forall x d, 0 < eps ->
  if (tmin s <= x) && (x < tmax s + eps) then exists v, evalDAndJacobian eps s x d = Ok v
  else evalDAndJacobian eps s x d = Throw ExnSpline.
Proof. exact evalDAndJacobian_total. Qed.
Print Assumptions C02_jacobian_safe.

(* M(k,i) of a valid segment does not depend on anything outside the knot vector *)
Theorem C02_knots_read : forall (F : realFieldType) (s : bspline F) i (t' : nat -> F),
  wf s -> (bs_order s <= i.+1)%N -> (i + bs_order s < size (bs_knots s))%N ->
  (forall j, (j < size (bs_knots s))%N -> t' j = kn s j) ->
  forall r c, Mmat t' (bs_order s) i r c = Mmat (kn s) (bs_order s) i r c.
Proof. exact knots_read_safe. Qed.
Print Assumptions C02_knots_read.
Example C02_ex : (exists v, evalD eps0 ex3 1 0 = Ok v) /\
                 evalD eps0 ex3 5%:R 0 = Throw ExnSpline.
Proof.
have := C02_evalD_safe ex3_wf 1 0 eps0_pos => h1.
have := C02_evalD_safe ex3_wf 5%:R 0 eps0_pos => h2.
by split; [exact: h1|exact: h2].
Qed.

(* ---------------------------------------------------------------- C03 *)
(* Holds when the last valid segment is at least as long as the snap distance eps. *)
Theorem C03_segment_lookup : forall (F : realFieldType) (eps : F) (s : bspline F) x,
  wf s -> 0 < eps -> eps <= last_len s -> tmin s <= x -> x <= tmax s ->
  exists u i, [/\ computeUAndTIndex eps s x = Ok (u, i),
    (bs_order s <= i.+1)%N /\ (i + bs_order s < size (bs_knots s))%N,
    kn s i <= x, x < kn s i.+1 \/ (i.+1 = size (bs_knots s) - bs_order s)%N /\ x <= kn s i.+1
    & [/\ 0 <= u, u <= 1 & x = kn s i + u * (kn s i.+1 - kn s i)]].
Proof. exact segment_lookup. Qed.
Print Assumptions C03_segment_lookup.
Example C03_ex : exists u i, computeUAndTIndex eps0 ex3 4%:R = Ok (u, i) /\ u <= 1.
Proof.
have [u [i [h _ _ _ [_ h2 _]]]] :=
  C03_segment_lookup ex3_wf eps0_pos ex3_last (x := 4%:R) isT isT.
by exists u, i; split; [exact: h|exact: h2].
Qed.

Theorem C03_outside : forall (F : realFieldType) (eps : F) (s : bspline F) x,
  wf s -> 0 < eps -> x < tmin s \/ tmax s + eps <= x ->
  computeUAndTIndex eps s x = Throw ExnSpline.
Proof. exact segment_lookup_out. Qed.
Print Assumptions C03_outside.
Example C03_outside_ex : computeUAndTIndex eps0 ex3 0 = Throw ExnSpline.
Proof. by apply: (C03_outside ex3_wf eps0_pos); left. Qed.

(* ---------------------------------------------------------------- C04 *)
Theorem C04_evalD_exact : forall (F : realFieldType) (eps : F) (s : bspline F) x,
  wf s -> 0 < eps -> eps <= last_len s -> tmin s <= x -> x <= tmax s ->
  exists i, [/\ (bs_order s <= i.+1)%N, (i + bs_order s < size (bs_knots s))%N,
    kn s i <= x, x < kn s i.+1 \/ (i.+1 = size (bs_knots s) - bs_order s)%N /\ x <= kn s i.+1
    & forall d, exists2 v, evalD eps s x d = Ok v &
        forall r, v r = (spline_piece s r i)^`(d).[x]].
Proof. exact evalD_exact. Qed.
Print Assumptions C04_evalD_exact.

Theorem C04_eval_curve : forall (F : realFieldType) (eps : F) (s : bspline F) x,
  wf s -> 0 < eps -> eps <= last_len s -> tmin s <= x -> x < tmax s ->
  exists2 v, eval eps s x = Ok v &
  forall r, v r = curve_fun (kn s) (bs_order s).-1 (bs_ncoef s) (fun j => bs_coef s r j) x.
Proof. exact eval_curve. Qed.
Print Assumptions C04_eval_curve.

Theorem C04_high_derivatives : forall (F : realFieldType) (eps : F) (s : bspline F) x d,
  wf s -> 0 < eps -> eps <= last_len s -> tmin s <= x -> x <= tmax s ->
  (bs_order s <= d)%N -> exists2 v, evalD eps s x d = Ok v & forall r, v r = 0.
Proof. exact evalD_high. Qed.
Print Assumptions C04_high_derivatives.
Example C04_ex : exists2 v, eval eps0 ex3 3%:R = Ok v &
  v 0%N = curve_fun (kn ex3) 2 4 (fun j => (j * j)%N%:R) 3%:R /\ v 0%N = 13%:R / 3%:R.
Proof.
have [v hv Hv] := C04_eval_curve ex3_wf eps0_pos ex3_last (x := 3%:R) isT isT.
exists v; [exact: hv|split; first exact: Hv].
by move: ex3_value; rewrite /ok_at; rewrite /eval in hv; rewrite hv => /eqP.
Qed.
Example C04_high_ex : exists2 v, evalD eps0 ex3 2%:R 5 = Ok v & v 1%N = 0.
Proof.
have [v hv Hv] := C04_high_derivatives ex3_wf eps0_pos ex3_last (x := 2%:R) (d := 5) isT isT isT.
by exists v.
Qed.

(* ---------------------------------------------------------------- C05 *)
Theorem C05_partition_of_unity : forall (F : realFieldType) (eps : F) (s : bspline F) x,
  wf s -> 0 < eps -> eps <= last_len s -> tmin s <= x -> x <= tmax s ->
  exists l b v, [/\ getLocalBiVector eps s x = Ok l, segmentIndex eps s x = Ok b,
    eval eps s x = Ok v,
    [/\ dv_size l = bs_order s, (forall c, (c < bs_order s)%N -> 0 <= l c)
      & fsum (bs_order s) l = 1]
    & forall r, v r = fsum (bs_order s) (fun c => l c * bs_coef s r (b + c)%N)].
Proof. exact localBi_all. Qed.
Print Assumptions C05_partition_of_unity.

Theorem C05_convex_hull : forall (F : realFieldType) (eps : F) (s : bspline F) x lo hi r v,
  wf s -> 0 < eps -> eps <= last_len s -> tmin s <= x -> x <= tmax s ->
  eval eps s x = Ok v ->
  (forall j idx, localVvCoefficientVectorIndices eps s x = Ok idx -> j \in idx ->
     lo <= bs_coef s r j <= hi) -> lo <= v r <= hi.
Proof. exact convex_hull. Qed.
Print Assumptions C05_convex_hull.
Example C05_ex : exists l, getLocalBiVector eps0 ex3 3%:R = Ok l /\ fsum 3 l = 1.
Proof.
have [l [b [v [h _ _ [_ _ h2] _]]]] :=
  C05_partition_of_unity ex3_wf eps0_pos ex3_last (x := 3%:R) isT isT.
by exists l; split; [exact: h|exact: h2].
Qed.
Example C05_hull_ex v : eval eps0 ex3 3%:R = Ok v -> 1 <= v 0%N <= 9%:R.
Proof.
move=> h; refine (@C05_convex_hull Q eps0 ex3 3%:R 1 9%:R 0 v ex3_wf eps0_pos ex3_last isT isT h _).
by move=> j idx; rewrite ex3_idx3 => -[<-]; rewrite !inE => /or3P[] /eqP ->.
Qed.

(* ---------------------------------------------------------------- C06 *)
Theorem C06_constant_curve : forall (F : realFieldType) (eps : F) (s : bspline F) v x d,
  wf s -> 0 < eps -> 0 < last_len s -> tmin s <= x -> x < tmax s + eps ->
  (forall r j, (j < bs_ncoef s)%N -> bs_coef s r j = v r) ->
  exists2 v', evalD eps s x d = Ok v' & forall r, v' r = if d == 0%N then v r else 0.
Proof. exact constant_curve. Qed.
Print Assumptions C06_constant_curve.

Theorem C06_initConstantSpline : forall (F : realFieldType) (eps : F) k t0 t1 m (v : dvec F),
  (2 <= k)%N -> t0 < t1 -> (1 <= m)%N -> (1 <= dv_size v)%N -> 0 < eps ->
  exists s0 s, [/\ bs_new F k = Ok s0, initConstantSpline s0 t0 t1 m v = Ok s,
    [/\ t_min s = Ok t0, t_max s = Ok t1,
        numValidTimeSegments (bs_order s) (size (bs_knots s)) = m & bs_dim s = dv_size v]
    & forall x d, t0 <= x -> x <= t1 ->
        exists2 v', evalD eps s x d = Ok v' & forall r, v' r = if d == 0%N then v r else 0].
Proof. exact constant_spline. Qed.
Print Assumptions C06_initConstantSpline.
Example C06_ex : exists s, forall x, 0 <= x -> x <= 2%:R :> Q ->
  exists2 v, evalD eps0 s x 0 = Ok v & v 1%N = 7%:R.
Proof.
have [s0 [s [_ _ _ H]]] := @C06_initConstantSpline Q eps0 4 0 2%:R 5
  (DVec 2 (fun r => if r == 1%N then 7%:R else 3%:R)) isT isT isT isT eps0_pos.
by exists s => x h1 h2; have [v hv Hv] := H x 0%N h1 h2; exists v => //; rewrite Hv.
Qed.

(* ---------------------------------------------------------------- C07 *)
Theorem C07_local_support : forall (F : realFieldType) (eps : F) (s : bspline F) C x d idx,
  localVvCoefficientVectorIndices eps s x = Ok idx ->
  (forall j r, j \in idx -> C r j = bs_coef s r j) ->
  orel (fun v w => forall r, v r = w r) (evalD eps s x d) (evalD eps (with_coef s C) x d).
Proof. exact evalD_local. Qed.
Print Assumptions C07_local_support.
(* at t = 1 of ex3 coefficient 3 is not in the local window *)
Example C07_ex : exists2 v, evalD eps0 (with_coef ex3 (fun r j =>
   if j == 3%N then 100%:R else (r + j * j)%N%:R)) 1 0 = Ok v & forall w,
   evalD eps0 ex3 1 0 = Ok w -> w 0%N = v 0%N.
Proof.
set C : mat Q := fun r j => _.
have [v hv _] := C04_eval_curve ex3_wf eps0_pos ex3_last (x := 1) isT isT.
rewrite /eval in hv.
have H : forall j r, j \in [:: 0; 1; 2]%N -> C r j = bs_coef ex3 r j.
  by move=> j r; rewrite !inE => /or3P[] /eqP ->.
have := C07_local_support 0 ex3_idx1 H; rewrite hv.
case: (evalD eps0 (with_coef ex3 C) 1 0) => [v2|e|] Hv2; [|case: Hv2|case: Hv2].
by exists v2; [reflexivity|move=> w [<-]; exact: Hv2].
Qed.

(* ---------------------------------------------------------------- C08 *)
Theorem C08_linear : forall (F : realFieldType) (eps : F) (s : bspline F) C1 C2 (a b : F) x d v1 v2,
  evalD eps (with_coef s C1) x d = Ok v1 -> evalD eps (with_coef s C2) x d = Ok v2 ->
  exists2 v, evalD eps (with_coef s (fun r j => a * C1 r j + b * C2 r j)) x d = Ok v
    & forall r, v r = a * v1 r + b * v2 r.
Proof. exact evalD_linear. Qed.
Print Assumptions C08_linear.

Theorem C08_translate : forall (F : realFieldType) (eps : F) (s : bspline F), wf s ->
  forall w x i d v, segment_of eps s x i -> kn s i < kn s i.+1 ->
  evalD eps s x d = Ok v ->
  exists2 v', evalD eps (with_coef s (fun r j => bs_coef s r j + w r)) x d = Ok v'
    & forall r, v' r = v r + (if d == 0%N then w r else 0).
Proof. exact evalD_translate. Qed.
Print Assumptions C08_translate.
Example C08_ex : ok_at (evalD eps0 (with_coef ex3 (fun r j => 5%:R * bs_coef ex3 r j
   + 2%:R * bs_coef ex3 r j)) 3%:R 0) 0 (7%:R * (13%:R / 3%:R)).
Proof.
have [v hv _] := C04_eval_curve ex3_wf eps0_pos ex3_last (x := 3%:R) isT isT.
rewrite /eval in hv.
have h : evalD eps0 (with_coef ex3 (bs_coef ex3)) 3%:R 0 = Ok v by rewrite with_coef_id.
have [v' -> Hv'] := C08_linear 5%:R 2%:R h h; rewrite /ok_at Hv'.
have := ex3_value; rewrite /ok_at hv => /eqP ->; by vm_compute.
Qed.
Example C08_translate_ex : segment_of eps0 ex3 3%:R 3 /\ kn ex3 3 < kn ex3 4.
Proof. by split; [exact: ex3_seg3|exact: ex3_pos3]. Qed.

(* ---------------------------------------------------------------- C09 *)
Theorem C09_jacobian : forall (F : realFieldType) (eps : F) (s : bspline F), wf s ->
  forall x d, 0 < eps -> tmin s <= x -> x < tmax s + eps ->
  exists v J idx P lc v', [/\ evalDAndJacobian eps s x d = Ok (v, J, idx),
     [/\ evalD eps s x d = Ok v', Phi eps s x d = Ok P, localCoefficientVector eps s x = Ok lc
       & localCoefficientVectorIndices eps s x = Ok idx],
     [/\ forall r, v r = v' r,
         forall r c, (r < bs_dim s)%N -> (c < bs_order s * bs_dim s)%N -> J r c = P r c
       & forall r, (r < bs_dim s)%N -> mulv (bs_order s * bs_dim s) P lc r = v r],
     [/\ size idx = (bs_order s * bs_dim s)%N, uniq idx &
         forall q, (q < bs_order s * bs_dim s)%N ->
            (nth 0 idx q < dv_size (coefficientVector s))%N /\
            lc q = coefficientVector s (nth 0%N idx q)]
   & forall dC : mat F, exists2 v2,
       evalD eps (with_coef s (fun r j => bs_coef s r j + dC r j)) x d = Ok v2 &
       forall r, (r < bs_dim s)%N -> v2 r - v r =
         fsum (bs_order s * bs_dim s)
           (fun q => J r q * coefficientVector (with_coef s dC) (nth 0%N idx q))].
Proof. exact jacobian_all. Qed.
Print Assumptions C09_jacobian.
Example C09_ex : exists v J idx, evalDAndJacobian eps0 ex3 3%:R 1 = Ok (v, J, idx) /\ size idx = 6%N.
Proof.
have [v [J [idx [P [lc [v' [h _ _ [h2 _ _] _]]]]]]] :=
  C09_jacobian ex3_wf (x := 3%:R) 1 eps0_pos isT isT.
by exists v, J, idx; split; [exact: h|exact: h2].
Qed.

(* ---------------------------------------------------------------- C10 *)
Theorem C10_set_get : forall (F : realFieldType) (s : bspline F) c s',
  setCoefficientVector s c = Ok s' ->
  dv_size (coefficientVector s') = dv_size c /\
  forall i, (i < dv_size c)%N -> coefficientVector s' i = c i.
Proof. exact set_get_coefficientVector. Qed.
Print Assumptions C10_set_get.

Theorem C10_set_ok : forall (F : realFieldType) (s : bspline F) (c : dvec F),
  dv_size c = (bs_dim s * bs_ncoef s)%N ->
  exists2 s', setCoefficientVector s c = Ok s' &
  [/\ bs_order s' = bs_order s, bs_knots s' = bs_knots s, bs_basis s' = bs_basis s,
      bs_dim s' = bs_dim s /\ bs_ncoef s' = bs_ncoef s
    & forall r j, (j < bs_ncoef s)%N -> bs_coef s' r j = c (j * bs_dim s + r)%N].
Proof. exact setCoefficientVectorE. Qed.
Print Assumptions C10_set_ok.

Theorem C10_get_set : forall (F : realFieldType) (s : bspline F),
  exists2 s', setCoefficientVector s (coefficientVector s) = Ok s' &
  [/\ bs_order s' = bs_order s, bs_knots s' = bs_knots s, bs_basis s' = bs_basis s,
      bs_dim s' = bs_dim s /\ bs_ncoef s' = bs_ncoef s
    & forall r j, (r < bs_dim s)%N -> (j < bs_ncoef s)%N -> bs_coef s' r j = bs_coef s r j].
Proof. exact get_set_coefficientVector. Qed.
Print Assumptions C10_get_set.

Theorem C10_wrong_size : forall (F : realFieldType) (eps : F) (s : bspline F) x (c : dvec F),
  (dv_size c != (bs_dim s * bs_ncoef s)%N -> setCoefficientVector s c = Throw ExnSpline) /\
  (dv_size c != (bs_order s * bs_dim s)%N ->
     setLocalCoefficientVector eps s x c = Throw ExnSpline).
Proof. by split; [exact: setCoefficientVector_bad | exact: setLocal_bad]. Qed.
Print Assumptions C10_wrong_size.

Theorem C10_set_local : forall (F : realFieldType) (eps : F) (s : bspline F), wf s ->
  forall x i (c : dvec F), segment_of eps s x i -> dv_size c = (bs_order s * bs_dim s)%N ->
  exists2 s', setLocalCoefficientVector eps s x c = Ok s' &
  [/\ bs_order s' = bs_order s, bs_knots s' = bs_knots s, bs_basis s' = bs_basis s,
      bs_dim s' = bs_dim s /\ bs_ncoef s' = bs_ncoef s
    & forall r j, bs_coef s' r j =
        if ((i.+1 - bs_order s <= j) && (j < bs_order s + (i.+1 - bs_order s)))%N
        then c ((j - (i.+1 - bs_order s)) * bs_dim s + r)%N else bs_coef s r j].
Proof. exact setLocalE. Qed.
Print Assumptions C10_set_local.

Theorem C10_set_get_local : forall (F : realFieldType) (eps : F) (s : bspline F), wf s ->
  forall x i (c : dvec F), segment_of eps s x i -> dv_size c = (bs_order s * bs_dim s)%N ->
  exists s' c', [/\ setLocalCoefficientVector eps s x c = Ok s',
    localCoefficientVector eps s' x = Ok c', dv_size c' = dv_size c
    & forall j, (j < dv_size c)%N -> c' j = c j].
Proof. exact set_get_local. Qed.
Print Assumptions C10_set_get_local.
Example C10_ex : exists s' : bspline Q, setCoefficientVector ex3 (DVec 8 (fun i => i%:R)) = Ok s' /\
  coefficientVector s' 5%N = 5%:R.
Proof.
have [s' h _] := @C10_set_ok Q ex3 (DVec 8 (fun i => i%:R)) erefl.
by exists s'; split=> //; case: (C10_set_get h) => _ ->.
Qed.
Example C10_local_ex : exists s' c', [/\
  setLocalCoefficientVector eps0 ex3 3%:R (DVec 6 (fun i => i%:R)) = Ok s',
  localCoefficientVector eps0 s' 3%:R = Ok c' & c' 4%N = 4%:R].
Proof.
have [s' [c' [h1 h2 h3 h4]]] :=
  C10_set_get_local ex3_wf (c := DVec 6 (fun i => i%:R)) ex3_seg3 erefl.
by exists s', c'; split; [exact: h1|exact: h2|rewrite h4].
Qed.

(* ---------------------------------------------------------------- C12 *)
(* spline_piece s r i is what evalD differentiates on [kn i, kn (i+1)) by C04 *)
Theorem C12_continuity : forall (F : realFieldType) (eps : F) (s : bspline F), wf s ->
  forall i d, 0 < eps -> (d.+1 < bs_order s)%N -> (bs_order s <= i.+1)%N ->
  (i.+1 + bs_order s < size (bs_knots s))%N ->
  kn s i < kn s i.+1 -> kn s i.+1 < kn s i.+2 -> kn s i.+1 <= tmax s - eps ->
  [/\ exists2 v, evalD eps s (kn s i.+1) d = Ok v
        & forall r, v r = (spline_piece s r i)^`(d).[kn s i.+1]
    & forall x, kn s i <= x -> x < kn s i.+1 -> exists2 v, evalD eps s x d = Ok v
        & forall r, v r = (spline_piece s r i)^`(d).[x]].
Proof. exact spline_cont_both. Qed.
Print Assumptions C12_continuity.
Example C12_ex : exists2 v, evalD eps0 ex3 2%:R 1 = Ok v & v 0%N = (spline_piece ex3 0 2)^`(1).[2%:R].
Proof.
have [[v hv Hv] _] := C12_continuity ex3_wf (i := 2) (d := 1) eps0_pos isT isT isT isT isT isT.
by exists v.
Qed.

(* ---------------------------------------------------------------- C13 *)
Theorem C13_linear_precision : forall (F : realFieldType) (eps : F) (s : bspline F) r (a b : F),
  wf s -> 0 < eps -> 0 < last_len s ->
  (forall j, (j < bs_ncoef s)%N ->
     bs_coef s r j = a * greville (kn s) (bs_order s).-1 j + b) ->
  forall x, tmin s <= x -> x < tmax s + eps ->
  exists2 v, eval eps s x = Ok v & v r = a * x + b.
Proof. exact linear_precision. Qed.
Print Assumptions C13_linear_precision.

Theorem C13_polynomial_reproduction : forall (F : realFieldType) (eps : F) (s : bspline F)
  (p : {poly F}), wf s -> 0 < eps -> 0 < last_len s -> (size p <= bs_order s)%N ->
  exists c : nat -> F, forall x d, tmin s <= x -> x < tmax s + eps ->
  exists2 v, evalD eps (with_coef s (fun _ j => c j)) x d = Ok v & forall r, v r = p^`(d).[x].
Proof. exact polynomial_reproduction. Qed.
Print Assumptions C13_polynomial_reproduction.
Example C13_ex : exists c : nat -> Q, forall x, 1 <= x -> x <= 4%:R ->
  exists2 v, evalD eps0 (with_coef ex3 (fun _ j => c j)) x 0 = Ok v & v 0%N = x ^+ 2.
Proof.
have [||c H] := @C13_polynomial_reproduction Q eps0 ex3 ('X^2) ex3_wf eps0_pos.
- by [].
- by rewrite size_polyXn.
exists c => x h1 h2; have [//||v hv Hv] := H x 0%N.
  by apply: (Order.POrderTheory.le_lt_trans h2).
by exists v => //; rewrite Hv derivn0 hornerXn.
Qed.
