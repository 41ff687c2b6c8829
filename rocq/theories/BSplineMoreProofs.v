(* Lemmas behind the property theorems C01-C10 in the form in which they are stated. *)
From mathcomp Require Import all_ssreflect all_algebra.
From mathcomp.algebra_tactics Require Import ring.
From mathcomp.zify Require Import zify.
From Verif Require Import Prelude CoxDeBoor CoxDeBoorProofs BSplineModel BSplineSpec
  BSplineProofs BSplineEvalProofs BSplineAccessProofs BSplineCoefProofs BSplineInitProofs
  BSplineJacobianProofs BSplinePolyProofs.
Set Implicit Arguments.
Unset Strict Implicit.
Unset Printing Implicit Defensive.
Import GRing.Theory Num.Theory Order.Theory.
Local Open Scope ring_scope.

Section More.
Variable F : realFieldType.
Variable eps : F.
Implicit Types s : bspline F.

Lemma counts_all k m : (1 <= k)%N -> (1 <= m)%N ->
  [/\ numValidTimeSegments k (numKnotsRequired k m) = m,
      numKnotsRequired k m = (numCoefficientsRequired k m + k)%N
    & numKnotsRequired k m = (m + 2 * k - 1)%N].
Proof.
move=> k1 m1; split=> //; first exact: counts_roundtrip.
rewrite /numKnotsRequired /numCoefficientsRequired; lia.
Qed.

Lemma minimum_all k n : (1 <= k)%N ->
  (0 < numValidTimeSegments k n)%N = (minimumKnotsRequired k <= n)%N /\
  minimumKnotsRequired k = (2 * k)%N.
Proof.
move=> k1; split; first exact: minimumKnots_least.
rewrite /minimumKnotsRequired /numKnotsRequired /numCoefficientsRequired; lia.
Qed.

Lemma knots_read_safe s i (t' : nat -> F) : wf s -> (bs_order s <= i.+1)%N ->
  (i + bs_order s < size (bs_knots s))%N ->
  (forall j, (j < size (bs_knots s))%N -> t' j = kn s j) ->
  forall r c, Mmat t' (bs_order s) i r c = Mmat (kn s) (bs_order s) i r c.
Proof.
move=> wfs ki iN H r c; apply: M_ext => // j _ ji; apply: H; lia.
Qed.

Lemma evalD_exact s x : wf s -> 0 < eps -> eps <= last_len s -> tmin s <= x -> x <= tmax s ->
  exists i, [/\ (bs_order s <= i.+1)%N, (i + bs_order s < size (bs_knots s))%N,
    kn s i <= x, x < kn s i.+1 \/ (i.+1 = size (bs_knots s) - bs_order s)%N /\ x <= kn s i.+1
    & forall d, exists2 v, evalD eps s x d = Ok v & forall r, v r = (spline_piece s r i)^`(d).[x]].
Proof.
move=> wfs e0 el x1 x2; have [i [seg pos h1 h2 [ki iN h3]]] := valid_segment wfs e0 el x1 x2.
exists i; split=> //; first by case: h3 => h; [left|right].
by move=> d; apply: evalD_piece.
Qed.

Lemma eval_curve s x : wf s -> 0 < eps -> eps <= last_len s -> tmin s <= x -> x < tmax s ->
  exists2 v, eval eps s x = Ok v &
  forall r, v r = curve_fun (kn s) (bs_order s).-1 (bs_ncoef s) (fun j => bs_coef s r j) x.
Proof.
move=> wfs e0 el x1 x2.
have [i [ki iN h1 h2 H]] := evalD_exact wfs e0 el x1 (ltW x2).
have [v hv Hv] := H 0%N; exists v => // r; rewrite Hv derivn0.
rewrite (@curve_fun_piece _ _ wfs r i) //; case: h2 => // -[e _]; by rewrite e.
Qed.

Lemma evalD_high s x d : wf s -> 0 < eps -> eps <= last_len s -> tmin s <= x -> x <= tmax s ->
  (bs_order s <= d)%N -> exists2 v, evalD eps s x d = Ok v & forall r, v r = 0.
Proof.
move=> wfs e0 el x1 x2 kd; have [i [_ _ _ _ H]] := evalD_exact wfs e0 el x1 x2.
have [v hv Hv] := H d; exists v => // r; rewrite Hv derivn_poly0 ?horner0 //.
exact: leq_trans (piece_size wfs r i) kd.
Qed.

Lemma segment_lookup s x : wf s -> 0 < eps -> eps <= last_len s -> tmin s <= x -> x <= tmax s ->
  exists u i, [/\ computeUAndTIndex eps s x = Ok (u, i),
    (bs_order s <= i.+1)%N /\ (i + bs_order s < size (bs_knots s))%N,
    kn s i <= x, x < kn s i.+1 \/ (i.+1 = size (bs_knots s) - bs_order s)%N /\ x <= kn s i.+1
    & [/\ 0 <= u, u <= 1 & x = kn s i + u * (kn s i.+1 - kn s i)]].
Proof.
move=> wfs e0 el x1 x2; have [i [seg pos h1 h2 [ki iN h3]]] := valid_segment wfs e0 el x1 x2.
have [u [hu u0 u1 ux]] := computeU_range wfs seg pos h1 h2; exists u, i; split=> //.
by case: h3 => h; [left|right].
Qed.

Lemma segment_lookup_out s x : wf s -> 0 < eps -> x < tmin s \/ tmax s + eps <= x ->
  computeUAndTIndex eps s x = Throw ExnSpline.
Proof. by move=> wfs e0 h; rewrite /computeUAndTIndex computeTIndex_throw. Qed.

Lemma localBi_all s x : wf s -> 0 < eps -> eps <= last_len s -> tmin s <= x -> x <= tmax s ->
  exists l b v, [/\ getLocalBiVector eps s x = Ok l, segmentIndex eps s x = Ok b,
    eval eps s x = Ok v,
    [/\ dv_size l = bs_order s, (forall c, (c < bs_order s)%N -> 0 <= l c)
      & fsum (bs_order s) l = 1]
    & forall r, v r = fsum (bs_order s) (fun c => l c * bs_coef s r (b + c)%N)].
Proof.
move=> wfs e0 el x1 x2; have [i [seg pos h1 h2 [ki iN h3]]] := valid_segment wfs e0 el x1 x2.
have [l hl [sz Hl]] := localBi_weight wfs seg pos.
have [v hv Hv] := evalD_weight wfs 0 seg pos.
exists l, (i.+1 - bs_order s)%N, v; split=> //.
- by rewrite /segmentIndex (computeTIndexE wfs seg) /= ki.
- split=> // [c ck|]; first by rewrite Hl // weight_nonneg.
  by rewrite -[RHS](weight_partition wfs x ki iN pos); apply: eq_fsum => c ck; rewrite Hl.
by move=> r; rewrite Hv; apply: eq_fsum => c ck; rewrite Hl // mulrC.
Qed.

(* every component of the value lies between two bounds of the local coefficients *)
Lemma convex_hull s x (lo hi : F) r v : wf s -> 0 < eps -> eps <= last_len s ->
  tmin s <= x -> x <= tmax s -> eval eps s x = Ok v ->
  (forall j idx, localVvCoefficientVectorIndices eps s x = Ok idx -> j \in idx ->
     lo <= bs_coef s r j <= hi) -> lo <= v r <= hi.
Proof.
move=> wfs e0 el x1 x2; have [l [b [v' [h1 h2 h3 [h4 h5 h6] h7]]]] := localBi_all wfs e0 el x1 x2.
rewrite h3 => -[<-] H.
have hidx : exists2 idx, localVvCoefficientVectorIndices eps s x = Ok idx &
    forall c, (c < bs_order s)%N -> (b + c)%N \in idx.
  move: h2; rewrite /segmentIndex /localVvCoefficientVectorIndices.
  case: (computeTIndex eps s x) => [[w i]|e|] //=.
  rewrite /ub_unless; case: ifP => // _ [<-]; eexists; first by reflexivity.
  move=> c ck; rewrite mem_iota /basisMatrixIndexFromStartingKnotIndex; lia.
have [idx hi' Hi] := hidx; rewrite h7.
have Hc c (ck : (c < bs_order s)%N) := H _ _ hi' (Hi c ck).
have e (a : F) : a = fsum (bs_order s) (fun c => l c * a) by rewrite -fsum_mulr h6 mul1r.
rewrite {1}[lo]e [X in _ && (_ <= X)]e !fsumE; apply/andP; split; apply: ler_sum => c _.
  by rewrite ler_wpmul2l ?h5 //; case/andP: (Hc c (ltn_ord c)).
by rewrite ler_wpmul2l ?h5 //; case/andP: (Hc c (ltn_ord c)).
Qed.

Lemma segment_positive s x : wf s -> 0 < eps -> 0 < last_len s -> tmin s <= x ->
  x < tmax s + eps -> exists2 i, segment_of eps s x i & kn s i < kn s i.+1.
Proof.
move=> wfs e0 l0 x1 x2; have [i seg] := segment_exists wfs e0 x1 x2; exists i => //.
have hk := wf_order wfs; have hn := wf_size wfs.
move: (seg); rewrite {1}/segment_of; case: ifP => _ [].
  move=> _ ->; have -> : (size (bs_knots s) - bs_order s).-1.+1 =
    (size (bs_knots s) - bs_order s)%N by lia.
  by rewrite -subr_gt0.
by move=> _ _ /andP[]; apply: le_lt_trans.
Qed.

Lemma constant_curve s (v : vec F) x d : wf s -> 0 < eps -> 0 < last_len s ->
  tmin s <= x -> x < tmax s + eps -> (forall r j, (j < bs_ncoef s)%N -> bs_coef s r j = v r) ->
  exists2 v', evalD eps s x d = Ok v' & forall r, v' r = if d == 0%N then v r else 0.
Proof.
move=> wfs e0 el x1 x2 Hc; have [i seg pos] := segment_positive wfs e0 el x1 x2.
exact: (const_coef_eval wfs d seg pos).
Qed.

Lemma constant_spline k t0 t1 m (v : dvec F) : (2 <= k)%N -> t0 < t1 -> (1 <= m)%N ->
  (1 <= dv_size v)%N -> 0 < eps ->
  exists s0 s, [/\ bs_new F k = Ok s0, initConstantSpline s0 t0 t1 m v = Ok s,
    [/\ t_min s = Ok t0, t_max s = Ok t1,
        numValidTimeSegments (bs_order s) (size (bs_knots s)) = m & bs_dim s = dv_size v]
    & forall x d, t0 <= x -> x <= t1 ->
        exists2 v', evalD eps s x d = Ok v' & forall r, v' r = if d == 0%N then v r else 0].
Proof.
move=> k2 lt m1 v1 e0; rewrite /bs_new k2 /=.
have m0 : m%:R != 0 :> F by rewrite pnatr_eq0 -lt0n.
have [s' hs' [wf' [h1 h2] h3 h4 h5]] :=
  @initConstantSplineE F (BSpline k [::] (DMat 0 0 zerom) [::]) t0 t1 m v k2 (leq0n _) lt m1 v1.
rewrite /= in h1 h2 h5.
have ke : k%:R - 1 = (k.-1)%:R :> F by rewrite -[in LHS](@prednK k) ?(ltnW k2) // mulrS addrC addKr.
have szK : numKnotsRequired k m = (m + 2 * k - 1)%N by case: (counts_all (ltnW k2) m1).
have emin : tmin s' = t0.
  rewrite /tmin h1 h5; last by rewrite szK; lia.
  by rewrite ke subrr mul0r addr0.
have knend j : (j <= m)%N -> kn s' (k.-1 + j) = t0 + j%:R * ((t1 - t0) / m%:R).
  move=> jm; rewrite h5; last by rewrite szK; lia.
  by rewrite ke natrD addrAC subrr add0r.
have emax : tmax s' = t1.
  rewrite /tmax h1 h2; have -> : (numKnotsRequired k m - k = k.-1 + m)%N by rewrite szK; lia.
  by rewrite knend // mulrC mulfVK // addrC subrK.
have elast : last_len s' = (t1 - t0) / m%:R.
  rewrite /last_len emax h1 h2.
  have -> : ((numKnotsRequired k m - k).-1 = k.-1 + m.-1)%N by rewrite szK; lia.
  rewrite knend ?leq_pred //; have mE : m%:R = (m.-1)%:R + 1 :> F.
    by rewrite -{1}(prednK m1) -addn1 natrD.
  have -> : (m.-1)%:R = m%:R - 1 :> F by rewrite mE addrK.
  by field.
exists (BSpline k [::] (DMat 0 0 zerom) [::]), s'; split=> //; first split.
- by rewrite (t_minE wf') emin.
- by rewrite (t_maxE wf') emax.
- by rewrite h1 h2 counts_roundtrip // ltnW.
- by [].
move=> x d x1 x2; apply: constant_curve => //; rewrite ?elast ?emin ?emax //.
  by rewrite divr_gt0 ?subr_gt0 ?ltr0n.
by apply: (le_lt_trans x2); rewrite ltr_addl.
Qed.
End More.

Section More2.
Variable F : realFieldType.
Variable eps : F.
Implicit Types s : bspline F.

Lemma spline_cont_both s : wf s -> forall i d,
  0 < eps -> (d.+1 < bs_order s)%N -> (bs_order s <= i.+1)%N ->
  (i.+1 + bs_order s < size (bs_knots s))%N ->
  kn s i < kn s i.+1 -> kn s i.+1 < kn s i.+2 -> kn s i.+1 <= tmax s - eps ->
  [/\ exists2 v, evalD eps s (kn s i.+1) d = Ok v
        & forall r, v r = (spline_piece s r i)^`(d).[kn s i.+1]
    & forall x, kn s i <= x -> x < kn s i.+1 -> exists2 v, evalD eps s x d = Ok v
        & forall r, v r = (spline_piece s r i)^`(d).[x]].
Proof.
move=> wfs i d e0 dk ki iN h1 h2 far; split; first exact: spline_cont.
move=> x x1 x2; apply: (evalD_piece wfs) => //; apply: segment_inside => //; first by lia.
exact: le_trans (ltW x2) far.
Qed.

Lemma linear_precision s r (a b : F) : wf s -> 0 < eps -> 0 < last_len s ->
  (forall j, (j < bs_ncoef s)%N ->
     bs_coef s r j = a * greville (kn s) (bs_order s).-1 j + b) ->
  forall x, tmin s <= x -> x < tmax s + eps ->
  exists2 v, eval eps s x = Ok v & v r = a * x + b.
Proof.
move=> wfs e0 l0 Hc x x1 x2; have [i seg pos] := segment_positive wfs e0 l0 x1 x2.
have [ki iN] := segment_of_range wfs seg.
have [v hv Hv] := evalD_piece wfs 0 seg pos; exists v => //.
by rewrite Hv derivn0 (greville_piece wfs ki iN pos Hc) !hornerE.
Qed.

Lemma polynomial_reproduction s (p : {poly F}) : wf s -> 0 < eps -> 0 < last_len s ->
  (size p <= bs_order s)%N ->
  exists c : nat -> F, forall x d, tmin s <= x -> x < tmax s + eps ->
  exists2 v, evalD eps (with_coef s (fun _ j => c j)) x d = Ok v & forall r, v r = p^`(d).[x].
Proof.
move=> wfs e0 l0 sp; exists (repro_coef (kn s) (bs_order s).-1 p) => x d x1 x2.
set C : mat F := fun _ j => _.
have [i seg pos] := segment_positive wfs e0 l0 x1 x2.
have [ki iN] := segment_of_range wfs seg.
have wfC := wf_with_coef wfs C.
have [v hv Hv] := evalD_piece wfC (s := with_coef s C) d seg pos; exists v => // r.
by rewrite Hv (@repro_piece F (with_coef s C) wfC r i p ki iN pos sp).
Qed.
End More2.
