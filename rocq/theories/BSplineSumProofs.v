(* Lemmas behind PropsBSplineB in the form in which they are stated. *)
From mathcomp Require Import all_ssreflect all_algebra.
From mathcomp.algebra_tactics Require Import ring.
From mathcomp.zify Require Import zify.
From Verif Require Import Prelude CoxDeBoor CoxDeBoorProofs BSplineModel BSplineSpec
  BSplineProofs BSplineEvalProofs BSplineAccessProofs BSplineCoefProofs BSplineInitProofs
  BSplineJacobianProofs BSplinePolyProofs BSplineMoreProofs BSplineIntegralProofs
  BSplineQuadProofs BSplineCumProofs Examples.
Set Implicit Arguments.
Unset Strict Implicit.
Unset Printing Implicit Defensive.
Import GRing.Theory Num.Theory Order.Theory.
Local Open Scope ring_scope.

Section Gen.
Variable F : realFieldType.

Lemma lookup_refuted (eps : F) : 0 < eps ->
  exists (s : bspline F) x u i, [/\ wf s, tmin s <= x, x <= tmax s, 0 < last_len s
    & [/\ computeUAndTIndex eps s x = Ok (u, i), x < kn s i & u < 0]].
Proof.
move=> e0; have [h1 h2 h3 [h4 h5]] := short_lookup e0.
exists (short eps), (eps * (3%:R / 4%:R)), (- 2%:R^-1), 2%N; split=> //; first exact: short_wf.
by split=> //; rewrite oppr_lt0 invr_gt0 ltr0n.
Qed.

Lemma partition_refuted (eps : F) : 0 < eps ->
  exists (s : bspline F) x l c, [/\ wf s, tmin s <= x, x <= tmax s, 0 < last_len s
    & [/\ getLocalBiVector eps s x = Ok l, (c < bs_order s)%N & l c < 0]].
Proof.
move=> e0; have [h1 h2 h3 _] := short_lookup e0; have [l hl l1] := short_negative e0.
exists (short eps), (eps * (3%:R / 4%:R)), l, 1%N; split=> //; first exact: short_wf.
by split=> //; rewrite l1 oppr_lt0 invr_gt0 ltr0n.
Qed.

Lemma integral_exact (eps thr : F) (s : bspline F) t1 t2 :
  wf s -> 0 < eps -> eps <= last_len s -> 0 <= thr ->
  tmin s <= t1 <= tmax s -> tmin s <= t2 <= tmax s ->
  above_threshold thr s t1 -> above_threshold thr s t2 ->
  exists2 v, evalIntegral eps thr s t1 t2 = Ok v &
    forall r G, curve_antiderivative s r G -> v r = G t2 - G t1.
Proof. by move=> *; apply: evalIntegralE. Qed.

Lemma integral_antiderivative (s : bspline F) r : wf s -> exists G, curve_antiderivative s r G.
Proof. move=> wfs; exists (acc s (spline_piece s r)); exact: antiderivative_exists. Qed.

Lemma integral_laws (eps thr : F) (s : bspline F) t1 t2 t3 :
  wf s -> 0 < eps -> eps <= last_len s -> 0 <= thr ->
  tmin s <= t1 <= tmax s -> tmin s <= t2 <= tmax s -> tmin s <= t3 <= tmax s ->
  above_threshold thr s t1 -> above_threshold thr s t2 -> above_threshold thr s t3 ->
  exists v12 v21 v23 v13, [/\ evalIntegral eps thr s t1 t2 = Ok v12,
    evalIntegral eps thr s t2 t1 = Ok v21, evalIntegral eps thr s t2 t3 = Ok v23,
    evalIntegral eps thr s t1 t3 = Ok v13
    & forall r, v21 r = - v12 r /\ v12 r + v23 r = v13 r].
Proof.
move=> wfs e0 el th h1 h2 h3 a1 a2 a3.
have [v12 e12 H12] := evalIntegralE wfs e0 el th h1 h2 a1 a2.
have [v21 e21 H21] := evalIntegralE wfs e0 el th h2 h1 a2 a1.
have [v23 e23 H23] := evalIntegralE wfs e0 el th h2 h3 a2 a3.
have [v13 e13 H13] := evalIntegralE wfs e0 el th h1 h3 a1 a3.
exists v12, v21, v23, v13; split=> // r.
have [G HG] := integral_antiderivative r wfs.
rewrite (H12 r G HG) (H21 r G HG) (H23 r G HG) (H13 r G HG); split; ring.
Qed.

Lemma quad_integral (wtol : F) (s : bspline F) (W : dmat F) d :
  wf s -> dm_rows W = bs_dim s -> dm_cols W = bs_dim s ->
  (forall r c, (r < bs_dim s)%N -> (c < bs_dim s)%N -> `|W r c - W c r| <= wtol) ->
  exists2 Qm, curveQuadraticIntegral wtol s W d = Ok Qm &
  let N := (bs_ncoef s * bs_dim s)%N in
  forall c e s1 s2 G, setCoefficientVector s (DVec (bs_dim s * bs_ncoef s) c) = Ok s1 ->
    setCoefficientVector s (DVec (bs_dim s * bs_ncoef s) e) = Ok s2 ->
    antiderivative_of s (fun i => fsum (bs_dim s) (fun r => fsum (bs_dim s) (fun q => W r q *:
      ((spline_piece s1 r i)^`(d) * (spline_piece s2 q i)^`(d))))) G ->
    bil N N c Qm e = G (tmax s) - G (tmin s).
Proof.
move=> wfs h1 h2 h3; have [Qm hQ [H _ _]] := curveQuad_all wfs d h1 h2 h3.
by exists Qm.
Qed.

Lemma quad_symmetric_psd (wtol : F) (s : bspline F) (W : dmat F) d : 0 <= wtol ->
  wf s -> dm_rows W = bs_dim s -> dm_cols W = bs_dim s ->
  (forall r c, (r < bs_dim s)%N -> (c < bs_dim s)%N -> W r c = W c r) ->
  exists2 Qm, curveQuadraticIntegral wtol s W d = Ok Qm &
  let N := (bs_ncoef s * bs_dim s)%N in
  (forall x y, (x < N)%N -> (y < N)%N -> Qm x y = Qm y x) /\
  ((forall v : nat -> F, 0 <= bil (bs_dim s) (bs_dim s) v W v) ->
    forall c, 0 <= bil N N c Qm c).
Proof.
move=> t0 wfs h1 h2 sW.
have [|Qm hQ [_ H1 H2]] := @curveQuad_all _ wtol s wfs W d h1 h2.
  by move=> r c rD cD; rewrite sW // subrr normr0.
by exists Qm => //; split; [exact: H1|].
Qed.

Lemma quad_diag (wtol : F) (s : bspline F) (w : nat -> F) d :
  wf s -> 0 <= wtol ->
  exists Q1 Q2, [/\ curveQuadraticIntegralDiag s (DVec (bs_dim s) w) d = Ok Q1,
    curveQuadraticIntegral wtol s
      (DMat (bs_dim s) (bs_dim s) (fun r c => (r == c)%:R * w r)) d = Ok Q2
    & forall x y, (x < bs_ncoef s * bs_dim s)%N -> (y < bs_ncoef s * bs_dim s)%N ->
        Q1 x y = Q2 x y].
Proof. by move=> wfs; exact: curveQuadDiag_full. Qed.

Lemma quad_sparse (wtol : F) (s : bspline F) (W : dmat F) d :
  dm_rows W = bs_dim s -> dm_cols W = bs_dim s ->
  orel (fun Q1 Q2 : mat F => forall x y, Q1 x y = Q2 x y)
    (curveQuadraticIntegral wtol s W d) (curveQuadraticIntegralSparse wtol s W d).
Proof.
move=> h1 h2; rewrite /curveQuadraticIntegral /curveQuadraticIntegralSparse h1 h2 !eqxx.
exact: sparse_dense.
Qed.

Lemma quad_diag_sparse (s : bspline F) (w : dvec F) d :
  dv_size w = bs_dim s ->
  orel (fun Q1 Q2 : mat F => forall x y, Q1 x y = Q2 x y)
    (curveQuadraticIntegralDiag s w d) (curveQuadraticIntegralDiagSparse s w d).
Proof.
move=> h1; rewrite /curveQuadraticIntegralDiag /curveQuadraticIntegralDiagSparse h1 !eqxx.
exact: sparse_dense.
Qed.
End Gen.

Definition eps1 : Q := (20%:R)^-1.
Lemma eps1_pos : 0 < eps1. Proof. by vm_compute. Qed.

Lemma decreasing_accepted : exists (s0 : bspline Q) ks c, [/\ bs_new Q 2 = Ok s0,
  ~~ sorted <=%R ks & is_ok (setKnotsAndCoefficients s0 ks c)].
Proof.
exists (BSpline 2 [::] (DMat 0 0 zerom) [::]), [:: 3%:R; 2%:R; 1; 0], (DMat 1 2 zerom); split=> //.
Qed.

Lemma ex3_range i : (bs_order ex3 <= i.+1)%N -> (i + bs_order ex3 < size (bs_knots ex3))%N ->
  i = 2%N \/ i = 3%N.
Proof.
by case: i => [|[|[|[|i]]]] //; [left|right|move=> _ /=; rewrite addn3].
Qed.
Lemma ex3_above1 : above_threshold eps1 ex3 1.
Proof.
have h2 : (kn ex3 2 < 1) ==> (eps1 < 1 - kn ex3 2) by vm_compute.
have h3 : (kn ex3 3 < 1) ==> (eps1 < 1 - kn ex3 3) by vm_compute.
move=> i ki iN; case: (ex3_range ki iN) => ->; [exact: (implyP h2)|exact: (implyP h3)].
Qed.
Lemma ex3_above3 : above_threshold eps1 ex3 3%:R.
Proof.
have h2 : (kn ex3 2 < 3%:R) ==> (eps1 < 3%:R - kn ex3 2) by vm_compute.
have h3 : (kn ex3 3 < 3%:R) ==> (eps1 < 3%:R - kn ex3 3) by vm_compute.
move=> i ki iN; case: (ex3_range ki iN) => ->; [exact: (implyP h2)|exact: (implyP h3)].
Qed.

Definition exW : dmat Q := DMat 2 2 (fun r c => if r == c then 2%:R else 1).
Lemma exW_sym r c : (r < bs_dim ex3)%N -> (c < bs_dim ex3)%N -> exW r c = exW c r.
Proof. by move=> _ _; rewrite /exW /= eq_sym. Qed.

Definition exC (q : Q) : mat Q := fun _ j => if j == 2%N then q else 0.
Lemma BiVector_refuted : exists (s : bspline Q) x j (C1 C2 : mat Q) b v1 v2,
  [/\ wf s, tmin s <= x <= tmax s, getBiVector eps0 s x = Ok b, (dv_size b <= j < bs_ncoef s)%N
    & [/\ forall r i, i != j -> C1 r i = C2 r i, eval eps0 (with_coef s C1) x = Ok v1,
      eval eps0 (with_coef s C2) x = Ok v2 & v1 0%N != v2 0%N]].
Proof.
have x1 : tmin ex3 <= 3%:R by vm_compute.
have x2 : 3%:R <= tmax ex3 by vm_compute.
have [w [b hb [sz _ _ HC]]] := BiVector_weight ex3_wf eps0_pos ex3_last x1 x2.
have [v1 h1 _] := HC (exC 0); have [v2 h2 _] := HC (exC 1).
exists ex3, 3%:R, 2%N, (exC 0), (exC 1), b, v1, v2; split; [exact: ex3_wf|by rewrite x1 x2|exact: hb|by rewrite sz|].
have e1 : ok_at (evalD eps0 (with_coef ex3 (exC 0)) 3%:R 0) 0 0 by vm_compute.
have e2 : ~~ ok_at (evalD eps0 (with_coef ex3 (exC 1)) 3%:R 0) 0 0 by vm_compute.
split; [by move=> r i /negbTE h; rewrite /exC h|exact: h1|exact: h2|].
move: h1 h2 e1 e2; rewrite /eval => -> -> /=; rewrite /ok_at => /eqP -> h.
by rewrite eq_sym.
Qed.
