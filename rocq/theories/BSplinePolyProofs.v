(* Continuity across simple knots and polynomial reproduction. *)
From mathcomp Require Import all_ssreflect all_algebra.
From mathcomp.algebra_tactics Require Import ring.
From mathcomp.zify Require Import zify.
From Verif Require Import Prelude CoxDeBoor CoxDeBoorProofs BSplineModel BSplineSpec
  BSplineProofs BSplineEvalProofs BSplineAccessProofs BSplineCoefProofs BSplineInitProofs.
Set Implicit Arguments.
Unset Strict Implicit.
Unset Printing Implicit Defensive.
Import GRing.Theory Num.Theory Order.Theory.
Local Open Scope ring_scope.

(* A polynomial with infinitely many roots vanishes. *)
Lemma poly_all_roots (F : realFieldType) (p : {poly F}) : (forall y, p.[y] = 0) -> p = 0.
Proof.
move=> H; apply/eqP/negPn/negP => p0.
have := @max_poly_roots F p (mkseq (fun i => i%:R) (size p)) p0.
rewrite size_mkseq ltnn => h; suff: false by []; apply: h.
  by apply/allP => x _; rewrite rootE H.
by apply: mkseq_uniq => i j /eqP; rewrite eqr_nat => /eqP.
Qed.

Lemma coef_NX (F : realFieldType) j m : (((- 'X) ^+ j : {poly F}))`_m = (-1) ^+ j * (m == j)%:R.
Proof.
have -> : - 'X = (-1)%:P * 'X :> {poly F} by rewrite polyCN polyC1 mulN1r.
by rewrite exprMn -polyC_exp coefCM coefXn.
Qed.

Section Repro.
Variable F : realFieldType.
Variables (t : nat -> F) (N : nat).
Hypothesis t_mono : forall a b, (a <= b)%N -> (b < N)%N -> t a <= t b.

(* coefficient of y^m in prod_(r<n) (t_(j+r+1) - y), scaled: reproduces x^(n-m) *)
Definition psi n j : {poly F} := \prod_(r < n) ((t (j + r.+1)%N)%:P - 'X).

Lemma marsden_coef i n m : t i < t i.+1 -> (n <= i)%N -> (i + n < N)%N -> (m <= n)%N ->
  fsum n.+1 (fun c => (psi n (i - n + c))`_m *: basis_poly t i n (i - n + c))
  = ((-1) ^+ m * 'C(n, m)%:R) *: 'X^(n - m).
Proof.
move=> pos ni iN mn.
apply/eqP; rewrite -subr_eq0; apply/eqP/poly_all_roots => x.
pose q : {poly F} := fsum n.+1 (fun c => (basis_poly t i n (i - n + c)).[x] *: psi n (i - n + c))
   - (x%:P - 'X) ^+ n.
have q0 : q = 0.
  apply: poly_all_roots => y; rewrite /q hornerD hornerN; apply/eqP; rewrite subr_eq0; apply/eqP.
  have := marsden t_mono pos y ni iN; set S := fsum _ _ => eS0.
  have eS : S.[x] = (x - y) ^+ n by rewrite eS0 horner_exp hornerD hornerN hornerX hornerC.
  rewrite [in RHS]horner_exp [in RHS]hornerD [in RHS]hornerN [in RHS]hornerX [in RHS]hornerC -eS /S.
  rewrite !fsumE !horner_sum; apply: eq_bigr => c _.
  rewrite !hornerZ /psi horner_prod mulrC; congr (_ * _).
  by apply: eq_bigr => r _; rewrite !hornerE.
have h : q`_m = 0 by rewrite q0 coef0.
rewrite /q coefB in h.
rewrite hornerD hornerN; rewrite -[RHS]h; congr (_ - _).
  rewrite !fsumE horner_sum coef_sum; apply: eq_bigr => c _.
  by rewrite hornerZ coefZ mulrC.
rewrite hornerZ hornerXn exprDn coef_sum (bigD1 (Ordinal (mn : (m < n.+1)%N))) //= big1 ?addr0.
  by rewrite coefMn -polyC_exp coefCM coef_NX eqxx mulr1 -[in RHS]mulr_natr mulrC mulrA.
move=> j /eqP ne; rewrite coefMn -polyC_exp coefCM coef_NX.
have -> : (m == j) = false by apply/eqP => e; apply: ne; apply: val_inj.
by rewrite !mulr0 mul0rn.
Qed.

(* coefficients that reproduce the polynomial p of degree <= n *)
Definition repro_coef n (p : {poly F}) j : F :=
  \sum_(q < n.+1) p`_q * ((psi n j)`_(n - q) / ((-1) ^+ (n - q) * 'C(n, n - q)%:R)).

Lemma poly_repro i n (p : {poly F}) : t i < t i.+1 -> (n <= i)%N -> (i + n < N)%N ->
  (size p <= n.+1)%N ->
  fsum n.+1 (fun c => repro_coef n p (i - n + c) *: basis_poly t i n (i - n + c)) = p.
Proof.
move=> pos ni iN sp; rewrite fsumE /repro_coef.
under eq_bigr do rewrite scaler_suml.
rewrite exchange_big /= [RHS](_ : p = \sum_(q < n.+1) p`_q *: 'X^q); last first.
  apply/polyP => m; rewrite coef_sum.
  have [mn|mn] := ltnP m n.+1; last first.
    rewrite nth_default ?big1 ?(leq_trans sp) // => q _; rewrite coefZ coefXn.
    by have -> : (m == q) = false; [apply/eqP; have := ltn_ord q; lia|rewrite mulr0].
  rewrite (bigD1 (Ordinal mn)) //= coefZ coefXn eqxx mulr1 big1 ?addr0 // => q ne.
  rewrite coefZ coefXn; have -> : (m == q) = false; last by rewrite mulr0.
  by apply/eqP => e; move/eqP: ne; apply; apply: val_inj.
apply: eq_bigr => q _; have qn : (q <= n)%N by rewrite -ltnS.
have := marsden_coef pos ni iN (leq_subr q n); rewrite subKn // fsumE => M.
set w : F := (-1) ^+ (n - q) * 'C(n, n - q)%:R.
have w0 : w != 0.
  by rewrite mulf_neq0 ?expf_neq0 ?oppr_eq0 ?oner_neq0 // pnatr_eq0 -lt0n bin_gt0 leq_subr.
rewrite (eq_bigr (fun c : 'I_n.+1 => (p`_q / w) *: ((psi n (i - n + c))`_(n - q) *:
   basis_poly t i n (i - n + c)))); last first.
  by move=> c _; rewrite scalerA; congr (_ *: _); rewrite mulrA mulrAC.
by rewrite -scaler_sumr M -/w scalerA mulfVK.
Qed.
End Repro.

Section Cont.
Variable F : realFieldType.
Variable eps : F.
Variable s : bspline F.
Hypothesis wfs : wf s.
Local Notation k := (bs_order s).
Local Notation n := (size (bs_knots s)).

Lemma piece_cont r i d : (d.+1 < k)%N -> (i.+1 + k < n)%N ->
  kn s i < kn s i.+1 -> kn s i.+1 < kn s i.+2 ->
  (spline_piece s r i)^`(d).[kn s i.+1] = (spline_piece s r i.+1)^`(d).[kn s i.+1].
Proof.
move=> dk iN h1 h2; rewrite /spline_piece /curve_piece !raddf_sum !horner_sum.
apply: eq_bigr => j _ /=; rewrite !derivnZ !hornerZ; congr (_ * _).
apply: (basis_poly_cont (kn_mono wfs)) => //; have := wf_order wfs; lia.
Qed.

Lemma segment_inside i x : 0 < eps -> (k <= i.+1)%N -> (i + k < n)%N ->
  kn s i <= x -> x < kn s i.+1 -> x <= tmax s - eps -> segment_of eps s x i.
Proof.
move=> e0 ki iN x1 x2 far; rewrite /segment_of ifN; first by split=> //; rewrite x1 x2.
rewrite -leNgt; apply: (le_trans _ (ler_norm _)).
by rewrite ler_subr_addr addrC -ler_subr_addr.
Qed.

Lemma spline_cont i d : 0 < eps -> (d.+1 < k)%N -> (k <= i.+1)%N -> (i.+1 + k < n)%N ->
  kn s i < kn s i.+1 -> kn s i.+1 < kn s i.+2 -> kn s i.+1 <= tmax s - eps ->
  exists2 v, evalD eps s (kn s i.+1) d = Ok v
    & forall r, v r = (spline_piece s r i)^`(d).[kn s i.+1].
Proof.
move=> e0 dk ki iN h1 h2 far.
have seg : segment_of eps s (kn s i.+1) i.+1 by apply: segment_inside => //; lia.
have [v -> Hv] := evalD_piece wfs d seg h2; exists v => // r.
by rewrite Hv piece_cont.
Qed.

Lemma greville_piece r i (a b : F) : (k <= i.+1)%N -> (i + k < n)%N -> kn s i < kn s i.+1 ->
  (forall j, (j < bs_ncoef s)%N -> bs_coef s r j = a * greville (kn s) k.-1 j + b) ->
  spline_piece s r i = a *: 'X + b%:P.
Proof.
move=> ki iN pos Hc; have := wf_cols wfs; have hk := wf_order wfs => hcol.
rewrite /spline_piece curve_piece_local; [|lia..].
have G := @greville_sum _ (kn s) n (kn_mono wfs) i pos k.-1 ltac:(lia) ltac:(lia).
have P := @basis_poly_partition _ (kn s) n (kn_mono wfs) i pos k.-1 ltac:(lia) ltac:(lia).
have k0 : (k.-1)%:R != 0 :> F by rewrite pnatr_eq0; lia.
rewrite (eq_fsum (g := fun c => (a / (k.-1)%:R) *: ((\sum_(r0 < k.-1) kn s (i - k.-1 + c + r0.+1)%N)%:P *
    basis_poly (kn s) i k.-1 (i - k.-1 + c)) + b *: basis_poly (kn s) i k.-1 (i - k.-1 + c))).
  by rewrite fsumD -!fsum_scale G P scalerA mulfVK // alg_polyC.
move=> c ck; rewrite Hc; last by lia.
rewrite scalerDl /greville mul_polyC scalerA; congr (_ *: _ + _); ring.
Qed.

Lemma repro_piece r i (p : {poly F}) : (k <= i.+1)%N -> (i + k < n)%N -> kn s i < kn s i.+1 ->
  (size p <= k)%N ->
  (forall j, (j < bs_ncoef s)%N -> bs_coef s r j = repro_coef (kn s) k.-1 p j) ->
  spline_piece s r i = p.
Proof.
move=> ki iN pos sp Hc; have := wf_cols wfs; have hk := wf_order wfs => hcol.
rewrite /spline_piece curve_piece_local; [|lia..].
rewrite -[RHS](@poly_repro _ (kn s) n (kn_mono wfs) i k.-1 p pos); [|lia..].
by apply: eq_fsum => c ck; rewrite Hc //; lia.
Qed.
End Cont.
