(* initSpline: two-point Hermite conditions determine the straight segment. *)
From mathcomp Require Import all_ssreflect all_algebra.
From mathcomp.algebra_tactics Require Import ring.
From mathcomp.zify Require Import zify.
From Verif Require Import Prelude CoxDeBoor CoxDeBoorProofs BSplineModel BSplineSpec
  BSplineProofs BSplineEvalProofs BSplineAccessProofs BSplineCoefProofs BSplineInitProofs
  BSplinePolyProofs BSplineJacobianProofs BSplineMoreProofs BSplineIntegralProofs
  BSplineQuadProofs LinSolve BSplineFitProofs.
Set Implicit Arguments.
Unset Strict Implicit.
Unset Printing Implicit Defensive.
Import GRing.Theory Num.Theory Order.Theory.
Local Open Scope ring_scope.

Section Hermite.
Variable F : realFieldType.

Lemma poly_taylor (p : {poly F}) a m : (size p <= m)%N ->
  p = \sum_(i < m) (p^`N(i).[a])%:P * ('X - a%:P) ^+ i.
Proof.
move=> sp; have e : a%:P + ('X - a%:P) = 'X by rewrite addrC subrK.
rewrite -[LHS]comp_polyXr /comp_poly -[X in _.[X]]e (@nderiv_taylor_wide _ m).
- by apply: eq_bigr => i _; rewrite nderivn_map horner_map.
- exact: mulrC.
by rewrite size_map_polyC.
Qed.

Lemma deriv_dvd (p : {poly F}) a m : (forall d, (d < m)%N -> p^`(d).[a] = 0) ->
  ('X - a%:P) ^+ m %| p.
Proof.
move=> H; rewrite [p](poly_taylor a (leqnn _)); apply: (big_ind (fun q => ('X - a%:P) ^+ m %| q)) => [|x y|i _].
- exact: dvdp0.
- exact: dvdp_add.
have [im|mi] := ltnP i m; last by apply: dvdp_mull; apply: dvdp_exp2l.
have := H i im; rewrite nderivn_def hornerMn => /eqP.
by rewrite -mulr_natr mulf_eq0 pnatr_eq0 gtn_eqF ?fact_gt0 // orbF => /eqP ->; rewrite mul0r dvdp0.
Qed.

Lemma hermite_zero (p : {poly F}) a b m : a != b -> (size p <= 2 * m)%N ->
  (forall d, (d < m)%N -> p^`(d).[a] = 0 /\ p^`(d).[b] = 0) -> p = 0.
Proof.
move=> ab sp H; apply/eqP/negPn/negP => p0.
have cop : coprimep (('X - a%:P) ^+ m) (('X - b%:P) ^+ m).
  by apply: coprimep_expl; apply: coprimep_expr; rewrite coprimep_XsubC root_XsubC eq_sym.
have : ('X - a%:P) ^+ m * ('X - b%:P) ^+ m %| p.
  by rewrite Gauss_dvdp // !deriv_dvd // => d /H[].
move/(dvdp_leq p0); rewrite size_Mmonic ?expf_neq0 ?polyXsubC_eq0 //; last first.
  by apply: monic_exp; exact: monicXsubC.
by rewrite !size_exp_XsubC => h; move: (leq_trans h sp); clear; lia.
Qed.
End Hermite.

Section Indep.
Variables (F : realFieldType) (t : nat -> F) (N : nat).
Hypothesis t_mono : forall a b, (a <= b)%N -> (b < N)%N -> t a <= t b.

(* the k basis polynomials of an interval are linearly independent *)
Lemma basis_independent i n (u : nat -> F) : t i < t i.+1 -> (n <= i)%N -> (i + n < N)%N ->
  fsum n.+1 (fun c => u c *: basis_poly t i n (i - n + c)) = 0 ->
  forall c, (c < n.+1)%N -> u c = 0.
Proof.
move=> pos ni iN H c cn.
pose B := \matrix_(x < n.+1, q < n.+1) (basis_poly t i n (i - n + x))`_q.
pose R := \matrix_(q < n.+1, x < n.+1) repro_coef t n 'X^q (i - n + x).
have RB : R *m B = 1%:M.
  apply/matrixP => q q'; rewrite !mxE.
  have := @poly_repro F t N t_mono i n 'X^q pos ni iN _.
  rewrite size_polyXn => /(_ (ltn_ord q)) /(congr1 (fun p : {poly F} => p`_q')).
  rewrite fsumE coef_sum coefXn eq_sym => <-.
  by apply: eq_bigr => x _; rewrite !mxE coefZ.
have BR := mulmx1C RB.
pose v : 'rV[F]_n.+1 := \row_x u x.
have vB : v *m B = 0.
  apply/rowP => q; rewrite !mxE -[RHS](coef0 _ q) -H fsumE coef_sum.
  by apply: eq_bigr => x _; rewrite !mxE coefZ.
have : v = 0 by rewrite -[v]mulmx1 -BR mulmxA vB mul0mx.
by move/rowP/(_ (Ordinal cn)); rewrite !mxE.
Qed.
End Indep.

Section InitSpline.
Variable F : realFieldType.
Variable eps : F.
Hypothesis e0 : 0 < eps.
Variable solve : nat -> mat F -> vec F -> vec F.
Hypothesis exact : exact_solver solve.

(* one row block over all coefficients of a spline with a single valid segment *)
Section OneSegment.
Variable s : bspline F.
Hypothesis wfs : wf s.
Hypothesis D0 : (0 < bs_dim s)%N.
Hypothesis one : size (bs_knots s) = (2 * bs_order s)%N.
Hypothesis pos : tmin s < tmax s.
Local Notation k := (bs_order s).
Local Notation D := (bs_dim s).

Lemma one_ncoef : bs_ncoef s = k.
Proof. by have := wf_cols wfs; rewrite one; clear; lia. Qed.

Lemma one_segment x i : segment_of eps s x i -> i = k.-1.
Proof.
by move=> seg; have [] := segment_of_range wfs seg; rewrite one; have := wf_order wfs; clear; lia.
Qed.

Lemma one_tmax : tmax s = kn s k.-1.+1.
Proof. by rewrite /tmax one; congr (kn s _); have := wf_order wfs; clear; lia. Qed.

Lemma one_pos : kn s k.-1 < kn s k.-1.+1.
Proof. by rewrite -one_tmax. Qed.

Lemma init_row_step T w m st x d csize :
  blocks s T w m st -> (m.+1 * D <= csize)%N ->
  tmin s <= x -> x <= tmax s ->
  (forall c r, (r < D)%N -> T m c r = valat eps s x d c r) ->
  exists2 st', init_row D csize (k * D) (Phi eps s x d) (w m) st = Ok st'
    & blocks s T w m.+1 st'.
Proof.
case: st => [[A b] brow] [-> HT Hw Hz] fits x1 x2 HP.
have [|i seg] := segment_exists wfs e0 x1 (x := x).
  by apply: le_lt_trans x2 _; rewrite ltr_addl.
have ei := one_segment seg.
have [u [P [hP _ _ _ _]]] := Phi_entries wfs d seg.
rewrite /init_row hP /= -mulSnr fits /=; eexists; first by reflexivity.
have lo j r : (j < m)%N -> (r < D)%N -> (m * D <= j * D + r)%N = false.
  move=> jm rD; apply/negbTE; rewrite -ltnNge; apply: (@leq_trans (j.+1 * D)%N).
    by rewrite mulSnr ltn_add2l.
  by rewrite leq_mul2r jm orbT.
split=> //.
- move=> j r c; rewrite ltnS leq_eqVlt => /orP[/eqP ->|jm] rD; last first.
    rewrite -HT //; apply: eq_mulv => // y _; by rewrite /set_block lo.
  have [v hv Hv] := row_value wfs D0 seg hP (canon_flat (s := s) c).
  rewrite HP // /valat hv Hv // one_ncoef; apply: eq_fsum => q qD.
  rewrite /set_block leq_addr ltn_add2l rD add0n qD /= addKn subn0.
  by rewrite ei prednK ?subnn ?mul0n // (leq_trans _ (wf_order wfs)).
- move=> j r; rewrite ltnS leq_eqVlt => /orP[/eqP ->|jm] rD; last first.
    by rewrite /set_segment lo //= Hw.
  by rewrite /set_segment leq_addr ltn_add2l rD /= addKn.
move=> x' y; rewrite mulSnr => h; rewrite /set_block [(x' < _)%N]ltnNge h /= andbF Hz //.
exact: leq_trans (leq_addr _ _) h.
Qed.

(* valat is the derivative of the only polynomial piece *)
Lemma valat_piece x d c r : tmin s <= x -> x <= tmax s -> (r < D)%N ->
  valat eps s x d c r = (spline_piece (with_coef s (canon s c)) r k.-1)^`(d).[x].
Proof.
move=> x1 x2 rD; have [|i seg] := segment_exists wfs e0 x1 (x := x).
  by apply: le_lt_trans x2 _; rewrite ltr_addl.
have wfX := wf_with_coef wfs (canon s c).
have ei := one_segment seg; rewrite ei in seg.
have [v hv Hv] := evalD_piece wfX (s := with_coef s (canon s c)) d seg one_pos.
by rewrite /valat hv Hv.
Qed.

Lemma hermite_injective mm (c : vec F) : (k <= 2 * mm)%N ->
  (forall d r, (d < mm)%N -> (r < D)%N ->
     valat eps s (tmin s) d c r = 0 /\ valat eps s (tmax s) d c r = 0) ->
  forall i, (i < k * D)%N -> c i = 0.
Proof.
move=> km H i iN; have le := ltW pos; have hk := wf_order wfs.
have rD : (i %% D < D)%N by rewrite ltn_mod.
have jk : (i %/ D < k)%N by rewrite ltn_divLR.
set p := spline_piece (with_coef s (canon s c)) (i %% D)%N k.-1.
have sp : (size p <= 2 * mm)%N.
  apply: leq_trans km; rewrite /p /spline_piece /curve_piece.
  apply: (leq_trans (size_sum _ _ _)); apply/bigmax_leqP => j _.
  apply: (leq_trans (size_scale_leq _ _)).
  by have := size_basis_poly (kn s) k.-1 k.-1 j; rewrite prednK //; apply: leq_trans hk.
have p0 : p = 0.
  apply: (@hermite_zero _ p (tmin s) (tmax s) mm _ sp); first by rewrite lt_eqF.
  by move=> d dm; have [] := H d _ dm rD; rewrite !valat_piece ?lexx.
have cp := curve_piece_local (kn s) (canon s c (i %% D)%N) (n := k.-1) (m := bs_ncoef s) (i := k.-1).
rewrite one_ncoef in cp; have kk : (k.-1 < k)%N by move: hk; clear; lia.
move: p0; rewrite /p /spline_piece [bs_ncoef _]one_ncoef cp // => p0.
have := @basis_independent _ (kn s) (size (bs_knots s)) (kn_mono wfs) k.-1 k.-1
  (fun x => canon s c (i %% D)%N x) one_pos (leqnn _) _.
rewrite one => h; rewrite (divn_eq i D) -[LHS]/(canon s c (i %% D)%N (i %/ D)%N); apply: h.
- by move: hk; clear; lia.
- by rewrite -[RHS]p0; apply: eq_fsum => x _; rewrite subnn add0n.
by move: jk hk; clear; lia.
Qed.

(* the straight line satisfies the conditions *)
Lemma line_values (a b : nat -> F) x d c r : tmin s <= x -> x <= tmax s -> (r < D)%N ->
  (forall j r, (j < k)%N -> (r < D)%N -> c (j * D + r)%N = a r * greville (kn s) k.-1 j + b r) ->
  valat eps s x d c r = (a r *: 'X + (b r)%:P)^`(d).[x].
Proof.
move=> x1 x2 rD Hc; rewrite valat_piece //; congr (_^`(d).[x]).
have hk := wf_order wfs.
apply: (greville_piece (wf_with_coef wfs (canon s c))) => /=; rewrite ?one.
- by move: hk; clear; lia.
- by move: hk; clear; lia.
- exact: one_pos.
by move=> j jk; apply: Hc => //; rewrite -one_ncoef; exact: jk.
Qed.
End OneSegment.

Lemma initSpline_line (s : bspline F) t0 t1 (p0 p1 : dvec F) :
  (2 <= bs_order s)%N -> (size (bs_knots s) <= 2 * bs_order s)%N ->
  (1 <= dv_size p0)%N -> dv_size p0 = dv_size p1 -> t0 < t1 ->
  exists2 s', initSpline eps solve s t0 t1 p0 p1 = Ok s' &
  [/\ wf s', bs_order s' = bs_order s /\ bs_dim s' = dv_size p0,
      tmin s' = t0 /\ tmax s' = t1,
      numValidTimeSegments (bs_order s') (size (bs_knots s')) = 1%N
    & forall x d, t0 <= x -> x <= t1 -> exists2 v, evalD eps s' x d = Ok v &
        forall r, (r < dv_size p0)%N ->
          v r = (((p1 r - p0 r) / (t1 - t0)) *: ('X - t0%:P) + (p0 r)%:P)^`(d).[x]].
Proof.
move=> k2 old D0 eqD lt; rewrite /initSpline eqD eqxx lt /= -eqD.
set dt := t1 - t0; have dt0 : 0 < dt by rewrite subr_gt0.
set k := bs_order s in k2 old *; set D := dv_size p0 in D0 eqD *.
set ks := uniform_knots _ _ _ _; set cz := DMat _ _ _.
have nE : numKnotsRequired k 1 = (2 * k)%N.
  by rewrite /numKnotsRequired /numCoefficientsRequired; move: k2; clear; lia.
have so : sorted <=%R ks by apply: uniform_sorted; apply: ltW.
have sz : size ks = (2 * k)%N by rewrite size_mkseq.
have cE : (dm_cols cz + k = size ks)%N.
  by rewrite sz /cz /= /numCoefficientsRequired; move: k2; clear; lia.
have h1 := setKnots_succeeds k2 so (eq_leq (esym sz)) cE (leq_trans old (eq_leq (esym sz))).
rewrite h1 /=; set s1 := BSpline _ _ _ _ in h1 *.
have wf1 : wf s1 := setKnots_wf k2 so h1.
have one : size (bs_knots s1) = (2 * bs_order s1)%N by [].
have m1 : tmin s1 = t0.
  rewrite /tmin /kn /s1 /= uniform_knotsE; last by rewrite nE; move: k2; clear; lia.
  have -> : (k.-1)%:R = k%:R - 1 :> F by rewrite -subn1 natrB //; move: k2; clear; lia.
  by rewrite subrr mul0r addr0.
have m2 : tmax s1 = t1.
  rewrite /tmax /kn /s1 /= sz uniform_knotsE; last by rewrite nE; move: k2; clear; lia.
  have -> : (2 * k - k = k)%N by move: k2; clear; lia.
  by rewrite /dt; ring.
have pos1 : tmin s1 < tmax s1 by rewrite m1 m2.
have nc := one_ncoef wf1 one.
rewrite (t_minE wf1) (t_maxE wf1) /=.
have CE : numCoefficientsRequired k 1 = k.
  by rewrite /numCoefficientsRequired; move: k2; clear; lia.
rewrite !CE -/k; set R := (k + odd k)%N; set mm := R./2.
have Rmm : R = (2 * mm)%N.
  by rewrite mul2n -[LHS]odd_double_half /R oddD oddb addbb.
pose T j c := valat eps s1 (if odd j then tmax s1 else tmin s1) j./2 c.
pose v : vec F := fun r => (p1 r - p0 r) / dt.
pose w j : vec F := match j with 0 => p0 : vec F | 1 => p1 : vec F | 2 | 3 => v | _ => zerov end.
have step m st : blocks s1 T w m st -> (m < R)%N ->
  exists2 st', init_row D (R * D) (k * D) (Phi eps s1 (if odd m then tmax s1 else tmin s1) m./2)
     (w m) st = Ok st' & blocks s1 T w m.+1 st'.
  move=> Hst mR; apply: (init_row_step wf1 D0 one Hst) => //.
  - by rewrite leq_mul2r mR orbT.
  - by case: ifP => _ //; apply: ltW.
  by case: ifP => _ //; apply: ltW.
have H0 : blocks s1 T w 0 (zerom, zerov, 0%N) by split.
have R2 : (2 <= R)%N by apply: leq_trans k2 _; exact: leq_addr.
have [st1 /= -> H1] := step 0%N _ H0 (ltnW R2).
have [st2 /= -> H2] := step 1%N _ H1 R2; rewrite /=.
have [st3 -> H3] : exists2 st, (if (2 < k)%N then
      do st <- init_row D (R * D) (k * D) (Phi eps s1 (tmin s1) 1) v st2 ;
      do st' <- init_row D (R * D) (k * D) (Phi eps s1 (tmax s1) 1) v st ;
      if (4 < k)%N then
        oloop 2 mm (fun d st =>
          do st <- init_row D (R * D) (k * D) (Phi eps s1 (tmin s1) d) zerov st ;
          init_row D (R * D) (k * D) (Phi eps s1 (tmax s1) d) zerov st) st'
      else Ok st'
    else Ok st2) = Ok st & blocks s1 T w R st.
  case: ltnP => k3; last first.
    have e : R = 2%N by rewrite /R (_ : k = 2%N) //; move: k3 k2; clear; lia.
    by exists st2; rewrite ?e.
  have R4 : (4 <= R)%N by rewrite /R; move: k3; case: (k) => [|[|[|[|k']]]] // _; rewrite -!addSnnS; exact: leq_addr.
  have [st3 /= -> H3] := step 2%N _ H2 (ltnW R4).
  have [st4 /= -> H4] := step 3%N _ H3 R4; rewrite /=.
  case: ltnP => k5; last first.
    have e : R = 4%N by rewrite /R; move: k3 k5; case: (k) => [|[|[|[|[|k']]]]].
    by exists st4; rewrite ?e.
  have mm2 : (2 <= mm)%N by move: R4; rewrite Rmm; clear; lia.
  have RB st : blocks s1 T w (2 * mm)%N st -> blocks s1 T w R st by rewrite Rmm.
  set body := (fun d : nat => _).
  suff [st hst Hst] : exists2 st, oloop 2 mm body st4 = Ok st & blocks s1 T w (2 * mm)%N st.
    by exists st => //; apply: RB.
  apply: (@oloop_ind _ 2 mm body st4 (fun d st => blocks s1 T w (2 * d)%N st)) => //.
  rewrite {}/body.
  move=> d st /andP[d2 dm] Hst.
  have wz j : (4 <= j)%N -> w j = zerov by case: j => [|[|[|[|j]]]].
  have o1 : odd (2 * d) = false by rewrite oddM.
  have o2 : odd (2 * d).+1 = true by rewrite /= oddM.
  have u1 : (2 * d)./2 = d by rewrite mul2n doubleK.
  have u2 : (2 * d).+1./2 = d by rewrite mul2n /= uphalf_double.
  have b1 : (2 * d < R)%N by rewrite Rmm; move: dm; clear; lia.
  have b2 : ((2 * d).+1 < R)%N by rewrite Rmm; move: dm; clear; lia.
  have [st5] := step _ _ Hst b1; rewrite o1 u1 wz; last by move: d2; clear; lia.
  move=> -> H5; have [st6] := step _ _ H5 b2; rewrite o2 u2 wz; last by move: d2; clear; lia.
  move=> h6 H6; exists st6; first by exact: h6.
  by rewrite (_ : 2 * d.+1 = (2 * d).+2)%N //; clear; lia.
case: st3 H3 => [[A b] br] [_ HA Hb _] /=.
rewrite -/D; set c0 := (if _ then _ else _).
pose g : vec F := fun i => v (i %% D)%N * greville (kn s1) k.-1 (i %/ D)%N
  + (p0 (i %% D)%N - v (i %% D)%N * t0).
have gE j r : (r < D)%N -> g (j * D + r)%N = v r * greville (kn s1) k.-1 j + (p0 r - v r * t0).
  by move=> rD; rewrite /g modnMDl modn_small // divnMDl // divn_small // addn0.
have vdt r : v r * dt = p1 r - p0 r by rewrite /v divfK // gt_eqF.
have NE : (bs_ncoef s1 * bs_dim s1 = k * D)%N by rewrite nc.
(* the line solves the system *)
have Ag i : (i < R * D)%N -> mulv (k * D) A g i = b i.
  move=> iR; have jR : (i %/ D < R)%N by rewrite ltn_divLR.
  have rD : (i %% D < D)%N by rewrite ltn_mod.
  rewrite (divn_eq i D) -NE HA // Hb // /T.
  set j := (i %/ D)%N in jR *; set r := (i %% D)%N in rD *.
  set x := if odd j then _ else _.
  have [x1 x2] : tmin s1 <= x /\ x <= tmax s1 by rewrite /x; case: ifP => _; rewrite ?lexx ltW.
  rewrite (line_values wf1 one pos1 (a := v) (b := fun r => p0 r - v r * t0)) //; last first.
    by move=> j' r' _ r'D; exact: gE.
  rewrite /x; clear x x1 x2; case: (j) => [|[|[|[|j']]]] /=; rewrite ?derivn0 ?derivn1 ?m1 ?m2.
  - by rewrite hornerD hornerZ hornerX hornerC; ring.
  - by rewrite hornerD hornerZ hornerX hornerC -(subrK t0 t1) -/dt mulrDr vdt; ring.
  - by rewrite derivD derivC derivZ derivX !hornerE.
  - by rewrite derivD derivC derivZ derivX !hornerE.
  rewrite /w; set e := (if _ then _ else _); rewrite -!derivnS derivSn derivSn.
    rewrite derivD derivC derivZ derivX addr0 derivZ (derivC 1) scaler0.
    by rewrite linear0 horner0.
(* the system is injective *)
have Ainj (x : vec F) : (forall i, (i < R * D)%N -> mulv (k * D) A x i = 0) ->
  forall i, (i < k * D)%N -> x i = 0.
  move=> H; apply: (@hermite_injective s1 wf1 D0 one pos1 mm x).
    by rewrite -Rmm /R; exact: leq_addr.
  move=> d r dm rD.
  have b1 : (2 * d < R)%N by rewrite Rmm; move: dm; clear; lia.
  have b2 : ((2 * d).+1 < R)%N by rewrite Rmm; move: dm; clear; lia.
  have bd j : (j < R)%N -> (j * D + r < R * D)%N.
    move=> jR; apply: (@leq_trans (j.+1 * D)%N); first by rewrite mulSnr ltn_add2l.
    by rewrite leq_mul2r jR orbT.
  have := H _ (bd _ b1); have := H _ (bd _ b2); rewrite -NE !HA // /T.
  rewrite /= mul2n odd_double /= doubleK uphalf_double => -> ->; by split.
have c0g i : (i < k * D)%N -> c0 i = g i.
  move=> iN; apply/eqP; rewrite -subr_eq0; apply/eqP.
  rewrite /c0; case: ifP => [ne|/negbFE/eqP eq]; last first.
    apply: (Ainj (fun i => solve (k * D)%N A b i - g i)) => // j jR.
    rewrite mulvB Ag // exact ?subrr //; last by rewrite -eq.
    by exists g => q qN; rewrite Ag // eq.
  set M := mulm _ _ _; set y := mulv _ (trm A) b.
  apply: (normal_injective Ainj (x := fun i => solve (k * D)%N M y i - g i)) => // j jN.
  have Mg q : (q < k * D)%N -> mulv (k * D) M g q = y q.
    by move=> qN; rewrite mulv_assoc; apply: eq_mulv => // z zR; rewrite Ag.
  by rewrite -/M mulvB Mg // exact ?subrr //; exists g.
have [s2 h2 _] := @setCoefficientVectorE _ s1 (DVec (D * bs_ncoef s1) c0) erefl.
have [X eX HX] := set_flat h2; exists (with_coef s1 X).
  by rewrite -eX -h2; congr (setCoefficientVector s1 (DVec _ _)); rewrite nc mulnC.
split=> //.
- exact: wf_with_coef.
- by rewrite /= sz /numValidTimeSegments; clear; lia.
move=> x d x1 x2; rewrite -m1 in x1; rewrite -m2 in x2.
have [u hu Hu] := valatE wf1 D0 e0 d x1 x2 HX; exists u => // r rD.
rewrite -Hu // (line_values wf1 one pos1 (a := v) (b := fun r => p0 r - v r * t0)) //; last first.
  move=> j r' jk r'D; rewrite c0g ?gE //; apply: (@leq_trans (j.+1 * D)%N).
    by rewrite mulSnr ltn_add2l.
  by rewrite leq_mul2r jk orbT.
congr (_^`(d).[x]); rewrite -/(v r) scalerBr polyCB polyCM -[v r *: t0%:P]mul_polyC.
by rewrite -addrA [(p0 r)%:P + _]addrC.
Qed.
End InitSpline.
