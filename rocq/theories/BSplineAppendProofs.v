(* addCurveSegment: the appended knot interval and the two coefficients that are solved for. *)
From mathcomp Require Import all_ssreflect all_algebra.
From mathcomp.algebra_tactics Require Import ring.
From mathcomp.zify Require Import zify.
From Verif Require Import Prelude CoxDeBoor CoxDeBoorProofs BSplineModel BSplineSpec BSplineProofs
  BSplineEvalProofs BSplineAccessProofs BSplineCoefProofs BSplineInitProofs LinSolve Examples
  BSplineRemoveProofs.
Set Implicit Arguments.
Unset Strict Implicit.
Unset Printing Implicit Defensive.
Import GRing.Theory Num.Theory Order.Theory.
Local Open Scope ring_scope.

(* ------------------------------------------------ basis polynomials at the knots *)
Section Ends.
Variables (F : realFieldType) (t : nat -> F) (N i : nat).
Hypothesis t_mono : forall a b, (a <= b)%N -> (b < N)%N -> t a <= t b.
Hypothesis seg_pos : t i < t i.+1.

Lemma last_at_left n : (basis_poly t i n.+1 i).[t i] = 0.
Proof.
rewrite basis_polyS (@basis_poly_out _ t i n i.+1) ?ltnn //.
by rewrite mulr0 scaler0 addr0 hornerZ hornerM hornerD hornerN hornerX hornerC subrr mul0r mulr0.
Qed.

Lemma last_at_right n : (i + n < N)%N -> 0 < (basis_poly t i n i).[t i.+1].
Proof.
elim: n => [|n IH] iN; first by rewrite basis_poly0 hornerC eqxx ltr01.
rewrite basis_polyS (@basis_poly_out _ t i n i.+1) ?ltnn // mulr0 scaler0 addr0.
rewrite hornerZ hornerM hornerD hornerN hornerX hornerC; apply: mulr_gt0.
  by rewrite invr_gt0; apply: (den_pos t_mono seg_pos) => //; move: iN; clear; lia.
by apply: mulr_gt0; [rewrite subr_gt0|apply: IH; apply: leq_trans iN; clear; lia].
Qed.

Lemma prev_at_left n j : i = j.+1 -> t j < t i -> (i + n.+1 < N)%N ->
  0 < (basis_poly t i n.+1 j).[t i].
Proof.
move=> ij lt; elim: n => [|n IH] iN.
  rewrite basis_polyS !basis_poly0 ij eqxx; have -> : (j.+1 == j) = false by clear; lia.
  rewrite polyC0 mulr0 scaler0 add0r polyC1 mulr1 hornerZ hornerD hornerN hornerX hornerC.
  have -> : (j + 2 = i.+1)%N by rewrite ij; clear; lia.
  by rewrite -ij mulVf ?ltr01 // subr_eq0 gt_eqF.
rewrite basis_polyS -ij hornerD !hornerZ !hornerM last_at_left !mulr0 addr0.
rewrite hornerD hornerN hornerX hornerC; apply: mulr_gt0.
  rewrite invr_gt0 subr_gt0; apply: lt_le_trans lt _; apply: t_mono; move: iN ij; clear; lia.
by apply: mulr_gt0; [rewrite subr_gt0|apply: IH; apply: leq_trans iN; clear; lia].
Qed.
End Ends.

(* pieces depend on few knots and coefficients *)
Section Local.
Variable F : realFieldType.
Lemma basis_poly_ext (t t' : nat -> F) N N' i n c :
  (forall a b, (a <= b)%N -> (b < N)%N -> t a <= t b) ->
  (forall a b, (a <= b)%N -> (b < N')%N -> t' a <= t' b) ->
  t i < t i.+1 -> (0 < n)%N -> (c <= n)%N -> (n <= i)%N -> (i + n < N)%N -> (i + n < N')%N ->
  (forall j, (i < j + n)%N -> (j <= i + n)%N -> t j = t' j) ->
  basis_poly t i n (i - n + c) = basis_poly t' i n (i - n + c).
Proof.
move=> mt mt' pos n0 cn ni iN iN' H.
have e1 : t i = t' i by apply: H; move: n0; clear; lia.
have e2 : t i.+1 = t' i.+1 by apply: H; move: n0; clear; lia.
rewrite -(Mmat_poly mt) // -(Mmat_poly mt') //; last by rewrite -e1 -e2.
apply: eq_fsum => r _; rewrite /lin e1 e2; congr (_ *: _); apply: M_ext => // j h1 h2.
by apply: H; move: h1 h2; clear; lia.
Qed.

Lemma spline_piece_ext (s s' : bspline F) r r' i : wf s -> wf s' -> bs_order s' = bs_order s ->
  (bs_order s <= i.+1)%N -> (i + bs_order s < size (bs_knots s))%N ->
  (i + bs_order s < size (bs_knots s'))%N -> kn s i < kn s i.+1 ->
  (forall j, (i.+1 < j + bs_order s)%N -> (j < i + bs_order s)%N -> kn s j = kn s' j) ->
  (forall j, (i < j + bs_order s)%N -> (j <= i)%N -> bs_coef s r j = bs_coef s' r' j) ->
  spline_piece s r i = spline_piece s' r' i.
Proof.
move=> wfs wfs' ok ki iN iN' pos Hk Hc; have hk := wf_order wfs.
have hc := wf_cols wfs; have hc' := wf_cols wfs'; rewrite ok in hc'.
rewrite /spline_piece ok !curve_piece_local; try by move: ki iN iN' hc hc' hk; clear; lia.
have e : ((bs_order s).-1.+1 = bs_order s)%N by move: hk; clear; lia.
rewrite e; apply: eq_fsum => c ck; congr (_ *: _).
  by apply: Hc; move: ck ki hk; clear; lia.
apply: (basis_poly_ext (kn_mono wfs) (kn_mono wfs')) => //;
  try by move: ck ki iN iN' hk; clear; lia.
by move=> j h1 h2; apply: Hk; move: h1 h2 hk; clear; lia.
Qed.
End Local.

(* ------------------------------------------------ the knots *)
Section Append.
Variable F : realFieldType.
Variable eps : F.
Hypothesis e0 : 0 < eps.

Lemma append_loop (ks : seq F) lo (t dt : F) : (lo <= size ks)%N ->
  let ks' := (floop lo (size ks) (fun i (st : seq F * F) =>
     let: (ks, kt) := st in (set_nth 0 ks i kt, kt + dt)) (ks, t)).1 in
  size ks' = size ks /\
  forall j, (j < size ks)%N -> nth 0 ks' j = if (j < lo)%N then nth 0 ks j else t + (j - lo)%:R * dt.
Proof.
move=> le ks'; pose I m (st : seq F * F) := [/\ size st.1 = size ks,
  st.2 = t + (m - lo)%:R * dt
  & forall j, (j < size ks)%N -> (j < m)%N || (j < lo)%N -> nth 0 st.1 j
    = if (j < lo)%N then nth 0 ks j else t + (j - lo)%:R * dt].
have [h1 _ h3] : I (size ks) (floop lo (size ks) (fun i (st : seq F * F) =>
     let: (ks, kt) := st in (set_nth 0 ks i kt, kt + dt)) (ks, t)).
  apply: floop_ind => //.
    split=> //=; first by rewrite subnn mul0r addr0.
    by move=> j _; rewrite orbb => ->.
  move=> m [l kt] /andP[m1 m2] [/= l1 l2 l3]; split=> /=.
  - by rewrite size_set_nth l1; apply/maxn_idPr.
  - by rewrite l2 subSn // -[in RHS]addn1 natrD; ring.
  move=> j jn jm; rewrite nth_set_nth /=; case: eqP => [->|/eqP ne].
    by rewrite ltnNge m1 /= l2.
  by apply: l3 => //; move: jm ne; clear; lia.
by split=> // j jn; apply: h3; rewrite ?jn.
Qed.

Section Seg.
Variable s : bspline F.
Hypothesis wfs : wf s.
Hypothesis l0 : 0 < last_len s.
Local Notation k := (bs_order s).
Local Notation n := (size (bs_knots s)).
Local Notation D := (bs_dim s).
Variable t : F.
Hypothesis tm : tmax s < t.

(* knots of the extended spline *)
Definition ext_kn (j : nat) : F :=
  if (j <= n - k)%N then kn s j else tmax s + (j - (n - k))%:R * (t - tmax s).

Lemma timeInterval_iE (s1 : bspline F) i : wf s1 ->
  (i < numValidTimeSegments (bs_order s1) (size (bs_knots s1)))%N ->
  timeInterval_i s1 i = Ok (kn s1 (bs_order s1 + i - 1), kn s1 (bs_order s1 + i)%N).
Proof.
move=> wf1 iN; rewrite /timeInterval_i (min_knots wf1) iN /=.
have -> : (bs_order s1 + i < size (bs_knots s1))%N => //.
move: iN (wf_order wf1) (wf_size wf1); rewrite /numValidTimeSegments; clear; lia.
Qed.

Lemma last_knot_segment : segment_of eps s (kn s (n - k).-1) (n - k).-1.
Proof.
have hk := wf_order wfs; have hn := wf_size wfs.
rewrite /segment_of; case: ifP => _.
  by split=> //; apply: (kn_mono wfs); move: hk hn; clear; lia.
split; [by move: hk hn; clear; lia|by move: hk hn; clear; lia|].
rewrite lexx /=; have -> : (n - k).-1.+1 = (n - k)%N by move: hk hn; clear; lia.
by rewrite -subr_gt0.
Qed.

Lemma tmax_segment : segment_of eps s (tmax s) (n - k).-1.
Proof. by rewrite /segment_of subrr normr0 e0; split=> //; exact: tmin_le_tmax wfs. Qed.

Lemma addCurveSegment_knotsE junk p1size : p1size = D ->
  exists p0 s1, [/\ addCurveSegment_knots eps s t junk p1size =
      Ok (p0, s1, numValidTimeSegments k n), eval eps s (tmax s) = Ok p0, wf s1
    & [/\ bs_order s1 = k, size (bs_knots s1) = n.+1, bs_dim s1 = D, bs_ncoef s1 = (bs_ncoef s).+1
    & (forall j, (j < n.+1)%N -> kn s1 j = ext_kn j) /\
      forall r j, (j < bs_ncoef s)%N -> bs_coef s1 r j = bs_coef s r j]].
Proof.
move=> ->; have hk := wf_order wfs; have hn := wf_size wfs; have hc := wf_cols wfs.
rewrite /addCurveSegment_knots t_maxE //= tm eqxx /=.
set NT := numValidTimeSegments k n; have NTE : NT = (n.+1 - 2 * k)%N by [].
have NT0 : (0 < NT)%N by rewrite NTE; move: hn; clear; lia.
rewrite NT0 /= timeInterval_iE // -/NT /=; last by rewrite prednK.
have -> : (k + NT.-1 = n - k)%N by rewrite NTE; move: hk hn; clear; lia.
have := evalD_total wfs (tmax s) 0 e0.
rewrite (tmin_le_tmax wfs) ltr_addl e0 /= => -[p0 hp0].
rewrite -/(tmax s) /eval hp0 /= subn1 (computeTIndexE wfs last_knot_segment) /=.
have -> : ((n - k).-1.+1 = n - k)%N by move: hk hn; clear; lia.
have -> : (n - k < n)%N by move: hk hn; clear; lia.
rewrite /= -/(tmax s); have sr : size (rcons (bs_knots s) 0) = n.+1 by rewrite size_rcons.
have := @append_loop (rcons (bs_knots s) 0) (n - k).+1 t (t - tmax s).
rewrite sr => -[|sz kE]; first by move: hk; clear; lia.
set ks := (floop _ _ _ _).1 in sz kE *.
have kE' j : (j < n.+1)%N -> nth 0 ks j = ext_kn j.
  move=> jn; rewrite kE // /ext_kn ltnS nth_rcons; case: (leqP j (n - k)) => [le|gt].
    by have -> : (j < n)%N by move: le hk hn; clear; lia.
  have -> : (j - (n - k) = (j - (n - k).+1).+1)%N by move: gt; clear; lia.
  by rewrite -[X in _ = _ + X%:R * _]addn1 natrD; ring.
set cc := DMat _ _ _.
have so : sorted <=%R ks.
  apply/(sortedP 0) => j; rewrite sz => jn.
  rewrite !kE' //; last by apply: ltnW.
  rewrite /ext_kn; have [le|gt] := leqP j.+1 (n - k).
    rewrite (ltnW le); apply: (kn_mono wfs) => //; move: le hk hn; clear; lia.
  have [le|gt'] := leqP j (n - k).
    have -> : j = (n - k)%N by move: le gt; clear; lia.
    by rewrite -/(tmax s) subSnn mul1r addrC subrK ltW.
  by rewrite ler_add2l ler_wpmul2r ?subr_ge0 ?(ltW tm) // ler_nat leq_sub2r.
rewrite setKnots_succeeds //=; first last.
- by rewrite sz.
- by rewrite sz /bs_ncoef in hc *; rewrite addSn hc.
- by rewrite sz; apply: leqW.
set s1 := BSpline _ _ _ _; exists p0, s1.
have wf1 : wf s1.
  by split=> //=; rewrite ?sz //; [apply: leqW|rewrite addSn hc].
split=> //; split=> //.
by split=> // r j jn /=; rewrite jn.
Qed.

Variable solve : nat -> mat F -> vec F -> vec F.
Hypothesis exact : exact_solver solve.

Lemma addCurveSegmentE (p1 : dvec F) junk : dv_size p1 = D ->
  exists2 s', addCurveSegment eps solve s t p1 junk = Ok s' &
  [/\ wf s', [/\ bs_order s' = k, size (bs_knots s') = n.+1 & bs_dim s' = D],
      (forall j, (j < n.+1)%N -> kn s' j = ext_kn j),
      (forall r j, (j.+1 < bs_ncoef s)%N -> bs_coef s' r j = bs_coef s r j)
    & exists p0 v0 v1, [/\ eval eps s (tmax s) = Ok p0, eval eps s' (tmax s) = Ok v0,
        eval eps s' t = Ok v1 & forall r, (r < D)%N -> v0 r = p0 r /\ v1 r = p1 r]].
Proof.
move=> pD; have hk := wf_order wfs; have hn := wf_size wfs; have hc := wf_cols wfs.
have [p0 [s1 [h1 hp0 wf1 [o1 n1 d1 c1 [K1 C1]]]]] := addCurveSegment_knotsE junk pD.
rewrite /addCurveSegment h1 /=; set NT := numValidTimeSegments k n.
have NTE : NT = (n.+1 - 2 * k)%N by [].
rewrite timeInterval_iE //; last by rewrite o1 n1 NTE /numValidTimeSegments; move: hn; clear; lia.
rewrite o1; set i := (n - k)%N.
have -> : (k + NT - 1 = i)%N by rewrite NTE /i; move: hk hn; clear; lia.
have -> : (k + NT = i.+1)%N by rewrite NTE /i; move: hk hn; clear; lia.
have iN : (i.+1 < n.+1)%N by rewrite /i; move: hk hn; clear; lia.
have ki : kn s1 i = tmax s by rewrite K1 ?(ltnW iN) // /ext_kn leqnn.
have ki1 : kn s1 i.+1 = t.
  by rewrite K1 // /ext_kn /i ltnn subSnn mul1r addrC subrK.
rewrite ki ki1 /= d1.
have last1 : (size (bs_knots s1) - bs_order s1).-1 = i.
  by rewrite n1 o1 /i; move: hk hn; clear; lia.
have tmax1 : tmax s1 = t by rewrite -ki1 /tmax n1 o1; congr (kn s1 _); rewrite /i; move: hk hn; clear; lia.
have tmin1 : tmin s1 <= tmax s.
  by rewrite -ki; apply: (kn_mono wf1); rewrite ?o1 ?n1 /i; move: hk hn; clear; lia.
have pos1 : kn s1 i < kn s1 i.+1 by rewrite ki ki1.
have ik : (k <= i.+1)%N by rewrite /i; move: hk hn; clear; lia.
have seg0 : segment_of eps s1 (tmax s) i.
  rewrite /segment_of; case: ifP => _; first by rewrite last1.
  rewrite o1 n1 ki ki1 lexx tm; split=> //; rewrite /i; move: hk hn; clear; lia.
have seg1 : segment_of eps s1 t i.
  by rewrite /segment_of tmax1 subrr normr0 e0 last1; split=> //; apply: le_trans tmin1 (ltW tm).
have [lc -> [slc Hlc] /=] := localCoefficientVectorE wf1 seg0.
have [u0 [P0 [-> _ HP0 _ Hu0]]] := Phi_entries wf1 0 seg0.
have [u1 [P1 [-> _ HP1 _ Hu1]]] := Phi_entries wf1 0 seg1 => /=.
rewrite d1 o1 in Hlc HP0 HP1; rewrite o1 in Hu0 Hu1.
set off := (D * (k - 2))%N; set A := set_block _ _ _ _ _ _; set b := set_segment _ _ _ _.
set cs := solve _ A b.
have k2 : (k = (k - 2) + 2)%N by move: hk; clear; lia.
(* rows of the system *)
have Arow (r c : nat) (P : mat F) (u : vec F) : (r < D)%N -> (c < 2 * D)%N ->
  (forall r c, (r < D)%N -> (c < k * D)%N -> P r c = (r == (c %% D)%N)%:R * u (c %/ D)%N) ->
  get_block P 0 off r c = (r == (c %% D)%N)%:R * u (k - 2 + c %/ D)%N.
  move=> rD cD H; have D0 : (0 < D)%N by apply: leq_ltn_trans rD.
  rewrite /get_block add0n H //; first by rewrite /off mulnC modnMDl divnMDl.
  by rewrite k2 mulnDl /off mulnC ltn_add2l.
have A0 (x : vec F) r : (r < D)%N ->
  mulv (2 * D) A x r = x r * u0 (k - 2)%N + x (D + r)%N * u0 (k - 1)%N.
  move=> rD; have D0 : (0 < D)%N by apply: leq_ltn_trans rD.
  rewrite (@diag_blocks_mulv _ D 2 (fun q => u0 (k - 2 + q)%N) A x) //.
    rewrite /= !add0r mul0n mul1n add0n addn0; congr (_ + _ * u0 _); move: hk; clear; lia.
  move=> c cD; rewrite /A /set_block !leq0n !add0n leqNgt rD /= cD /=.
  by rewrite !subn0 (Arow r c P0 u0).
have A1 (x : vec F) r : (r < D)%N ->
  mulv (2 * D) A x (D + r)%N = x r * u1 (k - 2)%N + x (D + r)%N * u1 (k - 1)%N.
  move=> rD; have D0 : (0 < D)%N by apply: leq_ltn_trans rD.
  rewrite -[LHS]/(mulv (2 * D) (fun r' => A (D + r')%N) x r).
  rewrite (@diag_blocks_mulv _ D 2 (fun q => u1 (k - 2 + q)%N) _ x) //.
    rewrite /= !add0r mul0n mul1n add0n addn0; congr (_ + _ * u1 _); move: hk; clear; lia.
  move=> c cD; rewrite /A /set_block !leq0n leq_addr ltn_add2l rD /= cD /=.
  by rewrite !subn0 addKn (Arow r c P1 u1).
have kn1 : (i + k.-1 < size (bs_knots s1))%N by rewrite n1 /i; move: hk hn; clear; lia.
have w0 : u0 (k - 1)%N = 0.
  rewrite Hu0 //; last by move: hk; clear; lia.
  rewrite /weight derivn0 o1 -ki.
  have -> : (i.+1 - k + (k - 1) = i)%N by move: ik hk; clear; lia.
  by have -> : (k.-1 = k.-2.+1)%N by [move: hk; clear; lia]; rewrite last_at_left.
have w0' : u0 (k - 2)%N != 0.
  rewrite Hu0 //; last by move: hk; clear; lia.
  rewrite /weight derivn0 o1 -ki gt_eqF //.
  have -> : (k.-1 = k.-2.+1)%N by move: hk; clear; lia.
  apply: (prev_at_left (kn_mono wf1)) => //.
  - by move: ik hk; rewrite /i; clear; lia.
  - have -> : (i.+1 - k + (k - 2) = i.-1)%N by move: ik hk; clear; lia.
    rewrite ki K1 /ext_kn; last by move: iN; clear; lia.
    by rewrite leq_pred -subr_gt0.
  by rewrite n1 /i; move: hk hn; clear; lia.
have w1 : u1 (k - 1)%N != 0.
  rewrite Hu1 //; last by move: hk; clear; lia.
  rewrite /weight derivn0 o1 -ki1 gt_eqF //.
  have -> : (i.+1 - k + (k - 1) = i)%N by move: ik hk; clear; lia.
  exact: (last_at_right (kn_mono wf1)).
have inj (x : vec F) : (forall j, (j < 2 * D)%N -> mulv (2 * D) A x j = 0) ->
  forall j, (j < 2 * D)%N -> x j = 0.
  move=> H; have z r : (r < D)%N -> x r = 0.
    move=> rD; have := H r; rewrite A0 // w0 mulr0 addr0.
    rewrite (leq_trans rD (leq_pmull _ _)) // => /(_ isT)/eqP.
    by rewrite mulf_eq0 (negPf w0') orbF => /eqP.
  move=> j jD; have [jl|jl] := ltnP j D; first exact: z.
  have jr : (j - D < D)%N by move: jD jl; clear; lia.
  have := H j jD; rewrite -[in X in X = _](subnKC jl) A1 // z // mul0r add0r subnKC // => /eqP.
  by rewrite mulf_eq0 (negPf w1) orbF => /eqP.
have sol j : (j < 2 * D)%N -> mulv (2 * D) A cs j = b j.
  by apply: exact; apply: injective_solvable.
have lcE (P : mat F) (u : vec F) r : (r < D)%N ->
  (forall r c, (r < D)%N -> (c < k * D)%N -> P r c = (r == (c %% D)%N)%:R * u (c %/ D)%N) ->
  mulv off P lc r = fsum (k - 2) (fun c => bs_coef s1 r (i.+1 - k + c)%N * u c).
  move=> rD H; rewrite /off mulnC (@diag_blocks_mulv _ D (k - 2) u P) //; last first.
    move=> c cD; apply: H => //; apply: leq_trans cD _; rewrite leq_mul2r leq_subr orbT //.
  by apply: eq_fsum => c ck; rewrite Hlc //; move: ck; clear; lia.
(* the result *)
rewrite /write_last_two; set C := set_col _ _ _; exists (with_coef s1 C) => //.
rewrite c1 d1 in C *.
have nc : bs_ncoef s = i by move: hc; rewrite /i; clear; lia.
have CE r j : C r j = if j == i then cs (D + r)%N else if j == i.-1 then cs r else bs_coef s1 r j.
  rewrite /C /set_col nc subSS subn0 /get_segment; case: eqP => // _.
  by rewrite (_ : (i.+1 - 2 = i.-1)%N) //; clear; lia.
have wfX := wf_with_coef wf1 C.
have split2 (f : nat -> F) : fsum k f = fsum (k - 2) f + (f (k - 2)%N + f (k - 1)%N).
  rewrite {1}k2 fsum_cat /= add0r addn0; congr (_ + (_ + f _)); move: hk; clear; lia.
have val x (u : vec F) r v : segment_of eps s1 x i ->
  (kn s1 i < kn s1 i.+1 -> forall c, (c < k)%N -> u c = weight s1 x i 0 c) ->
  evalD eps (with_coef s1 C) x 0 = Ok v ->
  v r = fsum (k - 2) (fun c => bs_coef s1 r (i.+1 - k + c)%N * u c)
        + (cs r * u (k - 2)%N + cs (D + r)%N * u (k - 1)%N).
  move=> seg Hu; have [v' -> Hv] := evalD_weight wfX (s := with_coef s1 C) 0 seg pos1 => -[<-].
  rewrite Hv /= o1 split2; congr (_ + _).
    apply: eq_fsum => c ck; rewrite CE Hu //; last by move: ck; clear; lia.
    have -> : (i.+1 - k + c == i)%N = false by move: ck ik hk; clear; lia.
    by have -> : (i.+1 - k + c == i.-1)%N = false by move: ck ik hk; clear; lia.
  have a1 : (k - 2 < k)%N by move: hk; clear; lia.
  have a2 : (k - 1 < k)%N by move: hk; clear; lia.
  rewrite CE CE !Hu //.
  have -> : (i.+1 - k + (k - 2) == i)%N = false by move: ik hk; clear; lia.
  have -> : (i.+1 - k + (k - 1) == i)%N by move: ik hk; clear; lia.
  by have -> : (i.+1 - k + (k - 2) == i.-1)%N by move: ik hk; clear; lia.
split=> //.
  move=> r j jn; rewrite /= CE C1; last by apply: ltnW.
  have -> : (j == i) = false by move: jn; rewrite nc; clear; lia.
  by have -> : (j == i.-1) = false by move: jn; rewrite nc; clear; lia.
have [v0 hv0 _] := evalD_weight wfX (s := with_coef s1 C) 0 seg0 pos1.
have [v1 hv1 _] := evalD_weight wfX (s := with_coef s1 C) 0 seg1 pos1.
exists p0, v0, v1; split=> // r rD.
have rl : (r < 2 * D)%N by move: rD; clear; lia.
have rl' : (D + r < 2 * D)%N by move: rD; clear; lia.
rewrite (val _ _ r _ seg0 Hu0 hv0) (val _ _ r _ seg1 Hu1 hv1) -A0 // -A1 // !sol //.
rewrite /b /set_segment leqNgt rD /= leq_addr ltn_add2l rD /= subn0 addKn.
by rewrite (lcE P0 u0) // (lcE P1 u1) //; split; rewrite addrC subrK.
Qed.

(* the curve before the new interval *)
Lemma addCurveSegment_keeps p1 junk s' x i d : addCurveSegment eps solve s t p1 junk = Ok s' ->
  dv_size p1 = D -> eps <= last_len s ->
  (k <= i.+1)%N -> (i.+1 + k < n)%N -> kn s i <= x -> x < kn s i.+1 ->
  (forall j, (i.+1 < j + k)%N -> (j < i + k)%N -> kn s' j = kn s j) ->
  exists v v', [/\ evalD eps s x d = Ok v, evalD eps s' x d = Ok v' & forall r, v' r = v r].
Proof.
move=> hs pD el ik iN x1 x2 Hk; have hk := wf_order wfs; have hn := wf_size wfs.
have [s2 hs2] := addCurveSegmentE junk pD.
rewrite hs in hs2; case: hs2 => <- [wf' [o' n' d'] K' C' _].
have pos : kn s i < kn s i.+1 by apply: le_lt_trans x2.
have xl : x <= tmax s - eps.
  rewrite ler_subr_addl; apply: (@le_trans _ _ (last_len s + x)); first by rewrite ler_add2r.
  rewrite /last_len -addrA ger_addl addrC subr_le0; apply: le_trans (ltW x2) _.
  by apply: (kn_mono wfs); move: iN hk hn; clear; lia.
have seg : segment_of eps s x i.
  have -> : segment_of eps s x i = [/\ (k <= i.+1)%N, (i + k < n)%N & kn s i <= x < kn s i.+1].
    rewrite /segment_of ltNge.
    by rewrite (_ : eps <= `|tmax s - x|) //; apply: le_trans (ler_norm _); rewrite ler_subr_addr -ler_subr_addl.
  by split=> //; [apply: ltnW|rewrite x1 x2].
have k1 : kn s' i = kn s i by apply: Hk; move: hk; clear; lia.
have k2 : kn s' i.+1 = kn s i.+1 by apply: Hk; move: hk; clear; lia.
have tm' : tmax s' = t.
  rewrite /tmax n' o' K'; last by move: hk; clear; lia.
  rewrite /ext_kn; have -> : (n.+1 - k = (n - k).+1)%N by move: hk hn; clear; lia.
  by rewrite ltnn subSnn mul1r addrC subrK.
have seg' : segment_of eps s' x i.
  have -> : segment_of eps s' x i = [/\ (k <= i.+1)%N, (i + k < n.+1)%N & kn s' i <= x < kn s' i.+1].
    rewrite /segment_of ltNge tm' o' n'.
    rewrite (_ : eps <= `|t - x|) //; apply: le_trans (ler_norm _).
    by rewrite ler_subr_addr -ler_subr_addl; apply: le_trans xl _; rewrite ler_add2r ltW.
  by split=> //; [move: iN; clear; lia|rewrite k1 k2 x1 x2].
have [v hv Hv] := evalD_piece wfs d seg pos.
have [|v' hv' Hv'] := evalD_piece wf' d seg'; first by rewrite k1 k2.
exists v, v'; split=> // r; rewrite Hv Hv'; congr (_^`(d).[x]).
apply: esym; apply: (spline_piece_ext wfs wf') => //.
- by move: iN; clear; lia.
- by rewrite n'; move: iN; clear; lia.
- by move=> j h1 h2; rewrite Hk.
by move=> j h1 h2; rewrite C' //; have := wf_cols wfs; move: iN h2; clear; lia.
Qed.

(* all segments whose local knots lie before the replaced ones *)
Lemma addCurveSegment_prefix p1 junk s' x i d : addCurveSegment eps solve s t p1 junk = Ok s' ->
  dv_size p1 = D -> eps <= last_len s ->
  (k <= i.+1)%N -> (i.+1 + k < n)%N -> (i + 2 * k <= n.+1)%N -> kn s i <= x -> x < kn s i.+1 ->
  exists v v', [/\ evalD eps s x d = Ok v, evalD eps s' x d = Ok v' & forall r, v' r = v r].
Proof.
move=> hs pD el ik iN far x1 x2; apply: (addCurveSegment_keeps (i := i) d hs) => // j h1 h2.
have [s2 hs2] := addCurveSegmentE junk pD.
rewrite hs in hs2; case: hs2 => <- [_ _ K' _ _]; rewrite K'; last by move: h2 iN; clear; lia.
by rewrite /ext_kn; have -> : (j <= n - k)%N by move: h2 far; clear; lia.
Qed.

(* orders 2 and 3: all segments that do not use the two new coefficients *)
Lemma addCurveSegment_low_order p1 junk s' x i d :
  addCurveSegment eps solve s t p1 junk = Ok s' ->
  dv_size p1 = D -> eps <= last_len s -> (k <= 3)%N ->
  (k <= i.+1)%N -> (i.+1 < bs_ncoef s)%N -> kn s i <= x -> x < kn s i.+1 ->
  exists v v', [/\ evalD eps s x d = Ok v, evalD eps s' x d = Ok v' & forall r, v' r = v r].
Proof.
move=> hs pD el k3 ik iN x1 x2; have hc := wf_cols wfs.
by apply: (addCurveSegment_prefix (i := i) d hs) => //; move: iN k3 hc; clear; lia.
Qed.

(* when the old knots behind the end continue with the length of the new segment *)
Lemma addCurveSegment_regular p1 junk s' x i d :
  addCurveSegment eps solve s t p1 junk = Ok s' ->
  dv_size p1 = D -> eps <= last_len s ->
  (forall j, (j < k)%N -> kn s (n - k + j) = tmax s + j%:R * (t - tmax s)) ->
  (k <= i.+1)%N -> (i.+1 < bs_ncoef s)%N -> kn s i <= x -> x < kn s i.+1 ->
  exists v v', [/\ evalD eps s x d = Ok v, evalD eps s' x d = Ok v' & forall r, v' r = v r].
Proof.
move=> hs pD el Hr ik iN x1 x2; have hc := wf_cols wfs.
apply: (addCurveSegment_keeps (i := i) d hs) => //; first by move: iN hc; clear; lia.
move=> j h1 h2; have [s2 hs2] := addCurveSegmentE junk pD.
rewrite hs in hs2; case: hs2 => <- [_ _ K' _ _]; rewrite K'; last by move: h2 iN hc; clear; lia.
rewrite /ext_kn; case: ifPn => // gt; rewrite -Hr; last by move: h2 iN hc (wf_order wfs); clear; lia.
by congr (kn s _); move: gt; clear; lia.
Qed.
End Seg.
End Append.

(* ------------------------------------------------ order 4: earlier segments change *)
(* knots 0..8, only coefficient 3 is nonzero; the new end is 7 *)
Definition ap_knots : seq Q := mkseq (fun i => i%:R) 9.
Definition ap_coef : dmat Q := DMat 1 5 (fun r j => (j == 3)%N%:R).
Definition ap : bspline Q := BSpline 4 ap_knots ap_coef (initializeBasisMatrices 4 ap_knots).
Definition ap_knots' : seq Q := [:: 0; 1; 2%:R; 3%:R; 4%:R; 5%:R; 7%:R; 9%:R; 11%:R; 13%:R].
Definition ap' : bspline Q := BSpline 4 ap_knots' (DMat 1 6 (fun r j => (j == 3)%N%:R))
  (initializeBasisMatrices 4 ap_knots').

Lemma ap_wf : wf ap. Proof. by split. Qed.
Lemma ap'_wf : wf ap'. Proof. by split. Qed.

Lemma append_refuted (solve : nat -> mat Q -> vec Q -> vec Q) : exact_solver solve ->
  exists (s s' : bspline Q) t p1 junk x i v v',
  [/\ wf s, eps0 <= last_len s, tmax s < t /\ dv_size p1 = bs_dim s,
      addCurveSegment eps0 solve s t p1 junk = Ok s'
    & [/\ kn s i <= x < kn s i.+1, (i.+1 < bs_ncoef s)%N,
          eval eps0 s x = Ok v, eval eps0 s' x = Ok v' & v 0%N != v' 0%N]].
Proof.
move=> ex; pose x : Q := 7%:R / 2%:R; pose p1 : dvec Q := DVec 1 (fun _ => 0).
have l0 : 0 < last_len ap by vm_compute.
have el : eps0 <= last_len ap by vm_compute.
have kx0 : kn ap 3 <= x < kn ap 4 by vm_compute.
have tm : tmax ap < 7%:R by vm_compute.
have [s' hs [wf' [o' n' _] K' C' _]] :=
  @addCurveSegmentE _ eps0 eps0_pos ap ap_wf l0 7%:R tm solve ex p1 zerov erefl.
have [v hv Hv] : exists2 v, evalD eps0 ap x 0 = Ok v & v 0%N = 48%:R^-1.
  by apply: (ok_at_eq (q := 48%:R^-1)); vm_compute.
have [v2 hv2 Hv2] : exists2 v, evalD eps0 ap' x 0 = Ok v & v 0%N != 48%:R^-1.
  by apply: (ok_at_ne (q := 48%:R^-1)); vm_compute.
have K j : (j < 10)%N -> kn s' j = kn ap' j.
  move=> j10; rewrite (K' j j10); apply/eqP.
  have : all (fun j => ext_kn ap 7%:R j == kn ap' j) (iota 0 10) by vm_compute.
  by move/allP/(_ j); rewrite mem_iota j10 => /(_ isT).
have e1 := K 3%N isT; have e2 := K 4%N isT; have e3 := K 6%N isT.
have kx : kn ap' 3 <= x < kn ap' 4 by vm_compute.
have pos2 : kn ap' 3 < kn ap' 4 by vm_compute.
have pos' : kn s' 3 < kn s' 4 by rewrite e1 e2; exact: pos2.
have t2 : tmax ap' = 7%:R by apply/eqP; vm_compute.
have t' : tmax s' = 7%:R by rewrite /tmax o' n' -t2; exact: e3.
have far : (`|7%:R - x| < eps0) = false by vm_compute.
have seg' : segment_of eps0 s' x 3.
  rewrite /segment_of t' far o' n' e1 e2; split; [by []|by []|exact: kx].
have seg2 : segment_of eps0 ap' x 3.
  rewrite /segment_of t2 far; split; [by []|by []|exact: kx].
have [v' hv' Hv'] := evalD_piece wf' 0 seg' pos'.
have [v3 hv3 Hv3] := evalD_piece ap'_wf 0 seg2 pos2.
have ev : Ok v2 = Ok v3 := etrans (esym hv2) hv3.
case: ev => ev.
exists ap, s', 7%:R, p1, zerov, x, 3%N, v, v'; split.
- exact: ap_wf.
- exact: el.
- split; [exact: tm|exact: erefl].
- exact: hs.
split; [exact: kx0|exact: isT|exact: hv|exact: hv'|].
suff -> : v' 0%N = v2 0%N by move: Hv2; rewrite -Hv eq_sym; exact: id.
rewrite ev Hv' Hv3; congr (_^`(0).[x]).
have no' : bs_order ap' = bs_order s' := esym o'.
apply: (spline_piece_ext wf' ap'_wf no'); rewrite ?o' ?n'.
- exact: isT.
- exact: isT.
- exact: isT.
- exact: pos'.
- by clear -K => j h1 h2; apply: K; apply: leq_trans h2 _.
move=> j h1 h2; rewrite C'; first exact: erefl.
exact: (leq_ltn_trans h2 (isT : (3 < 4)%N)).
Qed.
