(* Cumulative basis values, BiVector, knot verification, corner cases of the time lookup. *)
From mathcomp Require Import all_ssreflect all_algebra.
From mathcomp.algebra_tactics Require Import ring.
From mathcomp.zify Require Import zify.
From Verif Require Import Prelude CoxDeBoor CoxDeBoorProofs BSplineModel BSplineSpec
  BSplineProofs BSplineEvalProofs BSplineAccessProofs BSplineCoefProofs BSplineInitProofs
  BSplineJacobianProofs BSplinePolyProofs BSplineMoreProofs BSplineQuadProofs.
Set Implicit Arguments.
Unset Strict Implicit.
Unset Printing Implicit Defensive.
Import GRing.Theory Num.Theory Order.Theory.
Local Open Scope ring_scope.

Section Cum.
Variable F : realFieldType.
Variable eps : F.

Lemma floop_sum (b : nat -> F) lo hi (z : F) : (lo <= hi)%N ->
  floop lo hi (fun j sum => sum + b j) z = z + fsum (hi - lo) (fun j => b (lo + j)%N).
Proof.
move=> le; apply: (@floop_ind _ lo hi (fun j sum => sum + b j) z (fun i r =>
  r = z + fsum (i - lo) (fun j => b (lo + j)%N))) => //.
  by rewrite subnn addr0.
move=> i r /andP[h _] ->; rewrite subSn // fsumS addrA; congr (_ + b _); lia.
Qed.

(* the in-place accumulation loop computes suffix sums *)
Lemma suffix_loop (b : nat -> F) m i :
  floop 1 m.+1 (fun i (b : vec F) =>
     upd b i (b i + floop i.+1 m.+1 (fun j sum => sum + b j) 0)) b i =
  if ((1 <= i) && (i <= m))%N then fsum (m.+1 - i) (fun j => b (i + j)%N) else b i.
Proof.
have H : forall h, (1 <= h)%N -> (h <= m.+1)%N -> forall i,
  floop 1 h (fun i (b : vec F) =>
     upd b i (b i + floop i.+1 m.+1 (fun j sum => sum + b j) 0)) b i =
  if ((1 <= i) && (i < h))%N then fsum (m.+1 - i) (fun j => b (i + j)%N) else b i; last first.
  by rewrite H.
elim=> [//|h IH] _ hm {}i; have [h0|h0] := posnP h.
  by rewrite h0 floop_nil //; case: ifP => //; lia.
rewrite floopSr // /upd; case: eqP => [->|/eqP ne].
  rewrite h0 ltnSn /= IH ?(ltnW hm) // ltnn andbF.
  rewrite -[(m.+1 - h)%N]prednK; last by lia.
  rewrite fsum_recl addn0; congr (_ + _); rewrite floop_sum // add0r.
  have -> : ((m.+1 - h).-1 = m.+1 - h.+1)%N by lia.
  apply: eq_fsum => j _; rewrite IH ?(ltnW hm) //.
  have -> : (h.+1 + j < h)%N = false by lia.
  by rewrite andbF addSnnS.
rewrite IH ?(ltnW hm) // ltnS; congr (if _ then _ else _).
by move: ne; lia.
Qed.

Lemma cumulative_spec s x l : getLocalBiVector eps s x = Ok l ->
  exists2 c, getLocalCumulativeBiVector eps s x = Ok c &
   [/\ dv_size c = bs_order s, c 0%N = 1 & forall i, (1 <= i)%N -> (i < bs_order s)%N ->
       c i = fsum (bs_order s - i) (fun j => l (i + j)%N)].
Proof.
move=> hl; rewrite /getLocalCumulativeBiVector hl /=; eexists; first by reflexivity.
split=> //= i i1 ik.
rewrite /upd gtn_eqF // suffix_loop i1 /=.
have -> : (i <= (bs_order s).-1)%N by lia.
by rewrite prednK //; lia.
Qed.

Lemma cumulative_all s x : wf s -> 0 < eps -> eps <= last_len s -> tmin s <= x -> x <= tmax s ->
  exists l c, [/\ getLocalBiVector eps s x = Ok l, getLocalCumulativeBiVector eps s x = Ok c,
    dv_size c = bs_order s,
    (forall i, (i < bs_order s)%N -> c i = fsum (bs_order s - i) (fun j => l (i + j)%N))
    & c 0%N = 1 /\ (forall i j, (i <= j)%N -> (j < bs_order s)%N -> [/\ 0 <= c j, c j <= c i & c i <= 1])].
Proof.
move=> wfs e0 el x1 x2.
have [l [b [v [hl _ _ [sz pos one] _]]]] := localBi_all wfs e0 el x1 x2.
have [c hc [szc c0 cs]] := cumulative_spec hl.
have cE i : (i < bs_order s)%N -> c i = fsum (bs_order s - i) (fun j => l (i + j)%N).
  case: i => [|i] ik; last exact: cs.
  by rewrite c0 subn0 -one; apply: eq_fsum.
exists l, c; split=> //; split=> // i j ij jk.
have ge0 m t : (m + t <= bs_order s)%N -> 0 <= fsum t (fun u => l (m + u)%N).
  move=> le; apply: fsum_ge0 => u ut; apply: pos; lia.
have mono a b' : (a <= b')%N -> (b' < bs_order s)%N -> c b' <= c a.
  move=> ab bk; rewrite (cE b') // (cE a); last by lia.
  have -> : (bs_order s - a = (b' - a) + (bs_order s - b'))%N by lia.
  rewrite fsum_cat.
  rewrite [X in _ <= _ + X](eq_fsum (g := fun u => l (b' + u)%N)); last first.
    by move=> u _; congr (l _); lia.
  by rewrite ler_addr ge0 //; lia.
split; first by rewrite cE // ge0 //; lia.
  exact: mono.
by rewrite -c0 mono //; lia.
Qed.

(* getBiVector lists the first numValidTimeSegments() of the weights *)
Lemma BiVector_weight s x : wf s -> 0 < eps -> eps <= last_len s -> tmin s <= x -> x <= tmax s ->
  exists w : nat -> F, exists2 b, getBiVector eps s x = Ok b &
  [/\ dv_size b = numValidTimeSegments (bs_order s) (size (bs_knots s)),
      (dv_size b < bs_ncoef s)%N,
      (forall j, (j < dv_size b)%N -> b j = w j)
    & forall C : mat F, exists2 v, eval eps (with_coef s C) x = Ok v & forall r,
      v r = fsum (bs_ncoef s) (fun j => w j * C r j)].
Proof.
move=> wfs e0 el x1 x2; have hk := wf_order wfs; have hn := wf_size wfs; have hc := wf_cols wfs.
have [l [b [v [hl hb _ [sz _ _] _]]]] := localBi_all wfs e0 el x1 x2.
exists (BiVector b l 0); rewrite /getBiVector hb /= hl /=.
eexists; first by reflexivity.
split=> //=.
  by rewrite /numValidTimeSegments; move: hk hn hc; clear; lia.
move=> C; have [l' [b' [v' [hl' hb' hv' _ Hv']]]] :=
  localBi_all (wf_with_coef wfs C) e0 el x1 x2.
exists v' => // r; rewrite Hv'.
have e1 : Ok l = Ok l' by rewrite -hl -hl'.
have e2 : Ok b = Ok b' by rewrite -hb -hb'.
case: e1 => <-; case: e2 => <- /=.
have bN : (b + bs_order s <= bs_ncoef s)%N.
  move: hb; rewrite /segmentIndex.
  have [i [seg _ _ _ [ki iN _]]] := valid_segment wfs e0 el x1 x2.
  rewrite (computeTIndexE wfs seg) /= ki /= => -[<-].
  rewrite /basisMatrixIndexFromStartingKnotIndex; move: ki iN hc; clear; lia.
rewrite [RHS](fsum_window (r0 := b) (m := bs_order s)) //.
  apply: eq_fsum => c ck; rewrite /BiVector ltnNge leq_addr /= addKn sz ck //.
move=> j jC; rewrite negb_and -!ltnNge => h; rewrite /BiVector; case: ifP => h1.
  by rewrite mul0r.
rewrite sz; case: ifP => h2; last by rewrite mul0r.
by move: h h1 h2; clear; lia.
Qed.

Lemma cumulativeBiVector s x : wf s -> 0 < eps -> eps <= last_len s -> tmin s <= x -> x <= tmax s ->
  exists w : nat -> F, exists2 b, getCumulativeBiVector eps s x = Ok b &
  [/\ dv_size b = numValidTimeSegments (bs_order s) (size (bs_knots s)),
      (forall j, (j < dv_size b)%N -> b j = fsum (bs_ncoef s - j) (fun m => w (j + m)%N))
    & forall C : mat F, exists2 v, eval eps (with_coef s C) x = Ok v & forall r,
      v r = fsum (bs_ncoef s) (fun j => w j * C r j)].
Proof.
move=> wfs e0 el x1 x2; have hk := wf_order wfs; have hn := wf_size wfs; have hc := wf_cols wfs.
have [w [bv hbv [sz1 _ Hw HC]]] := BiVector_weight wfs e0 el x1 x2.
have [l [b [v [hl hb _ [sz _ one] _]]]] := localBi_all wfs e0 el x1 x2.
have [l' [c [hl' hc' szc cE [c0 _]]]] := cumulative_all wfs e0 el x1 x2.
have e1 : Ok l = Ok l' by rewrite -hl -hl'.
case: e1 => e1; subst l'.
exists (BiVector b l 0); rewrite /getCumulativeBiVector hb /= hc' /=; eexists; first by reflexivity.
have bN : (b + bs_order s <= bs_ncoef s)%N.
  move: hb; rewrite /segmentIndex.
  have [i [seg _ _ _ [ki iN _]]] := valid_segment wfs e0 el x1 x2.
  rewrite (computeTIndexE wfs seg) /= ki /= => -[<-].
  rewrite /basisMatrixIndexFromStartingKnotIndex; move: ki iN hc; clear; lia.
split=> //=; last first.
  move=> C; have [l' [b' [v' [hl2 hb2 hv' _ Hv']]]] :=
    localBi_all (wf_with_coef wfs C) e0 el x1 x2.
  exists v' => // r; rewrite Hv'.
  have e1 : Ok l = Ok l' by rewrite -hl -hl2.
  have e2 : Ok b = Ok b' by rewrite -hb -hb2.
  case: e1 => <-; case: e2 => <- /=.
  rewrite [RHS](fsum_window (r0 := b) (m := bs_order s)) //.
    apply: eq_fsum => j jk; rewrite /BiVector ltnNge leq_addr /= addKn sz jk //.
  move=> j jC; rewrite negb_and -!ltnNge => h; rewrite /BiVector; case: ifP => h1.
    by rewrite mul0r.
  rewrite sz; case: ifP => h2; last by rewrite mul0r.
  by move: h h1 h2; clear; lia.
move=> j jN; rewrite {1}/BiVector szc.
have bi m : BiVector b l 0 (b + m)%N = if (m < bs_order s)%N then l m else 0.
  by rewrite /BiVector ltnNge leq_addr /= addKn sz.
case: ifP => jb.
  have jC : (j <= b)%N by move: jb; clear; lia.
  rewrite (fsum_window (r0 := (b - j)%N) (m := bs_order s)).
  - rewrite -one; apply: eq_fsum => m mk.
    by rewrite addnA subnKC // bi mk.
  - move: jC bN; clear; lia.
  move=> m mN h; rewrite /BiVector; case: ifP => // h1; rewrite sz; case: ifP => // h2.
  move: h h1 h2 jC; clear; lia.
have bj : (b <= j)%N by rewrite leqNgt jb.
have ej m : (j + m = b + (j - b + m))%N by move: bj; clear; lia.
case: ifP => h2; last first.
  rewrite fsum0 // => m _; rewrite ej bi.
  by rewrite (_ : (j - b + m < _)%N = false) //; move: h2; clear; lia.
rewrite cE // [RHS](fsum_window (r0 := 0%N) (m := (bs_order s - (j - b))%N)).
- apply: eq_fsum => m mk; rewrite add0n ej bi.
  by rewrite (_ : (j - b + m < _)%N = true) //; move: h2 mk; clear; lia.
- move: bN bj h2; clear; lia.
move=> m mC h; rewrite ej bi.
by rewrite (_ : (j - b + m < _)%N = false) //; move: h2 h; clear; lia.
Qed.

(* knot verification works when the stored knot vector has the length of the new one *)
Lemma verify_detects (s : bspline F) ks : size (bs_knots s) = size ks ->
  verifyKnotSequence s ks = Ok tt -> sorted <=%R ks.
Proof.
move=> sz; rewrite /verifyKnotSequence /sm_assert; case: ifP => // _; rewrite sz => H.
apply/(sortedP 0) => i iN.
suff : forall m, (m <= size ks)%N ->  oloop 1 m (fun i _ => need (i < size ks)%N ;
    assert (nth 0 ks i.-1 <= nth 0 ks i) raise ExnSpline ; Ok tt) tt = Ok tt ->
    forall j, (j.+1 < m)%N -> nth 0 ks j <= nth 0 ks j.+1.
  by move=> /(_ _ (leqnn _) H); apply.
elim=> [//|m IH] mN; have [->|m0] := posnP m; first by [].
rewrite oloopSr //; case e : (oloop _ _ _ _) => [[]|//|//] /=.
rewrite mN /sm_assert /=; case: ifP => // le _ j; rewrite ltnS leq_eqVlt => /orP[/eqP jm|lt].
  by move: le; rewrite -jm.
exact: (IH (ltnW mN) e).
Qed.

Lemma verify_no_ub (s : bspline F) ks : (size (bs_knots s) <= size ks)%N ->
  verifyKnotSequence s ks = Ok tt \/ verifyKnotSequence s ks = Throw ExnSpline.
Proof.
move=> le; rewrite /verifyKnotSequence /sm_assert; case: ifP => _; last by right.
case: (posnP (size (bs_knots s))) => [z|nz]; first by left; rewrite oloop_nil // z.
rewrite /oloop.
apply: (@floop_ind _ 1 (size (bs_knots s)) _ (Ok tt)
   (fun _ o => o = Ok tt \/ o = Throw ExnSpline)) => //; first by left.
move=> i o /andP[i1 i2] [->|->] /=; last by right.
rewrite (leq_trans i2 le) /=; case: ifP => _; by [left|right].
Qed.

Lemma setKnots_rejects (s : bspline F) ks c : size (bs_knots s) = size ks ->
  ~~ sorted <=%R ks -> setKnotsAndCoefficients s ks c = Throw ExnSpline.
Proof.
move=> sz ns; rewrite /setKnotsAndCoefficients.
have [h|->//] := @verify_no_ub s ks (eq_leq sz).
by move: (verify_detects sz h); rewrite (negbTE ns).
Qed.

(* on a fresh object nothing but the length is checked *)
Lemma setKnots_fresh (k : nat) (s0 : bspline F) ks c : bs_new F k = Ok s0 ->
  (2 * k <= size ks)%N -> (dm_cols c + k = size ks)%N ->
  setKnotsAndCoefficients s0 ks c = Ok (BSpline k ks c (initializeBasisMatrices k ks)).
Proof.
rewrite /bs_new /sm_assert; case: ifP => // k2 [<-] h1 h2.
rewrite /setKnotsAndCoefficients /verifyKnotSequence /=.
have -> : (minimumKnotsRequired k <= size ks)%N.
  by rewrite /minimumKnotsRequired /numKnotsRequired /numCoefficientsRequired;
     move: h1 k2; clear; lia.
rewrite /= (_ : (_ == _) = true) //.
by rewrite /numCoefficientsRequired /numValidTimeSegments; move: h1 h2 k2; clear; lia.
Qed.

(* a longer stored knot vector makes the check read past the end of the argument *)
Lemma setKnots_shorter_ub (s : bspline F) ks c :
  (minimumKnotsRequired (bs_order s) <= size ks)%N -> sorted <=%R ks -> (0 < size ks)%N ->
  (size ks < size (bs_knots s))%N -> setKnotsAndCoefficients s ks c = UB.
Proof.
move=> mn so z lt; rewrite /setKnotsAndCoefficients /verifyKnotSequence mn /=.
suff -> : oloop 1 (size (bs_knots s)) (fun i _ => need (i < size ks)%N ;
    assert (nth 0 ks i.-1 <= nth 0 ks i) raise ExnSpline ; Ok tt) tt = UB by [].
have H1 : oloop 1 (size ks) (fun i _ => need (i < size ks)%N ;
    assert (nth 0 ks i.-1 <= nth 0 ks i) raise ExnSpline ; Ok tt) tt = Ok tt.
  have := @oloop_ind unit 1 (size ks) (fun i _ => need (i < size ks)%N ;
    assert (nth 0 ks i.-1 <= nth 0 ks i) raise ExnSpline ; Ok tt) tt (fun _ _ => True) z I.
  case=> [|[] -> //].
  move=> i u /andP[i1 i2] _; rewrite i2 /= (_ : nth 0 ks i.-1 <= nth 0 ks i) /=; first by exists tt.
  apply: (sorted_leq_nth le_trans lexx _ so); rewrite ?inE ?leq_pred //.
  by apply: leq_ltn_trans i2; rewrite leq_pred.
have [m ->] : exists m, size (bs_knots s) = (size ks + m).+1.
  by exists (size (bs_knots s) - (size ks).+1)%N; move: lt; clear; lia.
elim: m {lt} => [|m IH]; first by rewrite addn0 oloopSr // H1 /= ltnn.
by rewrite addnS oloopSr // IH.
Qed.

(* the snap zone next to t_max *)
Definition short_knots : seq F := [:: 0; 0; eps; eps + eps / 2%:R; eps + eps].
Definition short : bspline F :=
  BSpline 2 short_knots (DMat 1 3 (fun _ j => j%:R)) (initializeBasisMatrices 2 short_knots).

Lemma short_wf : 0 < eps -> wf short.
Proof.
move=> e0; split=> //=.
rewrite lexx (ltW e0) ler_addl ler_add2l /= divr_ge0 ?ler0n ?ltW //=.
by rewrite ltr_pdivr_mulr ?ltr0n // mulr_natr mulr2n ltr_addl.
Qed.

Lemma short_seg : 0 < eps -> segment_of eps short (eps * (3%:R / 4%:R)) 2.
Proof.
move=> e0; rewrite /segment_of /tmax /tmin /kn /=.
have -> : eps + eps / 2%:R - eps * (3%:R / 4%:R) = eps * (3%:R / 4%:R) by field.
have q0 : 0 <= eps * (3%:R / 4%:R) by rewrite mulr_ge0 ?ltW // divr_gt0 ?ltr0n.
rewrite ger0_norm // -[X in _ < X]mulr1 ltr_pmul2l // ltr_pdivr_mulr ?ltr0n //.
by rewrite mul1r ltr_nat.
Qed.

Lemma short_lookup : 0 < eps ->
  [/\ tmin short <= eps * (3%:R / 4%:R), eps * (3%:R / 4%:R) <= tmax short, 0 < last_len short
    & computeUAndTIndex eps short (eps * (3%:R / 4%:R)) = Ok (- 2%:R^-1, 2%N) /\
      eps * (3%:R / 4%:R) < kn short 2].
Proof.
move=> e0; have seg := short_seg e0; have w := short_wf e0.
have q1 : eps * (3%:R / 4%:R) < eps.
  by rewrite -[X in _ < X]mulr1 ltr_pmul2l // ltr_pdivr_mulr ?ltr0n // mul1r ltr_nat.
have h0 : 0 < eps / 2%:R by rewrite divr_gt0 ?ltr0n.
split=> //.
- by rewrite /tmin /kn /= mulr_ge0 ?ltW // divr_gt0 ?ltr0n.
- by rewrite /tmax /kn /= (le_trans (ltW q1)) // ler_addl ltW.
- by rewrite /last_len /tmax /kn /= addrAC subrr add0r.
split; last by rewrite /kn.
rewrite /computeUAndTIndex (computeTIndexE w seg) /kn /=.
rewrite addrAC subrr add0r leNgt h0 /=; congr (Ok (_, _)).
by field; rewrite gt_eqF.
Qed.

Lemma short_negative : 0 < eps ->
  exists2 l, getLocalBiVector eps short (eps * (3%:R / 4%:R)) = Ok l & l 1%N = - 2%:R^-1.
Proof.
move=> e0; have seg := short_seg e0; have w := short_wf e0.
have h0 : 0 < eps / 2%:R by rewrite divr_gt0 ?ltr0n.
have pos : kn short 2 < kn short 3 by rewrite /kn /= ltr_addl.
have [l hl [_ Hl]] := localBi_weight w seg pos; exists l => //.
rewrite Hl // /weight derivn0 /=.
rewrite [basis_poly _ 2 1 2]/basis_poly /= !hornerE /= /kn /=.
rewrite mulr0 addr0 [eps + _ - _]addrAC subrr add0r; field; by rewrite gt_eqF.
Qed.

End Cum.
