(* Coefficient views by segment and by time, time intervals, and the matrix form
   U^T M c of the spline. *)
From mathcomp Require Import all_ssreflect all_algebra.
From mathcomp.algebra_tactics Require Import ring.
From mathcomp.zify Require Import zify.
From Verif Require Import Prelude CoxDeBoor CoxDeBoorProofs BSplineModel BSplineSpec
  BSplineProofs BSplineEvalProofs BSplineAccessProofs BSplineCoefProofs BSplineQuadProofs.
Set Implicit Arguments.
Unset Strict Implicit.
Unset Printing Implicit Defensive.
Import GRing.Theory Num.Theory Order.Theory.
Local Open Scope ring_scope.
#[local] Arguments fsum : simpl never.

Section Views.
Variable F : realFieldType.
Variable eps : F.
Variable s : bspline F.
Hypothesis wfs : wf s.
Local Notation k := (bs_order s).
Local Notation n := (size (bs_knots s)).
Local Notation D := (bs_dim s).
Local Notation nseg := (numValidTimeSegments k n).

Lemma nseg_cols i : (i < nseg)%N -> (i + k <= bs_ncoef s)%N.
Proof.
rewrite /numValidTimeSegments; have := wf_cols wfs; have := wf_order wfs.
move: k n (bs_ncoef s) => a b c; clear; lia.
Qed.

Lemma segmentCoefficientVectorE i : (i < nseg)%N ->
  exists2 c, segmentCoefficientVector s i = Ok c & dv_size c = (k * D)%N /\
    forall j r, (r < D)%N -> (j < k)%N -> c (j * D + r)%N = bs_coef s r (i + j)%N.
Proof.
move=> iN; rewrite /segmentCoefficientVector iN nseg_cols //=.
eexists; first by reflexivity.
by split=> // j r rD jk /=; rewrite /stack_cols segments_loop // addnC.
Qed.

Lemma segment_views i : (i < nseg)%N ->
  exists c idx vidx, [/\
    segmentCoefficientVector s i = Ok c /\ dv_size c = (k * D)%N,
    forall j r, (r < D)%N -> (j < k)%N -> c (j * D + r)%N = bs_coef s r (i + j)%N,
    segmentCoefficientVectorIndices s i = Ok idx /\ size idx = (k * D)%N,
    (forall p, (p < k * D)%N -> (nth 0%N idx p < dv_size (coefficientVector s))%N /\
       coefficientVector s (nth 0%N idx p) = c p)
    & segmentVvCoefficientVectorIndices s i = Ok vidx /\ size vidx = k /\
      forall j, (j < k)%N -> exists2 v, vvCoefficientVector s (nth 0%N vidx j) = Ok v &
        dv_size v = D /\ forall r, (r < D)%N -> v r = c (j * D + r)%N].
Proof.
move=> iN; have [c cE [sc Hc]] := segmentCoefficientVectorE iN.
have icol := nseg_cols iN.
exists c, (iota (i * D) (k * D)), (iota i k); split.
- by [].
- exact: Hc.
- by rewrite /segmentCoefficientVectorIndices iN size_iota.
- move=> p pk; rewrite nth_iota //.
  have D0 : (0 < D)%N by move: pk; case: (D) => //; rewrite muln0.
  have qk : (p %/ D < k)%N by rewrite ltn_divLR.
  have rD : (p %% D < D)%N by rewrite ltn_pmod.
  have e : (i * D + p = (i + p %/ D) * D + p %% D)%N by rewrite mulnDl -addnA -divn_eq.
  split.
    rewrite /= [(D * bs_ncoef s)%N]mulnC; apply: (@leq_trans (i * D + k * D)%N); first by rewrite ltn_add2l.
    by rewrite -mulnDl leq_mul2r icol orbT.
  rewrite e coefficientVectorE //; last by apply: leq_trans icol; rewrite ltn_add2l.
  by rewrite -(Hc _ _ rD qk) -divn_eq.
rewrite /segmentVvCoefficientVectorIndices iN size_iota; split=> //; split=> // j jk.
rewrite nth_iota // /vvCoefficientVector.
have -> /= : (i + j < bs_ncoef s)%N by apply: leq_trans icol; rewrite ltn_add2l.
by eexists; [reflexivity|]; split=> // r rD /=; rewrite Hc.
Qed.

Lemma local_views x i : segment_of eps s x i ->
  [/\ (k <= i.+1)%N /\ (i.+1 - k < nseg)%N,
      localCoefficientVector eps s x = segmentCoefficientVector s (i.+1 - k),
      localCoefficientVectorIndices eps s x = segmentCoefficientVectorIndices s (i.+1 - k),
      localVvCoefficientVectorIndices eps s x = segmentVvCoefficientVectorIndices s (i.+1 - k)
    & exists2 C, localCoefficientMatrix eps s x = Ok C &
        [/\ dm_rows C = D, dm_cols C = k
          & forall r j, C r j = bs_coef s r (i.+1 - k + j)%N]].
Proof.
move=> seg; have [ki iN] := segment_of_range wfs seg.
have lt : (i.+1 - k < nseg)%N.
  move: ki iN; have := wf_order wfs; rewrite /numValidTimeSegments.
  move: k n => a b; clear; lia.
have tE := computeTIndexE wfs seg.
split=> //.
- by rewrite /localCoefficientVector tE /= (column_accessE wfs ki iN) /=
     /segmentCoefficientVector lt nseg_cols.
- by rewrite /localCoefficientVectorIndices tE /= ki /= /segmentCoefficientVectorIndices lt.
- by rewrite /localVvCoefficientVectorIndices tE /= ki /= /segmentVvCoefficientVectorIndices lt.
rewrite /localCoefficientMatrix tE /= (column_accessE wfs ki iN) /=.
by eexists; [reflexivity|]; split=> // r j /=; rewrite /get_block.
Qed.

Lemma segment_bad i : (nseg <= i)%N ->
  [/\ segmentCoefficientVector s i = Throw ExnRuntime,
      segmentCoefficientVectorIndices s i = Throw ExnRuntime,
      segmentVvCoefficientVectorIndices s i = Throw ExnRuntime,
      basisMatrix s i = Throw ExnSpline
    & timeInterval_i s i = Throw ExnSpline].
Proof.
move=> h; rewrite /segmentCoefficientVector /segmentCoefficientVectorIndices
  /segmentVvCoefficientVectorIndices /basisMatrix /timeInterval_i.
by rewrite ltnNge h (min_knots wfs).
Qed.

Lemma vv_read i : (i < bs_ncoef s)%N -> exists2 v, vvCoefficientVector s i = Ok v &
  dv_size v = D /\ forall r, v r = bs_coef s r i.
Proof. by move=> h; rewrite /vvCoefficientVector h /=; eexists; first by reflexivity. Qed.

Lemma vv_write i v : (i < bs_ncoef s)%N ->
  exists2 s', vvCoefficientVector_write s i v = Ok s' &
  [/\ wf s', bs_order s' = k /\ bs_knots s' = bs_knots s, bs_dim s' = D,
      (exists2 v', vvCoefficientVector s' i = Ok v' & forall r, v' r = v r)
    & bs_ncoef s' = bs_ncoef s /\
      forall j r, j != i -> bs_coef s' r j = bs_coef s r j].
Proof.
move=> h; rewrite /vvCoefficientVector_write h /=; eexists; first by reflexivity.
split=> //.
- exact: wf_with_coef.
- rewrite /vvCoefficientVector /= h /=; eexists; first by reflexivity.
  by move=> r /=; rewrite /set_col eqxx.
- by split=> // j r ne /=; rewrite /set_col (negbTE ne).
Qed.

Lemma vv_bad i v : (bs_ncoef s <= i)%N ->
  vvCoefficientVector s i = Throw ExnSpline /\
  vvCoefficientVector_write s i v = Throw ExnSpline.
Proof. by move=> h; rewrite /vvCoefficientVector /vvCoefficientVector_write ltnNge h. Qed.

Lemma setCoefficientMatrixE (C : dmat F) :
  setCoefficientMatrix s C =
  if (dm_rows C == D) && (dm_cols C == bs_ncoef s)
  then Ok (BSpline k (bs_knots s) C (bs_basis s)) else Throw ExnSpline.
Proof.
rewrite /setCoefficientMatrix eq_sym; case: eqP => //= _.
by rewrite eq_sym; case: eqP.
Qed.

Lemma intervalsE :
  [/\ timeInterval s = Ok (tmin s, tmax s), (0 < nseg)%N,
      (exists b, timeInterval_i s 0 = Ok (tmin s, b)),
      (exists a, timeInterval_i s nseg.-1 = Ok (a, tmax s))
    & forall i, (i.+1 < nseg)%N -> exists a b c,
        timeInterval_i s i = Ok (a, b) /\ timeInterval_i s i.+1 = Ok (b, c)].
Proof.
have hk := wf_order wfs; have hn := wf_size wfs.
have np : (0 < nseg)%N by rewrite /numValidTimeSegments; move: hk hn; move: k n => a b; clear; lia.
have tiE i : (i < nseg)%N -> timeInterval_i s i = Ok (kn s (k + i - 1), kn s (k + i)%N).
  move=> iN; rewrite /timeInterval_i (min_knots wfs) iN /=.
  have -> // : (k + i < n)%N.
  by move: iN hk; rewrite /numValidTimeSegments; move: k n => a b; clear; lia.
split=> //.
- by rewrite /timeInterval (t_minE wfs) (t_maxE wfs).
- by rewrite tiE // /tmin addn0 subn1; eexists.
- rewrite tiE ?prednK // /tmax; exists (kn s (k + nseg.-1 - 1)).
  congr (Ok (_, kn s _)).
  by move: np hk hn; rewrite /numValidTimeSegments; move: k n => a b; clear; lia.
move=> i iN; rewrite !tiE ?(ltnW iN) //.
exists (kn s (k + i - 1)), (kn s (k + i)%N), (kn s (k + i.+1)%N).
by rewrite !addnS !subn1.
Qed.

Lemma interval_local i a b x : (i < nseg)%N -> timeInterval_i s i = Ok (a, b) ->
  a <= x -> x < b -> eps <= `|tmax s - x| ->
  segment_of eps s x (k + i - 1).
Proof.
move=> iN; have [ib i2 ki ikn ik] := segment_facts wfs iN.
rewrite /timeInterval_i (min_knots wfs) iN /=.
have -> /= : (k + i < n)%N by move: ikn (wf_order wfs); move: k n => a1 b1; clear; lia.
case=> <- <- ax xb e; rewrite /segment_of ltNge e /=.
by split=> //; rewrite ik ax xb.
Qed.
End Views.

Section MatrixForm.
Variable F : realFieldType.
Variable eps : F.
Variable s : bspline F.
Hypothesis wfs : wf s.
Local Notation k := (bs_order s).
Local Notation n := (size (bs_knots s)).
Local Notation D := (bs_dim s).
Local Notation nseg := (numValidTimeSegments k n).

Lemma blocks_loop (f : vec F) m r p c : (r < m)%N -> (p < k)%N ->
  floop 0 m (fun i (U : mat F) => set_block U (i * k) i k 1 (fun r _ => f r)) zerom
    (r * k + p)%N c = (r == c)%:R * f p.
Proof.
move=> rm pk.
suff H : forall m, floop 0 m (fun i (U : mat F) => set_block U (i * k) i k 1 (fun r _ => f r)) zerom
    (r * k + p)%N c = (r < m)%N%:R * ((r == c)%:R * f p) by rewrite H rm mul1r.
elim=> [|m' IH]; first by rewrite floop_nil // mul0r.
rewrite floopSr //.
have e (A : mat F) : set_block A (m' * k) m' k 1 (fun r _ => f r) (r * k + p)%N c =
   set_block A (m' * k) (m' * 1) k 1 (fun r _ => f r) (r * k + p)%N (c * 1 + 0)%N.
  by rewrite !muln1 addn0.
rewrite e set_block_grid // muln1 addn0 IH.
have [->|ne] := eqVneq r m'.
  by rewrite ltnn ltnSn [c == m']eq_sym; case: eqP => _ /=; rewrite ?mul0r ?mul1r.
by rewrite [in RHS]ltnS [in RHS]leq_eqVlt (negbTE ne).
Qed.

Lemma diag_loop (B : mat F) m r p c q : (r < m)%N -> (p < k)%N -> (q < k)%N ->
  floop 0 m (fun d (M : mat F) => set_block M (d * k) (d * k) k k B) zerom
    (r * k + p)%N (c * k + q)%N = (r == c)%:R * B p q.
Proof.
move=> rm pk qk.
suff H : forall m, floop 0 m (fun d (M : mat F) => set_block M (d * k) (d * k) k k B) zerom
    (r * k + p)%N (c * k + q)%N = (r < m)%N%:R * ((r == c)%:R * B p q) by rewrite H rm mul1r.
elim=> [|m' IH]; first by rewrite floop_nil // mul0r.
rewrite floopSr // set_block_grid // IH.
have [->|ne] := eqVneq r m'.
  by rewrite ltnn ltnSn [c == m']eq_sym; case: eqP => _ /=; rewrite ?mul0r ?mul1r.
by rewrite [in RHS]ltnS [in RHS]leq_eqVlt (negbTE ne).
Qed.

(* the power vector and its derivative: u_{d+1} = Dii^T u_d *)
Lemma computeU0 uval i d u : ~~ (kn s i < kn s i.+1) -> computeU s uval i d = Ok u ->
  forall q, u q = 0.
Proof.
move=> np; rewrite /computeU; case: (i.+1 < n)%N => //= -[<-] q.
rewrite subr_gt0 (negbTE np).
have [dk|kd] := leqP d k; last by rewrite floop_nil ?(ltnW kd).
apply: (@floop_ind _ d k _ _ (fun i0 (st : vec F * F) => forall q, st.1 q = 0)) => //.
by move=> j [v uu] _ /= H q'; rewrite /upd; case: ifP; rewrite ?mul0r.
Qed.

Lemma computeU_step uval i d u u' Dm : (i < nseg)%N ->
  computeU s uval (k + i - 1) d = Ok u -> computeU s uval (k + i - 1) d.+1 = Ok u' ->
  Dii s i = Ok Dm -> forall q, (q < k)%N -> u' q = fsum k (fun p => Dm p q * u p).
Proof.
move=> iN uE u'E DE q qk; have [ib i2 ki ikn ik] := segment_facts wfs iN.
have [Dm' DE' HD] := Dii_entries wfs ib i2; move: DE'; rewrite DE => -[eD].
rewrite -eD in HD; clear eD Dm'.
have [pos|np] := boolP (kn s (k + i - 1)%N < kn s (k + i)%N); last first.
  rewrite (computeU0 _ u'E) ?ik //; symmetry; apply: fsum0 => p pk.
  by rewrite HD // (negbTE np) mulr0; case: ifP; rewrite mul0r.
have kn1 : ((k + i - 1).+1 < n)%N by move: ikn (wf_order wfs); clear; move: k n => a b; lia.
have [v vE Hv] := computeUE uval d kn1; move: vE; rewrite uE => -[eu]; rewrite -eu in Hv.
have [v' v'E Hv'] := computeUE uval d.+1 kn1; move: v'E; rewrite u'E => -[eu']; rewrite -eu' in Hv'.
clear eu eu' v v'; rewrite ik in Hv Hv'.
rewrite Hv' //; case: q qk => [|q] qk.
  rewrite ffact0n !mul0r; symmetry; apply: fsum0 => p pk.
  by rewrite HD //= mul0r.
rewrite (fsum_pick (j := q)) ?(ltnW qk) //; last first.
  move=> p pk ne; rewrite HD //; rewrite eqSS eq_sym (negbTE ne) /= mul0r //.
rewrite HD ?(ltnW qk) // eqxx qk /= pos Hv ?(ltnW qk) //.
rewrite ffactnS /= subSS exprS natrM; ring.
Qed.

Lemma U_entries x i d : segment_of eps s x i ->
  exists uval u U, [/\ computeUAndTIndex eps s x = Ok (uval, i), computeU s uval i d = Ok u,
    U_mat eps s x d = Ok U
    & forall r p c, (r < D)%N -> (p < k)%N -> U (r * k + p)%N c = (r == c)%:R * u p].
Proof.
move=> seg; have [uval [u [e1 e2 _ _]]] := eval_front wfs d seg.
exists uval, u; rewrite /U_mat /u_vec e1 /= e2 /=; eexists; split; [by []|by []|by reflexivity|].
by move=> r p c rD pk; rewrite blocks_loop.
Qed.

Lemma sum_grid (m : nat) (f : nat -> F) :
  fsum (m * k) f = fsum m (fun r => fsum k (fun p => f (r * k + p)%N)).
Proof.
elim: m => [|m IH]; first by rewrite mul0n.
by rewrite mulSnr fsum_cat IH.
Qed.

Lemma U_derivative x i d : segment_of eps s x (k + i - 1) -> (i < nseg)%N ->
  exists U U' Dm, [/\ U_mat eps s x d = Ok U, U_mat eps s x d.+1 = Ok U', Di s i = Ok Dm
    & forall a c, (a < D * k)%N -> (c < D)%N ->
       U' a c = fsum (D * k) (fun b => Dm b a * U b c)].
Proof.
move=> seg iN; have [ib i2 _ _ _] := segment_facts wfs iN.
have [uval [u [U [e1 e2 UE HU]]]] := U_entries d seg.
have [uval' [u' [U' [e1' e2' U'E HU']]]] := U_entries d.+1 seg.
move: e1'; rewrite e1 => -[eu]; rewrite -eu in e2'.
have [Dd DE HD] := Dii_entries wfs ib i2.
exists U, U'; rewrite /Di DE /=; eexists; split; [by []|by []|by reflexivity|].
move=> a c aDk cD; have k0 : (0 < k)%N by move: (wf_order wfs); clear; lia.
have rD : (a %/ k < D)%N by rewrite ltn_divLR.
have qk : (a %% k < k)%N by rewrite ltn_pmod.
move: rD qk; rewrite {3 4}(divn_eq a k); move: (a %/ k)%N (a %% k)%N => r q rD qk.
rewrite HU' // (computeU_step iN e2 e2' DE qk) sum_grid.
rewrite [RHS](fsum_pick (j := r)) //; last first.
  move=> r' r'D ne; apply: fsum0 => p pk.
  by rewrite diag_loop // (negbTE ne) !mul0r.
rewrite fsum_mull; apply: eq_fsum => p pk.
rewrite diag_loop // eqxx mul1r HU //; ring.
Qed.

(* u^T M_i c for one output row *)
Lemma matrix_form x i d : segment_of eps s x (k + i - 1) -> (i < nseg)%N ->
  exists U M c v, [/\ U_mat eps s x d = Ok U, Mi s i = Ok M,
    localCoefficientVector eps s x = Ok c, evalD eps s x d = Ok v
    & forall r, (r < D)%N -> v r =
       fsum (D * k) (fun a => U a r * fsum (k * D) (fun b => M a b * c b))].
Proof.
move=> seg iN; have [ib i2 ki _ ik] := segment_facts wfs iN.
have [uval [u [U [e1 e2 UE HU]]]] := U_entries d seg.
have [M ME HM] := Mi_entries ib.
have [c cE [_ Hc]] := localCoefficientVectorE wfs seg.
have sa : segment_access s (k + i - 1) = Ok i.
  by have [? [? [_ _ -> _]]] := eval_front wfs 0%N seg; rewrite ik addKn.
have ci : ((k + i - 1).+1 - k = i)%N by rewrite ik addKn.
rewrite ci in Hc.
have vE : evalD eps s x d = Ok (mulv k (mulm k (get_block (bs_coef s) 0 i) (trm (basis_at s i))) u).
  by rewrite -{1}(with_coef_id s) evalD_window /eval_window e1 /= e2 /= sa.
exists U, M, c; eexists; split; [by []|by []|by []|exact: vE|].
move=> r rD; rewrite sum_grid (fsum_pick (j := r)) //; last first.
  move=> r' r'D ne; apply: fsum0 => p pk.
  by rewrite HU // (negbTE ne) !mul0r.
rewrite /mulv; apply: eq_fsum => p pk; rewrite HU // eqxx mul1r mulrC; congr (_ * _).
have -> : fsum (k * D) (fun b => M (r * k + p)%N b * c b)
   = fsum k (fun j => fsum D (fun q => M (r * k + p)%N (j * D + q)%N * c (j * D + q)%N)).
  have H m (f : nat -> F) : fsum (m * D) f = fsum m (fun r => fsum D (fun p => f (r * D + p)%N)).
    elim: m => [|m IH]; first by rewrite mul0n.
    by rewrite mulSnr fsum_cat IH.
  by rewrite H.
rewrite /mulm /trm /get_block; apply: eq_fsum => j jk.
rewrite (fsum_pick (j := r)) //; last first.
  by move=> q qD ne; rewrite HM // eq_sym (negbTE ne) !mul0r.
by rewrite HM // eqxx mul1r Hc // add0n mulrC.
Qed.

Lemma basisMatrixE i : (i < nseg)%N -> exists B M, [/\ basisMatrix s i = Ok B, Mi s i = Ok M
  & forall r p j c, (r < D)%N -> (p < k)%N -> (j < k)%N -> (c < D)%N ->
      M (r * k + p)%N (j * D + c)%N = (r == c)%:R * B p j].
Proof.
move=> iN; have [ib _ _ _ _] := segment_facts wfs iN.
have [M ME HM] := Mi_entries ib; exists (basis_at s i), M; split=> //.
by rewrite /basisMatrix iN ib.
Qed.

Lemma interval_vertices i a b x : (i < nseg)%N -> timeInterval_i s i = Ok (a, b) ->
  a <= x -> x < b -> eps <= `|tmax s - x| ->
  localVvCoefficientVectorIndices eps s x = segmentVvCoefficientVectorIndices s i.
Proof.
move=> iN tE ax xb e; have seg := interval_local wfs iN tE ax xb e.
have [_ _ _ _ ik] := segment_facts wfs iN.
by have [_ _ _ -> _] := local_views wfs seg; rewrite ik addKn.
Qed.

Lemma set_matrix (C : dmat F) :
  (if (dm_rows C == D) && (dm_cols C == bs_ncoef s)
   then exists2 s', setCoefficientMatrix s C = Ok s' &
     [/\ wf s', bs_order s' = k, bs_knots s' = bs_knots s & bs_coef s' = C]
   else setCoefficientMatrix s C = Throw ExnSpline).
Proof.
rewrite setCoefficientMatrixE; case: andP => // -[_ /eqP cC].
eexists; first by reflexivity.
split=> //; case: wfs => h1 h2 h3 h4 h5; split=> //=.
by rewrite /bs_ncoef /= cC.
Qed.

Lemma segment_index x : 0 < eps -> tmin s <= x -> x < tmax s + eps ->
  exists i, [/\ (i < nseg)%N, segment_of eps s x (k + i - 1)
    & localVvCoefficientVectorIndices eps s x = Ok (iota i k)].
Proof.
move=> e0 h1 h2; have [i seg] := segment_exists wfs e0 h1 h2.
have [[ki iN] _ _ lE _] := local_views wfs seg.
exists (i.+1 - k)%N; split=> //.
- by rewrite subnKC // subn1.
- by rewrite lE /segmentVvCoefficientVectorIndices iN.
Qed.

Lemma time_matrix_form x d : 0 < eps -> tmin s <= x -> x < tmax s + eps ->
  exists i U M c v, [/\
    localVvCoefficientVectorIndices eps s x = Ok (iota i k),
    U_mat eps s x d = Ok U /\ Mi s i = Ok M,
    localCoefficientVector eps s x = Ok c, evalD eps s x d = Ok v
    & forall r, (r < D)%N -> v r =
       fsum (D * k) (fun a => U a r * fsum (k * D) (fun b => M a b * c b))].
Proof.
move=> e0 h1 h2; have [i [iN seg lE]] := segment_index e0 h1 h2.
have [U [M [c [v [e1 e2 e3 e4 H]]]]] := matrix_form d seg iN.
by exists i, U, M, c, v; split.
Qed.

Lemma time_U_derivative x d : 0 < eps -> tmin s <= x -> x < tmax s + eps ->
  exists i U U' Dm, [/\
    localVvCoefficientVectorIndices eps s x = Ok (iota i k),
    U_mat eps s x d = Ok U, U_mat eps s x d.+1 = Ok U', Di s i = Ok Dm
    & forall a c, (a < D * k)%N -> (c < D)%N ->
       U' a c = fsum (D * k) (fun b => Dm b a * U b c)].
Proof.
move=> e0 h1 h2; have [i [iN seg lE]] := segment_index e0 h1 h2.
have [U [U' [Dm [e1 e2 e3 H]]]] := U_derivative d seg iN.
by exists i, U, U', Dm; split.
Qed.

Lemma basis_function i j x : (i < nseg)%N -> (j < k)%N ->
  exists a b B, [/\ timeInterval_i s i = Ok (a, b), basisMatrix s i = Ok B
  & a < b -> fsum k (fun q => B q j * ((x - a) / (b - a)) ^+ q)
    = (basis_poly (kn s) (k + i - 1) k.-1 (i + j)).[x]].
Proof.
move=> iN jk; have [ib i2 ki ikn ik] := segment_facts wfs iN.
have h1 := wf_order wfs; have h2 := wf_size wfs.
exists (kn s (k + i - 1)%N), (kn s (k + i)%N), (basis_at s i); split.
- rewrite /timeInterval_i (min_knots wfs) iN /=.
  by have -> : (k + i < n)%N by move: ikn h1; clear; move: k n => a b; lia.
- by rewrite /basisMatrix iN ib.
move=> pos'; have pos : kn s (k + i - 1)%N < kn s (k + i - 1).+1 by rewrite ik.
rewrite (basis_nth wfs); [|by move: ikn h1 h2; clear; move: k n => a b; lia..].
have -> : (i + k - 1 = k + i - 1)%N by rewrite addnC.
have e2 : (k + i - 1 - k.-1 + j = i + j)%N by move: h1; clear; move: k => a; lia.
rewrite -e2 -(Mmat_poly (N := n) (kn_mono wfs) pos) //;
  [|by move: ikn h1 h2 jk; clear; move: k n => a b; lia..].
have -> : (k.-1.+1 = k)%N by move: h1; clear; case: (k).
rewrite !fsumE horner_sum; apply: eq_bigr => q _ /=.
by rewrite hornerZ horner_exp; congr (_ * _ ^+ _); rewrite /lin !hornerE mulrC ik.
Qed.
End MatrixForm.
