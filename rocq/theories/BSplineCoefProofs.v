(* Counts, set-up, linearity, locality, Jacobians and coefficient accessors. *)
From mathcomp Require Import all_ssreflect all_algebra.
From mathcomp.algebra_tactics Require Import ring.
From mathcomp.zify Require Import zify.
From Verif Require Import Prelude CoxDeBoor CoxDeBoorProofs BSplineModel BSplineSpec
  BSplineProofs BSplineEvalProofs BSplineAccessProofs.
Set Implicit Arguments.
Unset Strict Implicit.
Unset Printing Implicit Defensive.
Import GRing.Theory Num.Theory Order.Theory.
Local Open Scope ring_scope.

Lemma counts_roundtrip k s : (1 <= k)%N -> (1 <= s)%N ->
  numValidTimeSegments k (numKnotsRequired k s) = s.
Proof.
rewrite /numValidTimeSegments /numKnotsRequired /numCoefficientsRequired; lia.
Qed.

Lemma minimumKnots_least k n : (1 <= k)%N ->
  (0 < numValidTimeSegments k n)%N = (minimumKnotsRequired k <= n)%N.
Proof.
rewrite /minimumKnotsRequired /numValidTimeSegments /numKnotsRequired /numCoefficientsRequired.
lia.
Qed.

Section Setup.
Variable F : realFieldType.

Lemma verify_ok (s : bspline F) ks :
  verifyKnotSequence s ks = Ok tt -> (minimumKnotsRequired (bs_order s) <= size ks)%N.
Proof. by rewrite /verifyKnotSequence /sm_assert; case: ifP. Qed.

Lemma setKnots_ok (s s' : bspline F) ks c : (1 <= bs_order s)%N ->
  setKnotsAndCoefficients s ks c = Ok s' ->
  [/\ (2 * bs_order s <= size ks)%N, (dm_cols c + bs_order s = size ks)%N,
      bs_order s' = bs_order s, bs_knots s' = ks
    & bs_coef s' = c /\ bs_basis s' = initializeBasisMatrices (bs_order s) ks].
Proof.
move=> k1; rewrite /setKnotsAndCoefficients.
case e : (verifyKnotSequence s ks) => [[]|e0|] //=.
rewrite /sm_assert; case: eqP => // <- [<-] /=.
have := verify_ok e; rewrite /minimumKnotsRequired /numKnotsRequired /numCoefficientsRequired.
rewrite /numValidTimeSegments => h; split => //; lia.
Qed.

Lemma setKnots_wf (s s' : bspline F) ks c : (2 <= bs_order s)%N -> sorted <=%R ks ->
  setKnotsAndCoefficients s ks c = Ok s' -> wf s'.
Proof.
move=> k2 so h; have [|h1 h2 h3 h4 [h5 h6]] := setKnots_ok _ h; first by lia.
by split; rewrite ?h3 ?h4 ?h6 // /bs_ncoef h5.
Qed.

(* On a sorted vector of sufficient length the check passes, whatever the old knots were. *)
Lemma verify_sorted (s : bspline F) ks : sorted <=%R ks ->
  (minimumKnotsRequired (bs_order s) <= size ks)%N -> (size (bs_knots s) <= size ks)%N ->
  verifyKnotSequence s ks = Ok tt.
Proof.
move=> so mn le; rewrite /verifyKnotSequence mn /=.
have [z|nz] := posnP (size (bs_knots s)); first by rewrite oloop_nil // z.
have := @oloop_ind unit 1 (size (bs_knots s)) (fun i _ => need (i < size ks)%N ;
    assert (nth 0 ks i.-1 <= nth 0 ks i) raise ExnSpline ; Ok tt) tt (fun _ _ => True) nz I.
case=> [i u /andP[i1 i2] _|[] ->//].
have isz : (i < size ks)%N by apply: leq_trans le.
rewrite isz /= (_ : nth 0 ks i.-1 <= nth 0 ks i) /=; first by exists tt.
apply: (sorted_leq_nth le_trans lexx _ so); rewrite ?inE ?leq_pred //.
by apply: leq_ltn_trans isz; rewrite leq_pred.
Qed.

Lemma setKnots_succeeds (s : bspline F) ks c : (2 <= bs_order s)%N -> sorted <=%R ks ->
  (2 * bs_order s <= size ks)%N -> (dm_cols c + bs_order s = size ks)%N ->
  (size (bs_knots s) <= size ks)%N ->
  setKnotsAndCoefficients s ks c
  = Ok (BSpline (bs_order s) ks c (initializeBasisMatrices (bs_order s) ks)).
Proof.
move=> k2 so h1 h2 h3; rewrite /setKnotsAndCoefficients verify_sorted //=; last first.
  rewrite /minimumKnotsRequired /numKnotsRequired /numCoefficientsRequired.
  move: (bs_order s) (size ks) k2 h1; lia.
rewrite /numCoefficientsRequired /numValidTimeSegments.
rewrite (_ : (_ == _) = true) //; apply/eqP.
move: (bs_order s) (size ks) (dm_cols c) k2 h1 h2; lia.
Qed.

(* when it does not crash, the number of coefficients is what decides *)
Lemma setKnots_throws (s : bspline F) ks c : (2 <= bs_order s)%N ->
  (size (bs_knots s) <= size ks)%N ->
  ~~ ((2 * bs_order s <= size ks)%N && (dm_cols c + bs_order s == size ks)%N) ->
  setKnotsAndCoefficients s ks c = Throw ExnSpline.
Proof.
move=> k2 le bad; rewrite /setKnotsAndCoefficients.
have NU : verifyKnotSequence s ks = Ok tt \/ verifyKnotSequence s ks = Throw ExnSpline.
  rewrite /verifyKnotSequence /sm_assert; case: ifP => _; last by right.
  case: (posnP (size (bs_knots s))) => [z|nz]; first by left; rewrite oloop_nil // z.
  rewrite /oloop.
  apply: (@floop_ind _ 1 (size (bs_knots s)) _ (Ok tt)
     (fun _ o => o = Ok tt \/ o = Throw ExnSpline)) => //; first by left.
  move=> i o /andP[i1 i2] [->|->] /=; last by right.
  rewrite (leq_trans i2 le) /=; case: ifP => _; by [left|right].
case: NU => h; rewrite h //= /sm_assert; case: eqP => // e.
have := verify_ok h; move: bad e.
rewrite /numCoefficientsRequired /numValidTimeSegments.
rewrite /minimumKnotsRequired /numKnotsRequired /numCoefficientsRequired; lia.
Qed.
End Setup.

Section Coef.
Variable F : realFieldType.
Variable eps : F.

Lemma computeTIndex_coef (s : bspline F) C x :
  computeTIndex eps (with_coef s C) x = computeTIndex eps s x.
Proof. by []. Qed.

(* evaluation with other coefficients: only the local columns are read *)
Lemma evalD_local (s : bspline F) (C : mat F) x d idx :
  localVvCoefficientVectorIndices eps s x = Ok idx ->
  (forall j r, j \in idx -> C r j = bs_coef s r j) ->
  orel (fun v w => forall r, v r = w r) (evalD eps s x d) (evalD eps (with_coef s C) x d).
Proof.
rewrite /localVvCoefficientVectorIndices /evalD /computeUAndTIndex computeTIndex_coef.
case: (computeTIndex eps s x) => [[w i]|e|] //=.
rewrite /ub_unless; case: ifP => // ki [<-] H.
have main u : orel (fun v w0 : vec F => forall r, v r = w0 r)
   (do b <- segment_access s i; Ok (mulv (bs_order s) (mulm (bs_order s)
        (get_block (bs_coef s) 0 b) (trm (basis_at s b))) u))
   (do b <- segment_access (with_coef s C) i; Ok (mulv (bs_order s) (mulm (bs_order s)
        (get_block (bs_coef (with_coef s C)) 0 b) (trm (basis_at (with_coef s C) b))) u)).
  rewrite /segment_access /with_coef /= ki /bs_ncoef /=.
  rewrite /ub_unless; case: ifP => //= _ r.
  apply: eq_fsum => q _; congr (_ * _); apply: eq_fsum => c ck.
  by rewrite /get_block add0n /= H // mem_iota leq_addr /= ltn_add2l.
case: ifP => _ /=; rewrite /computeU /= /ub_unless; case: ifP => //= _; exact: main.
Qed.

(* the part of evalD that does not depend on the coefficient values *)
Definition eval_window (s : bspline F) x d : outcome (vec F * nat) :=
  do ' (uval, idx) <- computeUAndTIndex eps s x ;
  do u <- computeU s uval idx d ;
  do b <- segment_access s idx ;
  Ok (u, b).

Lemma evalD_window (s : bspline F) C x d : evalD eps (with_coef s C) x d =
  do ' (u, b) <- eval_window s x d ;
  Ok (mulv (bs_order s) (mulm (bs_order s) (get_block C 0 b) (trm (basis_at s b))) u).
Proof.
rewrite /evalD /eval_window.
rewrite -[computeUAndTIndex eps (with_coef s C) x]/(computeUAndTIndex eps s x).
case: (computeUAndTIndex eps s x) => [[uval i]|e|] //=.
rewrite -[computeU (with_coef s C) uval i d]/(computeU s uval i d).
case: (computeU s uval i d) => [u|e|] //=.
rewrite -[segment_access (with_coef s C) i]/(segment_access s i).
by case: (segment_access s i).
Qed.

Lemma with_coef_id (s : bspline F) : with_coef s (bs_coef s) = s.
Proof. by case: s => k ks [r c g] bm. Qed.

Lemma evalD_linear (s : bspline F) (C1 C2 : mat F) (a b : F) x d v1 v2 :
  evalD eps (with_coef s C1) x d = Ok v1 -> evalD eps (with_coef s C2) x d = Ok v2 ->
  exists2 v, evalD eps (with_coef s (fun r j => a * C1 r j + b * C2 r j)) x d = Ok v
    & forall r, v r = a * v1 r + b * v2 r.
Proof.
rewrite !evalD_window; case: (eval_window s x d) => [[u b0]|e|] //=.
case=> <- [<-]; eexists; first by reflexivity.
move=> r; rewrite /mulv !fsum_mull -fsumD; apply: eq_fsum => q _.
rewrite !mulrA -mulrDl; congr (_ * _); rewrite /mulm !fsum_mull -fsumD; apply: eq_fsum => c _.
rewrite /get_block /= add0n; ring.
Qed.

Lemma set_cols_loop0 (m : nat) (f : nat -> vec F) (C : mat F) r j :
  floop 0 m (fun i (C : mat F) => set_col C i (f i)) C r j = if (j < m)%N then f j r else C r j.
Proof.
elim: m => [|m IH]; first by rewrite floop_nil.
rewrite floopSr // /set_col; case: eqP => [->|/eqP ne]; first by rewrite ltnS leqnn.
by rewrite IH; congr (if _ then _ else _); lia.
Qed.

(* coefficient vector layout *)
Lemma coefficientVectorE (s : bspline F) r j : (r < bs_dim s)%N -> (j < bs_ncoef s)%N ->
  coefficientVector s (j * bs_dim s + r)%N = bs_coef s r j.
Proof. by move=> rD jn; rewrite /coefficientVector /= segments_loop. Qed.

Section State.
Variable s : bspline F.
Hypothesis wfs : wf s.
Local Notation k := (bs_order s).
Local Notation n := (size (bs_knots s)).
Local Notation D := (bs_dim s).

Lemma wf_with_coef C : wf (with_coef s C).
Proof. by case: wfs => *; split. Qed.

Lemma evalD_translate (w : vec F) x i d v : segment_of eps s x i -> kn s i < kn s i.+1 ->
  evalD eps s x d = Ok v ->
  exists2 v', evalD eps (with_coef s (fun r j => bs_coef s r j + w r)) x d = Ok v'
    & forall r, v' r = v r + (if d == 0%N then w r else 0).
Proof.
move=> seg pos; have [ki iN] := segment_of_range wfs seg.
have [v0 -> Hv0] := evalD_weight wfs d seg pos => -[<-].
pose C : mat F := fun r j => bs_coef s r j + w r.
have -> : with_coef s (fun r j => bs_coef s r j + w r) = with_coef s C by [].
have [v' -> Hv'] := evalD_weight (wf_with_coef C) (s := with_coef s C) d seg pos; exists v' => // r.
rewrite Hv' Hv0 (eq_fsum (g := fun c => bs_coef s r (i.+1 - k + c)%N * weight s x i d c
   + w r * weight s x i d c)); last by move=> c _; rewrite /= /C mulrDl.
rewrite fsumD; congr (_ + _); rewrite -fsum_mull [bs_order _]/=; case: eqP => [->|/eqP d0].
  by rewrite (weight_partition wfs x ki iN pos) mulr1.
by rewrite (weight_partition_deriv wfs x _ ki iN pos) ?mulr0 // lt0n.
Qed.

Lemma const_coef_eval (v : vec F) x i d : segment_of eps s x i -> kn s i < kn s i.+1 ->
  (forall r j, (j < bs_ncoef s)%N -> bs_coef s r j = v r) ->
  exists2 v', evalD eps s x d = Ok v' & forall r, v' r = if d == 0%N then v r else 0.
Proof.
move=> seg pos Hc; have [ki iN] := segment_of_range wfs seg.
have [v0 -> Hv0] := evalD_weight wfs d seg pos; exists v0 => // r.
rewrite Hv0 (eq_fsum (g := fun c => v r * weight s x i d c)); last first.
  by move=> c ck; rewrite Hc //; have := wf_cols wfs; lia.
rewrite -fsum_mull; case: eqP => [->|/eqP d0].
  by rewrite (weight_partition wfs x ki iN pos) mulr1.
by rewrite (weight_partition_deriv wfs x _ ki iN pos) ?mulr0 // lt0n.
Qed.

Lemma localCoefficientVectorE x i : segment_of eps s x i ->
  exists2 c, localCoefficientVector eps s x = Ok c & dv_size c = (k * D)%N /\
    forall j r, (r < D)%N -> (j < k)%N -> c (j * D + r)%N = bs_coef s r (i.+1 - k + j)%N.
Proof.
move=> seg; have [ki iN] := segment_of_range wfs seg.
rewrite /localCoefficientVector (computeTIndexE wfs seg) /= (column_accessE wfs ki iN) /=.
eexists; first by reflexivity.
by split=> // j r rD jk /=; rewrite /stack_cols segments_loop // addnC.
Qed.

Lemma Phi_entries x i d : segment_of eps s x i ->
  exists u P, [/\ Phi eps s x d = Ok P,
    exists v J, evalDAndJacobian eps s x d =
       Ok (v, J, iota ((i.+1 - k) * D) (k * D)) /\
       (forall r c, (r < D)%N -> (c < k * D)%N -> J r c = P r c) /\
       (forall r, v r = fsum k (fun c => bs_coef s r (i.+1 - k + c)%N * u c)),
    forall r c, (r < D)%N -> (c < k * D)%N -> P r c = (r == (c %% D)%N)%:R * u (c %/ D)%N,
    (exists2 v, evalD eps s x d = Ok v &
       forall r, v r = fsum k (fun c => bs_coef s r (i.+1 - k + c)%N * u c))
    & kn s i < kn s i.+1 -> forall c, (c < k)%N -> u c = weight s x i d c].
Proof.
move=> seg; have [ki iN] := segment_of_range wfs seg.
have [uval [u [h1 h2 h3 h4]]] := eval_front wfs d seg.
exists (mulv k (trm (basis_at s (i.+1 - k))) u).
rewrite /Phi h1 /= h2 /= h3 /=; eexists; split; first by reflexivity.
- rewrite /evalDAndJacobian h1 /= h2 /= h3 /=; do 2 eexists; split; first by reflexivity.
  split=> [r c rD cD|r].
    rewrite (@diag_blocks_loop _ D k) // (@diag_blocks_loop _ D k) // => j; exact: mulnC.
  by apply: eq_fsum => c ck; rewrite /get_block add0n.
- by move=> r c rD cD; rewrite (@diag_blocks_loop _ D k) // => j; exact: mulnC.
- rewrite /evalD h1 /= h2 /= h3 /=; eexists; first by reflexivity.
  move=> r; rewrite /mulv /mulm.
  rewrite (eq_fsum (g := fun q => fsum k (fun c => bs_coef s r (i.+1 - k + c)%N *
     (basis_at s (i.+1 - k) q c * u q)))); last first.
    by move=> q _; rewrite fsum_mulr; apply: eq_fsum => c _; rewrite /get_block /trm add0n mulrA.
  by rewrite exchange_fsum; apply: eq_fsum => c ck; rewrite -fsum_mull.
by move=> pos c ck; rewrite -h4.
Qed.

(* set/get round trips *)
Lemma setCoefficientVectorE (c : dvec F) : dv_size c = (D * bs_ncoef s)%N ->
  exists2 s', setCoefficientVector s c = Ok s' &
  [/\ bs_order s' = k, bs_knots s' = bs_knots s, bs_basis s' = bs_basis s,
      bs_dim s' = D /\ bs_ncoef s' = bs_ncoef s
    & forall r j, (j < bs_ncoef s)%N -> bs_coef s' r j = c (j * D + r)%N].
Proof.
move=> sz; rewrite /setCoefficientVector sz eqxx /=; eexists; first by reflexivity.
split=> // r j jn /=.
by rewrite set_cols_loop0 jn.
Qed.

Lemma setCoefficientVector_bad (c : dvec F) : dv_size c != (D * bs_ncoef s)%N ->
  setCoefficientVector s c = Throw ExnSpline.
Proof. by rewrite /setCoefficientVector /sm_assert => /negPf ->. Qed.

Lemma set_get_coefficientVector c s' : setCoefficientVector s c = Ok s' ->
  dv_size (coefficientVector s') = dv_size c /\
  forall i, (i < dv_size c)%N -> coefficientVector s' i = c i.
Proof.
case: (eqVneq (dv_size c) (D * bs_ncoef s)%N) => [e|ne]; last by rewrite setCoefficientVector_bad.
have [s'' -> [h1 h2 h3 [h4 h5] h6]] := setCoefficientVectorE e => -[<-].
split=> [|i ic]; first by rewrite e /= -/(bs_ncoef _) -/(bs_dim _) h4 h5.
have D0 : (0 < D)%N by move: ic; rewrite e; case: (D).
have q : (i %/ D < bs_ncoef s)%N by rewrite ltn_divLR // mulnC -e.
have r : (i %% D < D)%N by rewrite ltn_mod.
rewrite [in LHS](divn_eq i D) -[X in (_ * X + _)%N]h4 coefficientVectorE ?h4 ?h5 //.
by rewrite h6 // -divn_eq.
Qed.

Lemma get_set_coefficientVector : exists2 s', setCoefficientVector s (coefficientVector s) = Ok s' &
  [/\ bs_order s' = k, bs_knots s' = bs_knots s, bs_basis s' = bs_basis s,
      bs_dim s' = D /\ bs_ncoef s' = bs_ncoef s
    & forall r j, (r < D)%N -> (j < bs_ncoef s)%N -> bs_coef s' r j = bs_coef s r j].
Proof.
have [//|s' -> [h1 h2 h3 h4 h5]] := @setCoefficientVectorE (coefficientVector s).
by exists s' => //; split=> // r j rD jn; rewrite h5 // coefficientVectorE.
Qed.

Lemma setLocalE x i (c : dvec F) : segment_of eps s x i -> dv_size c = (k * D)%N ->
  exists2 s', setLocalCoefficientVector eps s x c = Ok s' &
  [/\ bs_order s' = k, bs_knots s' = bs_knots s, bs_basis s' = bs_basis s,
      bs_dim s' = D /\ bs_ncoef s' = bs_ncoef s
    & forall r j, bs_coef s' r j = if ((i.+1 - k <= j) && (j < k + (i.+1 - k)))%N
        then c ((j - (i.+1 - k)) * D + r)%N else bs_coef s r j].
Proof.
move=> seg sz; have [ki iN] := segment_of_range wfs seg.
rewrite /setLocalCoefficientVector sz eqxx /= (computeTIndexE wfs seg) /= (column_accessE wfs ki iN) /=.
eexists; first by reflexivity.
by split=> // r j /=; rewrite set_cols_loop.
Qed.

Lemma setLocal_bad x (c : dvec F) : dv_size c != (k * D)%N ->
  setLocalCoefficientVector eps s x c = Throw ExnSpline.
Proof. by rewrite /setLocalCoefficientVector /sm_assert => /negPf ->. Qed.

Lemma set_get_local x i (c : dvec F) : segment_of eps s x i -> dv_size c = (k * D)%N ->
  exists s' c', [/\ setLocalCoefficientVector eps s x c = Ok s',
    localCoefficientVector eps s' x = Ok c', dv_size c' = dv_size c
    & forall j, (j < dv_size c)%N -> c' j = c j].
Proof.
move=> seg sz; have [ki iN] := segment_of_range wfs seg.
have [s' h [h1 h2 h3 [h4 h5] h6]] := setLocalE seg sz; exists s'.
have wf' : wf s'.
  by case: wfs => *; split; rewrite ?h1 ?h2 ?h3 ?h5.
have seg' : segment_of eps s' x i by move: seg; rewrite /segment_of /tmax /tmin /kn h1 h2.
have E := computeTIndexE wf' seg'; have A := column_accessE wf' (i := i).
rewrite /localCoefficientVector E /= A ?h1 ?h2 //=; eexists; split=> //.
  by rewrite /= h4.
move=> j jc; rewrite sz in jc.
have D0 : (0 < D)%N by move: jc; case: (D) => //; rewrite muln0.
have q : (j %/ D < k)%N by rewrite ltn_divLR.
have r : (j %% D < D)%N by rewrite ltn_mod.
rewrite /= {1}(divn_eq j D) h4 /stack_cols segments_loop // h6.
rewrite leq_addl ltn_add2r q /= addnK -divn_eq //.
Qed.
End State.
End Coef.
