(* removeCurveSegment: the first knot and coefficient are dropped, the basis matrices stay. *)
From mathcomp Require Import all_ssreflect all_algebra.
From mathcomp.algebra_tactics Require Import ring.
From mathcomp.zify Require Import zify.
From Verif Require Import Prelude CoxDeBoor CoxDeBoorProofs BSplineModel BSplineSpec BSplineProofs
  BSplineEvalProofs BSplineAccessProofs BSplineCoefProofs Examples.
Set Implicit Arguments.
Unset Strict Implicit.
Unset Printing Implicit Defensive.
Import GRing.Theory Num.Theory Order.Theory.
Local Open Scope ring_scope.

Section Matrices.
Variable F : realFieldType.
Implicit Types t : nat -> F.

Lemma Mmat_shift t k i r c : (k <= i.+1)%N ->
  Mmat (fun j => t j.+1) k i r c = Mmat t k i.+1 r c.
Proof.
elim: k r c => [//|[|k] IH] r c ki; first by [].
have ki' : (k.+1 <= i.+1)%N by apply: ltnW.
rewrite !MmatS.
have e idx : (i.+1 + 2 + idx - k.+2 = (i + 2 + idx - k.+2).+1)%N by move: ki; clear; lia.
have d0 idx : d_0 (fun j => t j.+1) k.+2 i (i + 2 + idx - k.+2) =
              d_0 t k.+2 i.+1 (i.+1 + 2 + idx - k.+2).
  by rewrite /d_0 e addSn !addnS !subn1.
have d1 idx : d_1 (fun j => t j.+1) k.+2 i (i + 2 + idx - k.+2) =
              d_1 t k.+2 i.+1 (i.+1 + 2 + idx - k.+2).
  by rewrite /d_1 e addSn !addnS !subn1.
congr (_ + _); apply: eq_fsum => x _; congr (_ * _).
- by case: ifP => // _; apply: IH.
- by rewrite /M_A d0.
- by case: ifP => // _; apply: IH.
by rewrite /M_B d1.
Qed.

Lemma Mmat_translate t h k i r c : Mmat (fun j => t j + h) k i r c = Mmat t k i r c.
Proof.
elim: k r c => [//|[|k] IH] r c; first by [].
have tr a b : t a + h - (t b + h) = t a - t b by ring.
rewrite !MmatS; congr (_ + _); apply: eq_fsum => x _; congr (_ * _).
- by case: ifP.
- by rewrite /M_A /d_0 !tr.
- by case: ifP.
by rewrite /M_B /d_1 !tr.
Qed.

(* order 2: the matrix does not depend on the knots *)
Lemma Mmat2 t i r c : t i < t i.+1 -> (0 < i)%N ->
  Mmat t 2 i r c = ((r == 0%N) && (c == 0%N))%:R
   + (if r == 1%N then (if c == 0%N then -1 else if c == 1%N then 1 else 0) else 0).
Proof.
move=> pos i0; rewrite MmatS /mulm /= !add0r /M_A /M_B.
have -> : (i + 2 + 0 - 2 = i)%N by clear; lia.
have -> : d_0 t 2 i i = 0 by rewrite /d_0 subrr mul0r if_same.
have -> : d_1 t 2 i i = 1.
  rewrite /d_1; have -> : (i + 2 - 1 = i.+1)%N by clear; lia.
  by rewrite subr_le0 leNgt pos /= divff // subr_eq0 gt_eqF.
by case: r => [|[|r]]; case: c => [|[|c]]; rewrite /= ?Mmat1 /= ?mul0r ?mul1r ?mulr0 ?addr0 ?add0r ?subr0.
Qed.
End Matrices.

Section Remove.
Variable F : realFieldType.
Variable eps : F.
Hypothesis e0 : 0 < eps.
Variable s : bspline F.
Hypothesis wfs : wf s.
Local Notation k := (bs_order s).
Local Notation n := (size (bs_knots s)).
Hypothesis big : (2 * k < n)%N.
Local Notation s' := (removeCurveSegment s).

Lemma remove_parts : [/\ bs_order s' = k, size (bs_knots s') = n.-1,
  bs_ncoef s' = (bs_ncoef s).-1, bs_basis s' = bs_basis s &
  (forall j, kn s' j = kn s j.+1) /\ forall r j, bs_coef s' r j = bs_coef s r j.+1].
Proof.
have hc := wf_cols wfs.
have h1 : (0 < n)%N by move: big; clear; lia.
have h2 : (0 < bs_ncoef s)%N by move: big hc; clear; lia.
rewrite /removeCurveSegment h1 h2 /=; split=> //; first by rewrite size_behead.
by split=> [j|r j]; [rewrite /kn nth_behead|].
Qed.

Lemma remove_interval : tmin s' = kn s k /\ tmax s' = tmax s.
Proof.
have [o1 n1 _ _ [K _]] := remove_parts; have hk := wf_order wfs.
rewrite /tmin /tmax o1 n1 !K prednK; last by move: hk; clear; lia.
by split=> //; congr (kn s _); move: hk big; clear; lia.
Qed.

Lemma remove_keeps x d :
  (forall i, (k <= i.+1)%N -> (i.+1 + k < n)%N -> kn s i.+1 < kn s i.+2 ->
     forall r c, (r < k)%N -> (c < k)%N -> Mmat (kn s) k i r c = Mmat (kn s) k i.+1 r c) ->
  0 < last_len s -> tmin s' <= x -> x < tmax s' + eps ->
  exists v v', [/\ evalD eps s x d = Ok v, evalD eps s' x d = Ok v' & forall r, v' r = v r].
Proof.
move=> HM l0; have [o1 n1 c1 b1 [K1 C1]] := remove_parts.
have hk := wf_order wfs; have hc := wf_cols wfs; have so := wf_sorted wfs.
pose s2 := BSpline (bs_order s') (bs_knots s') (bs_coef s') (initializeBasisMatrices k (bs_knots s')).
have wf2 : wf s2.
  split=> //=; rewrite ?o1 ?n1 //; [by move: big; clear; lia| |].
    rewrite /removeCurveSegment; case: ifP => //= _.
    by case: (bs_knots s) so => //= a l; exact: path_sorted.
  by rewrite -[bs_ncoef s2]/(bs_ncoef s') c1; move: hc big hk; clear; lia.
move=> x1 x2; have [i seg2] := @segment_exists _ eps s2 wf2 x e0 x1 x2.
have [tn tx] := remove_interval.
have [ik iN] := segment_of_range wf2 seg2; rewrite /= o1 n1 in ik iN.
have t2 : tmax s2 = tmax s by rewrite -tx.
have seg : segment_of eps s x i.+1.
  move: seg2; rewrite /segment_of t2; case: ifP => _.
    move=> [y1 ->]; rewrite /= o1 n1; split; last by move: big hk; clear; lia.
    apply: le_trans y1; rewrite -[tmin s2]/(tmin s') tn; apply: (kn_mono wfs); first exact: leq_pred.
    by move: big hk; clear; lia.
  move=> [_ _]; rewrite -![kn s2 _]/(kn s' _) !K1 => hx; split=> //; first by apply: ltnW.
  by move: iN; clear; lia.
have [uval [u [h1 h2 h3 _]]] := eval_front wfs d seg.
have pos : kn s i.+1 < kn s i.+2.
  move: (seg); rewrite {1}/segment_of; case: ifP => [_ [_ e]|_ [_ _ /andP[]]]; last exact: le_lt_trans.
  have -> : i.+2 = (n - k)%N by move: e iN; clear; lia.
  by rewrite e -subr_gt0.
rewrite /evalD h1 /= h2 /= h3 /=; eexists; eexists; split; first by reflexivity.
  have -> : computeUAndTIndex eps s' x = Ok (uval, i).
    move: h1; rewrite -[computeUAndTIndex eps s' x]/(computeUAndTIndex eps s2 x) /computeUAndTIndex.
    rewrite (computeTIndexE wfs seg) (computeTIndexE wf2 seg2) /=.
    rewrite -![kn s2 _]/(kn s' _) !K1; by case: ifP => _ [<-].
  rewrite /=; have -> : computeU s' uval i d = Ok u.
    move: h2; rewrite /computeU o1 !K1 n1.
    have -> : (i.+1 < n.-1)%N by move: iN hk; clear; lia.
    by have -> : (i.+2 < n)%N by move: iN hk; clear; lia.
  rewrite /= /segment_access o1 ik /= b1 c1.
  rewrite (size_basis wfs).
  have -> : (i.+1 - k < n.+1 - 2 * k)%N by move: iN ik; clear; lia.
  have -> : (i.+1 - k + k <= (bs_ncoef s).-1)%N by move: iN ik hc; clear; lia.
  by rewrite /= -/(basis_at s' _) /basis_at b1 -/(basis_at s _); reflexivity.
move=> r; apply: eq_fsum => q qk; congr (_ * _); apply: eq_fsum => c ck.
rewrite /get_block /trm C1 !add0n; have -> : (i.+2 - k = (i.+1 - k).+1)%N by rewrite subSn.
congr (_ * _); rewrite !(basis_nth wfs); try by move: iN ik hk; clear; lia.
have -> : (i.+1 - k + k - 1 = i)%N by move: ik; clear; lia.
have -> : ((i.+1 - k).+1 + k - 1 = i.+1)%N by move: ik; clear; lia.
by apply: HM => //; move: iN; clear; lia.
Qed.

Lemma remove_uniform x d h : (forall j, (j.+1 < n)%N -> kn s j.+1 = kn s j + h) ->
  0 < last_len s -> tmin s' <= x -> x < tmax s' + eps ->
  exists v v', [/\ evalD eps s x d = Ok v, evalD eps s' x d = Ok v' & forall r, v' r = v r].
Proof.
move=> Hu; apply: remove_keeps => i ik iN _ r c _ _.
rewrite -Mmat_shift // -(Mmat_translate (kn s) h); apply: M_ext => // j _ ji.
by rewrite Hu //; move: iN ji; clear; lia.
Qed.

Lemma remove_order2 x d : k = 2%N -> (forall j, (j.+1 < n)%N -> kn s j < kn s j.+1) ->
  tmin s' <= x -> x < tmax s' + eps ->
  exists v v', [/\ evalD eps s x d = Ok v, evalD eps s' x d = Ok v' & forall r, v' r = v r].
Proof.
move=> k2 Hp; apply: remove_keeps.
  move=> i ik iN _ r c _ _; rewrite k2 !Mmat2 //; try by apply: Hp; move: iN; rewrite k2; clear; lia.
  by move: ik; rewrite k2; clear; lia.
rewrite /last_len /tmax; have e : (n - k = (n - k).-1.+1)%N by move: big; rewrite k2; clear; lia.
by rewrite [X in kn s X - _]e subr_gt0; apply: Hp; move: big; rewrite k2; clear; lia.
Qed.
End Remove.

Lemma ok_at_ne (o : outcome (vec Q)) r q : (if o is Ok v then v r != q else false) ->
  exists2 v, o = Ok v & v r != q.
Proof. by case: o => // v; exists v. Qed.

Lemma ok_at_eq (o : outcome (vec Q)) r q : ok_at o r q -> exists2 v, o = Ok v & v r = q.
Proof. by case: o => // v /eqP h; exists v. Qed.

(* order 3, knots 0 0 1 2 4 5 6: the value at t = 3 changes *)
Lemma remove_refuted : exists (s : bspline Q) x v v',
  [/\ wf s, tmin (removeCurveSegment s) <= x <= tmax (removeCurveSegment s),
      eps0 <= last_len s
    & [/\ eval eps0 s x = Ok v, eval eps0 (removeCurveSegment s) x = Ok v' & v 0%N != v' 0%N]].
Proof.
have [v hv Hv] := ok_at_eq ex3_value.
have [|v' hv' Hv'] := @ok_at_ne (evalD eps0 (removeCurveSegment ex3) 3%:R 0) 0 (13%:R / 3%:R).
  by vm_compute.
exists ex3, 3%:R, v, v'; split; [exact: ex3_wf|by vm_compute|exact: ex3_last|].
by split; [exact: hv|exact: hv'|rewrite Hv eq_sym].
Qed.
