(* Times of the valid interval and their segments; uniform knot vectors; constant splines. *)
From mathcomp Require Import all_ssreflect all_algebra.
From mathcomp.algebra_tactics Require Import ring.
From mathcomp.zify Require Import zify.
From Verif Require Import Prelude CoxDeBoor CoxDeBoorProofs BSplineModel BSplineSpec
  BSplineProofs BSplineEvalProofs BSplineAccessProofs BSplineCoefProofs.
Set Implicit Arguments.
Unset Strict Implicit.
Unset Printing Implicit Defensive.
Import GRing.Theory Num.Theory Order.Theory.
Local Open Scope ring_scope.

Section Valid.
Variable F : realFieldType.
Variable eps : F.
Variable s : bspline F.
Hypothesis wfs : wf s.
Local Notation k := (bs_order s).
Local Notation n := (size (bs_knots s)).

Lemma valid_segment x : 0 < eps -> eps <= last_len s -> tmin s <= x -> x <= tmax s ->
  exists i, [/\ segment_of eps s x i, kn s i < kn s i.+1, kn s i <= x, x <= kn s i.+1
     & [/\ (k <= i.+1)%N, (i + k < n)%N & x < kn s i.+1 \/ i.+1 = (n - k)%N]].
Proof.
move=> e0 el x1 x2; have hk := wf_order wfs; have hn := wf_size wfs.
have [|i seg] := segment_exists wfs e0 x1 (x := x).
  by apply: le_lt_trans x2 _; rewrite ltr_addl.
have [ki iN] := segment_of_range wfs seg; exists i.
move: (seg); rewrite {1}/segment_of; case: ifPn => [near [_ ie]|far [_ _ /andP[h1 h2]]].
  have iS : i.+1 = (n - k)%N by rewrite ie; lia.
  have lt : kn s i < kn s i.+1.
    by rewrite -subr_gt0 iS ie; exact: lt_le_trans e0 el.
  split=> //; last by split=> //; right.
    rewrite ie; apply/ltW; move: near; rewrite ger0_norm ?subr_ge0 // ltr_subl_addl => near.
    move: el; rewrite /last_len ler_subr_addl => q.
    by rewrite -(ltr_add2r eps); exact: le_lt_trans q near.
  by rewrite iS.
split=> //; [exact: le_lt_trans h1 h2|exact: ltW|split=> //; by left].
Qed.

(* below the snap zone no condition on the last segment is needed *)
Lemma far_segment x : 0 < eps -> tmin s <= x -> x <= tmax s - eps ->
  exists i, [/\ segment_of eps s x i, kn s i <= x, x < kn s i.+1,
     (k <= i.+1)%N & (i + k < n)%N].
Proof.
move=> e0 x1 x2; have [|i seg] := segment_exists wfs e0 x1 (x := x).
  by apply: (le_lt_trans x2); rewrite ltr_add2l; apply: lt_trans (e0); rewrite oppr_lt0.
have [ki iN] := segment_of_range wfs seg; exists i.
move: (seg); rewrite {1}/segment_of; case: ifPn => [near _|far [_ _ /andP[h1 h2]]]; last by [].
exfalso; move: near; rewrite ltNge => /negP; apply.
by apply: (le_trans _ (ler_norm _)); rewrite ler_subr_addr addrC -ler_subr_addr.
Qed.

Lemma computeU_range x i : segment_of eps s x i -> kn s i < kn s i.+1 ->
  kn s i <= x -> x <= kn s i.+1 ->
  exists u, [/\ computeUAndTIndex eps s x = Ok (u, i), 0 <= u, u <= 1
     & x = kn s i + u * (kn s i.+1 - kn s i)].
Proof.
move=> seg pos x1 x2; rewrite /computeUAndTIndex (computeTIndexE wfs seg) /=.
have d0 : 0 < kn s i.+1 - kn s i by rewrite subr_gt0.
rewrite leNgt d0 /=; eexists; split; first by reflexivity.
- by rewrite divr_ge0 ?subr_ge0 // ltW.
- by rewrite ler_pdivr_mulr // mul1r ler_add2r.
by rewrite mulfVK ?gt_eqF // addrC subrK.
Qed.

End Valid.

Section Uniform.
Variable F : realFieldType.

Lemma sorted_mkseq (f : nat -> F) m : (forall i, (i.+1 < m)%N -> f i <= f i.+1) ->
  sorted <=%R (mkseq f m).
Proof.
move=> H.
apply/(sortedP 0) => i; rewrite size_mkseq => im.
by rewrite !nth_mkseq ?H //; apply: ltnW.
Qed.

Lemma linspacedE (k m : nat) (t0 t1 : F) i : (2 <= k)%N -> (1 <= m)%N ->
  (i < numKnotsRequired k m)%N ->
  let dt := (t1 - t0) / m%:R in
  nth 0 (linspaced (numKnotsRequired k m) (t0 - (k%:R - 1) * dt) (t1 + (k%:R - 1) * dt)) i
  = t0 + (i%:R - (k%:R - 1)) * dt.
Proof.
move=> k2 m1 iK dt; rewrite nth_mkseq //.
have m0 : m%:R != 0 :> F by rewrite pnatr_eq0 -lt0n.
have eK : ((numKnotsRequired k m).-1)%:R = m%:R + 2%:R * (k%:R - 1) :> F.
  rewrite /numKnotsRequired /numCoefficientsRequired.
  have -> : (m + k - 1 + k).-1 = (m + 2 * k.-1)%N by lia.
  rewrite natrD natrM; congr (_ + _ * _).
  by rewrite -[in RHS](@prednK k) ?(ltnW k2) // mulrS addrC addKr.
have K0 : ((numKnotsRequired k m).-1)%:R != 0 :> F.
  by rewrite pnatr_eq0; rewrite /numKnotsRequired /numCoefficientsRequired; lia.
have -> : t1 + (k%:R - 1) * dt - (t0 - (k%:R - 1) * dt) = ((numKnotsRequired k m).-1)%:R * dt.
  by rewrite eK /dt; field.
rewrite mulrAC mulfV // mul1r; ring.
Qed.

Lemma uniform_knotsE k K (t0 dt : F) i : (i < K)%N ->
  nth 0 (uniform_knots k K t0 dt) i = t0 + (i%:R - (k%:R - 1)) * dt.
Proof. by move=> iK; rewrite nth_mkseq //; congr (_ + _ * _); ring. Qed.

Lemma linspaced_sorted K (lo hi : F) : lo <= hi -> sorted <=%R (linspaced K lo hi).
Proof.
move=> le; apply: sorted_mkseq => i _; rewrite ler_add2l ler_wpmul2r ?ler_nat //.
by rewrite divr_ge0 ?subr_ge0 ?ler0n.
Qed.

Lemma uniform_sorted k K (t0 dt : F) : 0 <= dt -> sorted <=%R (uniform_knots k K t0 dt).
Proof.
move=> d0; apply: sorted_mkseq => i _; rewrite ler_add2l ler_wpmul2r //.
by rewrite !ler_add2r ler_nat.
Qed.

Lemma initConstantSplineE (s : bspline F) t0 t1 m (v : dvec F) :
  (2 <= bs_order s)%N -> (size (bs_knots s) <= numKnotsRequired (bs_order s) m)%N ->
  t0 < t1 -> (1 <= m)%N -> (1 <= dv_size v)%N ->
  exists2 s', initConstantSpline s t0 t1 m v = Ok s' &
  [/\ wf s', bs_order s' = bs_order s /\ size (bs_knots s') = numKnotsRequired (bs_order s) m,
      bs_dim s' = dv_size v,
      (forall r j, (j < bs_ncoef s')%N -> bs_coef s' r j = v r)
    & forall i, (i < numKnotsRequired (bs_order s) m)%N ->
        kn s' i = t0 + (i%:R - ((bs_order s)%:R - 1)) * ((t1 - t0) / m%:R)].
Proof.
move=> k2 old lt m1 v1; rewrite /initConstantSpline lt m1 v1 /=.
set ks := linspaced _ _ _; set c := DMat _ _ _.
have so : sorted <=%R ks.
  have h : 0 <= ((bs_order s)%:R - 1) * ((t1 - t0) / m%:R).
    by rewrite mulr_ge0 ?divr_ge0 ?subr_ge0 ?ler0n ?ler1n ?(ltnW k2) // ltW.
  apply: linspaced_sorted; apply: (@le_trans _ _ t0); first by rewrite ger_addl oppr_le0.
  by apply: (le_trans (ltW lt)); rewrite ler_addl.
have sz : size ks = numKnotsRequired (bs_order s) m by rewrite size_mkseq.
have e := @setKnots_succeeds F s ks c k2 so.
rewrite e ?sz //; first last.
  rewrite /numKnotsRequired /numCoefficientsRequired; move: (bs_order s) k2 m1; lia.
eexists; first by reflexivity.
split=> //=.
- split=> //=; rewrite ?sz /numKnotsRequired /numCoefficientsRequired.
  + move: (bs_order s) k2 m1; lia.
- by move=> r j jn; rewrite set_cols_loop0 jn.
move=> i iK; rewrite /kn /= /ks linspacedE //.
Qed.
End Uniform.
