(* Value, Jacobian, Phi and coefficient indices fit together; curve as a function. *)
From mathcomp Require Import all_ssreflect all_algebra.
From mathcomp.algebra_tactics Require Import ring.
From mathcomp.zify Require Import zify.
From Verif Require Import Prelude CoxDeBoor CoxDeBoorProofs BSplineModel BSplineSpec
  BSplineProofs BSplineEvalProofs BSplineAccessProofs BSplineCoefProofs BSplineInitProofs.
Set Implicit Arguments.
Unset Strict Implicit.
Unset Printing Implicit Defensive.
Import GRing.Theory Num.Theory Order.Theory.
Local Open Scope ring_scope.

Section Jac.
Variable F : realFieldType.
Variable eps : F.
Variable s : bspline F.
Hypothesis wfs : wf s.
Local Notation k := (bs_order s).
Local Notation n := (size (bs_knots s)).
Local Notation D := (bs_dim s).

Lemma jacobian_all x d : 0 < eps -> tmin s <= x -> x < tmax s + eps ->
  exists v J idx P lc v', [/\ evalDAndJacobian eps s x d = Ok (v, J, idx),
     [/\ evalD eps s x d = Ok v', Phi eps s x d = Ok P, localCoefficientVector eps s x = Ok lc
       & localCoefficientVectorIndices eps s x = Ok idx],
     [/\ forall r, v r = v' r,
         forall r c, (r < D)%N -> (c < k * D)%N -> J r c = P r c
       & forall r, (r < D)%N -> mulv (k * D) P lc r = v r],
     [/\ size idx = (k * D)%N, uniq idx &
         forall q, (q < k * D)%N -> (nth 0 idx q < dv_size (coefficientVector s))%N /\
            lc q = coefficientVector s (nth 0%N idx q)]
   & forall dC : mat F, exists2 v2,
       evalD eps (with_coef s (fun r j => bs_coef s r j + dC r j)) x d = Ok v2 &
       forall r, (r < D)%N -> v2 r - v r =
         fsum (k * D) (fun q => J r q * coefficientVector (with_coef s dC) (nth 0%N idx q))].
Proof.
move=> e0 x1 x2; have [i seg] := segment_exists wfs e0 x1 x2.
have [ki iN] := segment_of_range wfs seg.
have [lc hlc [szlc Hlc]] := localCoefficientVectorE wfs seg.
have [u [P [hP [v [J [hJ [JP Hv]]]] HP [v' hv' Hv'] _]]] := Phi_entries wfs d seg.
set idx := iota _ _ in hJ.
have hidx : localCoefficientVectorIndices eps s x = Ok idx.
  by rewrite /localCoefficientVectorIndices (computeTIndexE wfs seg) /= ki.
have nthi q : (q < k * D)%N -> nth 0%N idx q = ((i.+1 - k) * D + q)%N.
  by move=> qk; rewrite nth_iota.
have hc := wf_cols wfs.
have posq q : (q < k * D)%N -> [/\ (0 < D)%N, (q %/ D < k)%N, (q %% D < D)%N
    & ((i.+1 - k) * D + q = (i.+1 - k + q %/ D) * D + q %% D)%N].
  move=> qk; have D0 : (0 < D)%N by move: qk; case: (D) => //; rewrite muln0.
  split=> //; [by rewrite ltn_divLR|by rewrite ltn_mod|].
  by rewrite mulnDl -addnA -divn_eq.
have colb q : (q < k * D)%N -> (i.+1 - k + q %/ D < bs_ncoef s)%N.
  move=> qk; have [_ h _ _] := posq _ qk; lia.
have mulP (w : nat -> F) r : (r < D)%N ->
   mulv (k * D) P w r = fsum k (fun j => w (j * D + r)%N * u j).
  by move=> rD; apply: diag_blocks_mulv => // c ck; apply: HP.
exists v, J, idx, P, lc, v'; split=> //.
- split=> //; first by move=> r; rewrite Hv Hv'.
  move=> r rD; rewrite mulP // Hv; apply: eq_fsum => j jk; by rewrite Hlc.
- split; rewrite ?size_iota ?iota_uniq // => q qk; rewrite nthi //.
  have [D0 h1 h2 ->] := posq _ qk; split.
    rewrite /=; apply: (@leq_trans ((i.+1 - k + q %/ D).+1 * D)).
      by rewrite mulSnr ltn_add2l.
    by rewrite mulnC leq_mul2l colb // orbT.
  rewrite coefficientVectorE ?colb // -Hlc //; congr (lc _); exact: divn_eq.
move=> dC; set C : mat F := fun r j => bs_coef s r j + dC r j.
have [u2 [P2 [hP2 _ HP2 [v2 hv2 Hv2] _]]] := Phi_entries (wf_with_coef wfs C) (s := with_coef s C) d seg.
have PP : P2 = P.
  have : Phi eps (with_coef s C) x d = Phi eps s x d by [].
  by rewrite hP2 hP => -[].
exists v2 => // r rD.
have uu j : (j < k)%N -> u2 j = u j.
  move=> jk; have jD : (j * D + r < k * D)%N.
    by apply: (@leq_trans (j.+1 * D)); [rewrite mulSnr ltn_add2l|rewrite leq_mul2r jk orbT].
  have D0 : (0 < D)%N by apply: leq_ltn_trans rD.
  have := HP2 r (j * D + r)%N rD jD; rewrite PP HP //.
  rewrite [bs_dim (with_coef _ _)]/bs_dim /= -/(bs_dim s) modnMDl modn_small // eqxx !mul1r.
  by rewrite divnMDl // divn_small // addn0.
rewrite Hv2 Hv -fsumB /=.
have -> : fsum (k * D) (fun q => J r q * coefficientVector (with_coef s dC) (nth 0%N idx q))
  = mulv (k * D) P (fun q => coefficientVector (with_coef s dC) ((i.+1 - k) * D + q)%N) r.
  by apply: eq_fsum => q qk; rewrite JP // nthi.
rewrite mulP //; apply: eq_fsum => j jk; rewrite uu // /C addnA -mulnDl.
rewrite -[X in (_ * X + _)%N]/(bs_dim (with_coef s dC)) coefficientVectorE //=; first ring.
rewrite -/(bs_ncoef (with_coef s dC)) /with_coef /bs_ncoef /= -/(bs_ncoef s); lia.
Qed.

Lemma curve_fun_piece r i x : (k <= i.+1)%N -> (i + k < n)%N -> kn s i <= x -> x < kn s i.+1 ->
  curve_fun (kn s) k.-1 (bs_ncoef s) (fun j => bs_coef s r j) x = (spline_piece s r i).[x].
Proof.
move=> ki iN x1 x2; rewrite /curve_fun /spline_piece /curve_piece horner_sum.
have hc := wf_cols wfs; have hk := wf_order wfs.
apply: eq_bigr => j _; rewrite hornerZ; congr (_ * _).
apply: (basis_fun_poly (N := n) (kn_mono wfs)) => //; have := ltn_ord j; lia.
Qed.

Lemma piece_size r i : (size (spline_piece s r i) <= k)%N.
Proof.
have hk := wf_order wfs; rewrite /spline_piece /curve_piece.
apply: (leq_trans (size_sum _ _ _)); apply/bigmax_leqP => j _.
apply: leq_trans (size_scale_leq _ _) _.
have := size_basis_poly (kn s) i k.-1 j; by have -> : (k.-1.+1 = k)%N by lia.
Qed.
End Jac.
