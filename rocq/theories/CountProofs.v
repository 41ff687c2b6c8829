(* Counting functions: prepared derivatives, basis matrix indices, integration points. *)
From mathcomp Require Import all_ssreflect all_algebra.
From mathcomp.zify Require Import zify.
From Verif Require Import Prelude CoxDeBoor BSplineModel BSplineSpec DMModel IntegratorModel IntegratorProofs.
Set Implicit Arguments.
Unset Strict Implicit.
Unset Printing Implicit Defensive.
Import GRing.Theory Num.Theory Order.Theory.
Local Open Scope ring_scope.

Lemma prepared_bound static k imax : (dm_numPrepared static k imax <= k.+1)%N.
Proof. by case: imax => [m|] //; rewrite /dm_numPrepared; case: static => //; lia. Qed.
Lemma prepared_count k m : (m <= k)%N -> dm_numPrepared true k (Some m) = m.+1.
Proof. by move=> mk; rewrite /dm_numPrepared (minn_idPl mk). Qed.

Lemma basis_index (F : realFieldType) (s : bspline F) b : wf s ->
  (b < size (bs_basis s))%N ->
  let i := startingKnotIndexFromBasisMatrixIndex (bs_order s) b in
  [/\ basisMatrixIndexFromStartingKnotIndex (bs_order s) i = b,
      (bs_order s <= i.+1)%N, (i + bs_order s < size (bs_knots s))%N &
      nth (fun _ _ => 0) (bs_basis s) b = Mmat (nth 0 (bs_knots s)) (bs_order s) i].
Proof.
move=> w; have eb := wf_basis w; have k0 := wf_order w.
rewrite eb /initializeBasisMatrices size_mkseq /numValidTimeSegments => hb.
rewrite /startingKnotIndexFromBasisMatrixIndex /basisMatrixIndexFromStartingKnotIndex; split.
- by move: k0; clear; lia.
- by move: k0; clear; lia.
- by move: k0 hb; clear; lia.
by rewrite nth_mkseq // addnC.
Qed.
Lemma basis_index_inv (F : realFieldType) (s : bspline F) i : wf s ->
  (bs_order s <= i.+1)%N -> (i + bs_order s < size (bs_knots s))%N ->
  let b := basisMatrixIndexFromStartingKnotIndex (bs_order s) i in
  (b < size (bs_basis s))%N /\ startingKnotIndexFromBasisMatrixIndex (bs_order s) b = i.
Proof.
move=> w ki iN; have eb := wf_basis w; have k0 := wf_order w.
rewrite eb /initializeBasisMatrices size_mkseq /numValidTimeSegments.
rewrite /startingKnotIndexFromBasisMatrixIndex /basisMatrixIndexFromStartingKnotIndex.
by move: k0 ki iN; clear; lia.
Qed.

Lemma point_count (F : realFieldType) alg (a b : F) n : (2 <= n)%N ->
  exists s xs, [/\ getIntegrator (@dbl_div F) alg a b n = Ok s,
    samplePoints (@dbl_div F) alg a b n = Ok xs & getNIntegrationPoints s = (size xs)%:Z].
Proof.
move=> n2; have [e M0] := getIntegratorE (@dbl_div F) alg a b n2.
eexists; eexists; split; [exact: e|exact: samplePoints_gE|].
by rewrite size_mkseq /getNIntegrationPoints /= -addn1 PoszD.
Qed.
