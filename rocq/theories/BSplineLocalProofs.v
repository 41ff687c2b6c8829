(* Local form of evaluation: on a fixed time the value is a fixed linear combination of k
   consecutive coefficient columns. *)
From mathcomp Require Import all_ssreflect all_algebra.
From mathcomp.algebra_tactics Require Import ring.
From mathcomp.zify Require Import zify.
From Verif Require Import Prelude CoxDeBoor CoxDeBoorProofs BSplineModel BSplineSpec
  BSplineProofs BSplineEvalProofs BSplineAccessProofs BSplineCoefProofs BSplineInitProofs.
Set Implicit Arguments.
Unset Strict Implicit.
Unset Printing Implicit Defensive.
Import GRing.Theory Num.Theory Order.Theory.
Local Open Scope ring_scope.

Section Local.
Variable F : realFieldType.
Variable eps : F.
Variable s : bspline F.
Hypothesis wfs : wf s.
Local Notation k := (bs_order s).
Local Notation n := (size (bs_knots s)).
Local Notation D := (bs_dim s).

Lemma local_form_seg x i : segment_of eps s x i ->
  exists w : nat -> nat -> F, let b := (i.+1 - k)%N in [/\
    (b + k <= bs_ncoef s)%N,
    localVvCoefficientVectorIndices eps s x = Ok (iota b k),
    localCoefficientVectorIndices eps s x = Ok (iota (b * D) (k * D)) &
    forall (C : mat F) d, exists v v' J,
     [/\ evalD eps (with_coef s C) x d = Ok v,
         forall r, v r = fsum k (fun j => C r (b + j)%N * w d j),
         evalDAndJacobian eps (with_coef s C) x d = Ok (v', J, iota (b * D) (k * D)),
         forall r, v' r = fsum k (fun j => C r (b + j)%N * w d j)
       & forall r c, (r < D)%N -> (c < k * D)%N ->
           J r c = (r == (c %% D)%N)%:R * w d (c %/ D)%N]].
Proof.
move=> seg; have [ki iN] := segment_of_range wfs seg; have hc := wf_cols wfs.
have front d := eval_front wfs d seg.
pose w d : nat -> F := match computeUAndTIndex eps s x with
  | Ok (uv, ix) => match computeU s uv ix d with
     | Ok u => mulv k (trm (basis_at s (i.+1 - k))) u | _ => zerov end | _ => zerov end.
exists w => b; split.
- rewrite /b; lia.
- by rewrite /localVvCoefficientVectorIndices (computeTIndexE wfs seg) /= ki.
- by rewrite /localCoefficientVectorIndices (computeTIndexE wfs seg) /= ki.
move=> C d; have [uval [u [h1 h2 h3 h4]]] := front d.
have h1' : computeUAndTIndex eps (with_coef s C) x = Ok (uval, i) by exact: h1.
have h2' : computeU (with_coef s C) uval i d = Ok u by exact: h2.
have h3' : segment_access (with_coef s C) i = Ok b.
  rewrite /b; move: h3; rewrite /segment_access /= => h3; exact: h3.
have we j : w d j = mulv k (trm (basis_at s (i.+1 - k))) u j by rewrite /w h1 h2.
rewrite /evalD /evalDAndJacobian h1' /= h2' /= h3' /=.
do 3 eexists; split; [by reflexivity| |by reflexivity| |] => [r|r|r c rD cD].
- rewrite /mulv /mulm.
  rewrite (eq_fsum (g := fun q => fsum k (fun c => C r (b + c)%N *
     (basis_at s (i.+1 - k) q c * u q)))); last first.
    by move=> q _; rewrite fsum_mulr; apply: eq_fsum => c _; rewrite /get_block /trm add0n mulrA.
  rewrite exchange_fsum; apply: eq_fsum => c ck; rewrite -fsum_mull; congr (_ * _).
  by rewrite we /mulv; apply: eq_fsum.
- rewrite /mulv; apply: eq_fsum => j jk; by rewrite we /get_block add0n.
rewrite (@diag_blocks_loop _ D k) // we //.
Qed.

Lemma local_form x : 0 < eps -> tmin s <= x -> x < tmax s + eps ->
  exists b (w : nat -> nat -> F), [/\
    (b + k <= bs_ncoef s)%N,
    localVvCoefficientVectorIndices eps s x = Ok (iota b k),
    localCoefficientVectorIndices eps s x = Ok (iota (b * D) (k * D)) &
    forall (C : mat F) d, exists v v' J,
     [/\ evalD eps (with_coef s C) x d = Ok v,
         forall r, v r = fsum k (fun j => C r (b + j)%N * w d j),
         evalDAndJacobian eps (with_coef s C) x d = Ok (v', J, iota (b * D) (k * D)),
         forall r, v' r = fsum k (fun j => C r (b + j)%N * w d j)
       & forall r c, (r < D)%N -> (c < k * D)%N ->
           J r c = (r == (c %% D)%N)%:R * w d (c %/ D)%N]].
Proof.
move=> e0 x1 x2; have [i seg] := segment_exists wfs e0 x1 x2.
by have [w h] := local_form_seg seg; exists (i.+1 - k)%N, w.
Qed.

(* the stored coefficients are one choice of C *)
Lemma with_coef_id : with_coef s (bs_coef s) = s.
Proof. by case: s => k0 ks [r c C] B. Qed.
End Local.
