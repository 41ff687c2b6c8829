(* Segment lookup and evaluation. *)
From mathcomp Require Import all_ssreflect all_algebra.
From mathcomp.algebra_tactics Require Import ring.
From mathcomp.zify Require Import zify.
From Verif Require Import Prelude CoxDeBoor CoxDeBoorProofs BSplineModel BSplineSpec BSplineProofs.
Set Implicit Arguments.
Unset Strict Implicit.
Unset Printing Implicit Defensive.
Import GRing.Theory Num.Theory Order.Theory.
Local Open Scope ring_scope.

Section Eval.
Variable F : realFieldType.
Variable eps : F.

Section State.
Variable s : bspline F.
Hypothesis wfs : wf s.
Local Notation k := (bs_order s).
Local Notation n := (size (bs_knots s)).

Lemma kn_mono a b : (a <= b)%N -> (b < n)%N -> kn s a <= kn s b.
Proof.
move=> ab bn; apply: (sorted_leq_nth le_trans lexx _ (wf_sorted wfs)) => //.
by rewrite inE (leq_ltn_trans ab bn).
Qed.

Lemma min_knots : (minimumKnotsRequired k <= n)%N.
Proof.
have := wf_size wfs; have := wf_order wfs.
rewrite /minimumKnotsRequired /numKnotsRequired /numCoefficientsRequired; lia.
Qed.

Lemma t_minE : t_min s = Ok (tmin s).
Proof. by rewrite /t_min min_knots /= /tmin subn1. Qed.

Lemma t_maxE : t_max s = Ok (tmax s).
Proof. by rewrite /t_max min_knots. Qed.

Lemma tmin_le_tmax : tmin s <= tmax s.
Proof. by have := wf_size wfs; have := wf_order wfs => *; apply: kn_mono; lia. Qed.

Lemma segment_of_range x i : segment_of eps s x i -> (k <= i.+1)%N /\ (i + k < n)%N.
Proof.
have := wf_size wfs; have := wf_order wfs => h1 h2.
rewrite /segment_of; case: ifP => _; last by case.
by case=> _ ->; lia.
Qed.

Lemma segment_of_tmin x i : segment_of eps s x i -> tmin s <= x.
Proof.
have := wf_size wfs; have := wf_order wfs => h1 h2.
rewrite /segment_of; case: ifP => _; first by case.
case=> ki iN /andP[le _]; apply: le_trans le; apply: kn_mono; lia.
Qed.

Lemma upper_boundE x i : (0 < i < n)%N -> kn s i.-1 <= x -> x < kn s i ->
  upper_bound (bs_knots s) x = Ok i.
Proof.
move=> /andP[i0 iN] le lt; rewrite /upper_bound.
have hasx : has (fun y => x < y) (bs_knots s).
  by apply/hasP; exists (kn s i) => //; apply: mem_nth.
set m := find _ _.
have mN : (m < n)%N by rewrite /m -has_find.
have gt : x < kn s m by exact: (nth_find 0 hasx).
have -> : m = i.
  apply/eqP; rewrite eqn_leq; apply/andP; split.
    rewrite leqNgt; apply/negP => im.
    by have := before_find 0 im; rewrite -/(kn s i) lt.
  rewrite leqNgt; apply/negP => mi.
  have := lt_le_trans gt (@kn_mono m i.-1 _ _); rewrite ltNge le; lia.
rewrite (_ : all _ _) //.
apply/(all_nthP 0) => j; rewrite size_drop => jn; rewrite nth_drop.
apply: lt_le_trans lt _; apply: kn_mono; [exact: leq_addr|by rewrite -ltn_subRL].
Qed.

Lemma computeTIndexE x i : segment_of eps s x i ->
  computeTIndex eps s x = Ok (kn s i.+1 - kn s i, i).
Proof.
move=> seg; have [ki iN] := segment_of_range seg.
have := wf_size wfs; have := wf_order wfs => h1 h2.
rewrite /computeTIndex t_minE /= (segment_of_tmin seg) /= t_maxE /=.
move: seg; rewrite /segment_of; case: ifP => _.
  case=> _ e; rewrite lexx eqxx /=.
  have -> : (0 < n - k < n)%N by lia.
  by rewrite /= {2 3}e e; have -> : ((n - k).-1.+1 = n - k)%N by lia.
case=> _ _ /andP[x1 x2].
have xt : x < tmax s by apply: lt_le_trans x2 _; apply: kn_mono; lia.
rewrite ltW //= lt_eqF // (@upper_boundE x i.+1) //=; last by lia.
by have -> : (i.+1 < n)%N by lia.
Qed.

Lemma segment_exists x : 0 < eps -> tmin s <= x -> x < tmax s + eps ->
  exists i, segment_of eps s x i.
Proof.
have := wf_size wfs; have := wf_order wfs => h1 h2.
move=> e0 x1 x2.
have [sn0|sn0] := boolP (`|tmax s - x| < eps).
  by exists (n - k).-1; rewrite /segment_of sn0.
have sn := sn0; rewrite -leNgt ler_normr in sn.
have xt : x < tmax s.
  rewrite ltNge; apply/negP => tx.
  have d0 : tmax s - x <= 0 by rewrite subr_le0.
  case/orP: sn => h; first by have := lt_le_trans e0 (le_trans h d0); rewrite ltxx.
  by move: h; rewrite opprB ler_subr_addr => h; have := le_lt_trans h x2; rewrite addrC ltxx.
have hasx : has (fun y => x < y) (bs_knots s).
  have nk : (n - k < n)%N by lia.
  by apply/hasP; exists (tmax s) => //; apply: mem_nth.
set m := find (fun y => x < y) (bs_knots s).
have mN : (m < n)%N by rewrite /m -has_find.
have gt : x < kn s m by exact: (nth_find 0 hasx).
have le j : (j < m)%N -> kn s j <= x.
  by move=> jm; have := before_find 0 jm; rewrite -/(kn s j) => /negbT; rewrite -leNgt.
have km : (k <= m)%N.
  rewrite leqNgt; apply/negP => mk; have := le_lt_trans x1 gt.
  by rewrite ltNge /tmin kn_mono //; lia.
have mk : (m <= n - k)%N.
  rewrite leqNgt; apply/negP => /le h; have := lt_le_trans xt h; by rewrite ltxx.
exists m.-1; rewrite /segment_of (negbTE sn0); split; [lia|lia|].
have -> : (m.-1.+1 = m)%N by lia.
by rewrite gt le //; lia.
Qed.

Lemma computeTIndex_throw x : x < tmin s \/ tmax s + eps <= x -> 0 < eps ->
  computeTIndex eps s x = Throw ExnSpline.
Proof.
move=> h e0; rewrite /computeTIndex t_minE /= /sm_assert.
case: (boolP (tmin s <= x)) => // x1; rewrite t_maxE /=.
case: h => [|x2]; first by rewrite ltNge x1.
have -> : `|tmax s - x| < eps = false.
  apply/negbTE; rewrite -leNgt ler_normr; apply/orP; right.
  by rewrite opprB lter_sub_addr addrC.
case: (boolP (x <= tmax s)) => // xt.
by have := le_trans x2 xt; rewrite ger_addl leNgt e0.
Qed.

Lemma computeUE uval i d : (i.+1 < n)%N -> exists2 u, computeU s uval i d = Ok u &
  forall q, (q < k)%N -> kn s i < kn s i.+1 ->
    u q = (q ^_ d)%:R * ((kn s i.+1 - kn s i)^-1) ^+ d * uval ^+ (q - d).
Proof.
move=> iN; rewrite /computeU iN /=; eexists; first by reflexivity.
move=> q qk pos; rewrite subr_gt0 pos.
set mlt := 1 / _.
have [dk|kd] := leqP d k; last first.
  by rewrite floop_nil ?(ltnW kd) //= ffact_small ?mul0r //; lia.
suff H : forall st, st = floop d k (fun i0 (st : vec F * F) => let: (u, uu) := st in
            (upd u i0 (mlt * uu * (dmul i0 d)%:R), uu * uval)) (zerov, 1) ->
     st.2 = uval ^+ (k - d) /\ forall q, st.1 q = if (d <= q < k)%N then
       (q ^_ d)%:R * mlt * uval ^+ (q - d) else 0.
  have [_ ->] := H _ erefl; rewrite qk andbT /mlt.
  case: leqP => dq; first by rewrite mul1r exprVn.
  by rewrite ffact_small // !mul0r.
move=> st ->.
apply: (@floop_ind _ d k _ _ (fun i0 (st : vec F * F) => st.2 = uval ^+ (i0 - d) /\
    forall q, st.1 q = if (d <= q < i0)%N then (q ^_ d)%:R * mlt * uval ^+ (q - d) else 0)) => //.
  by rewrite subnn expr0; split=> // q'; case: ifP => //; lia.
move=> j [u uu] /andP[dj jk] /= [-> Hu]; split.
  by rewrite subSn // exprSr.
move=> q'; rewrite /upd; have [->|ne] := eqVneq q' j.
  have -> : (d <= j < j.+1)%N by lia.
  by rewrite dmulE //; ring.
rewrite Hu; congr (if _ then _ else _); lia.
Qed.

Lemma basis_nth b : (b + k < n)%N -> (k <= n)%N ->
  (b + k + k <= n)%N ->
  basis_at s b = Mmat (kn s) k (b + k - 1).
Proof.
move=> h1 h2 h3; rewrite /basis_at (wf_basis wfs) nth_mkseq // /numValidTimeSegments; lia.
Qed.

Lemma size_basis : size (bs_basis s) = (n.+1 - 2 * k)%N.
Proof. by rewrite (wf_basis wfs) size_mkseq. Qed.

Lemma segment_accessE i : (k <= i.+1)%N -> (i + k < n)%N ->
  segment_access s i = Ok (i.+1 - k)%N.
Proof.
move=> ki iN; rewrite /segment_access ki /= size_basis.
have := wf_cols wfs; have := wf_size wfs; have := wf_order wfs => h1 h2 h3.
by have -> : ((i.+1 - k < n.+1 - 2 * k)%N && (i.+1 - k + k <= bs_ncoef s)%N) by lia.
Qed.

Lemma column_accessE i : (k <= i.+1)%N -> (i + k < n)%N ->
  column_access s i = Ok (i.+1 - k)%N.
Proof.
move=> ki iN; rewrite /column_access ki /=.
have := wf_cols wfs; have := wf_size wfs; have := wf_order wfs => h1 h2 h3.
by have -> : (i.+1 - k + k <= bs_ncoef s)%N by lia.
Qed.

(* the k weights of the local coefficients *)
Definition weight (x : F) (i d c : nat) : F :=
  (basis_poly (kn s) i k.-1 (i.+1 - k + c))^`(d).[x].

Lemma weightE x i d u : segment_of eps s x i -> kn s i < kn s i.+1 ->
  (forall q, (q < k)%N -> u q = (q ^_ d)%:R * ((kn s i.+1 - kn s i)^-1) ^+ d
      * ((x - kn s i) / (kn s i.+1 - kn s i)) ^+ (q - d)) ->
  forall c, (c < k)%N ->
  fsum k (fun q => basis_at s (i.+1 - k) q c * u q) = weight x i d c.
Proof.
move=> seg pos Hu c ck; have [ki iN] := segment_of_range seg.
have := wf_size wfs; have := wf_order wfs => h1 h2.
rewrite /weight basis_nth; [|lia..].
have e1 : (i.+1 - k + k - 1 = i)%N by lia.
have e2 : (i.+1 - k = i - k.-1)%N by lia.
rewrite e1 e2 -(Mmat_poly (N := n) kn_mono pos) //; [|lia..].
have -> : (k.-1.+1 = k)%N by lia.
rewrite !fsumE raddf_sum horner_sum; apply: eq_bigr => q _ /=.
rewrite derivnZ hornerZ derivn_linpow_horner Hu //; congr (_ * (_ * _ ^+ _)).
by rewrite mulrC.
Qed.

(* evaluation through the code path, as an explicit weighted sum *)
Lemma evalD_weight x i d : segment_of eps s x i -> kn s i < kn s i.+1 ->
  exists2 v, evalD eps s x d = Ok v &
    forall r, v r = fsum k (fun c => bs_coef s r (i.+1 - k + c)%N * weight x i d c).
Proof.
move=> seg pos; have [ki iN] := segment_of_range seg.
rewrite /evalD /computeUAndTIndex (computeTIndexE seg) /=.
rewrite subr_le0 leNgt pos /=.
have iN' : (i.+1 < n)%N by have := wf_order wfs; lia.
have [u -> Hu] := @computeUE ((x - kn s i) / (kn s i.+1 - kn s i)) i d iN'.
rewrite /= (segment_accessE ki iN) /=; eexists; first by reflexivity.
move=> r; rewrite /mulv /mulm.
rewrite (eq_fsum (g := fun q => fsum k (fun c => bs_coef s r (i.+1 - k + c)%N *
   (basis_at s (i.+1 - k) q c * u q)))); last first.
  by move=> q _; rewrite fsum_mulr; apply: eq_fsum => c _; rewrite /get_block /trm add0n mulrA.
rewrite exchange_fsum; apply: eq_fsum => c ck.
rewrite -fsum_mull (weightE (d := d) seg) // => q qk; exact: Hu.
Qed.
End State.
End Eval.

Section Piece.
Variable F : realFieldType.
Lemma curve_piece_local (t : nat -> F) n m c i : (n <= i)%N -> (i < m)%N ->
  curve_piece t n m c i = fsum n.+1 (fun x => c (i - n + x)%N *: basis_poly t i n (i - n + x)).
Proof.
move=> ni im; rewrite /curve_piece -(fsumE m (fun j => c j *: basis_poly t i n j)).
have -> : (m = (i - n) + (n.+1 + (m - i.+1)))%N by lia.
rewrite fsum_cat fsum0 ?add0r; last first.
  by move=> j ji; rewrite basis_poly_out ?scaler0 //; lia.
rewrite fsum_cat [X in _ + X]fsum0 ?addr0 //.
by move=> j ji; rewrite basis_poly_out ?scaler0 //; lia.
Qed.
End Piece.

Section Eval2.
Variable F : realFieldType.
Variable eps : F.
Variable s : bspline F.
Hypothesis wfs : wf s.
Local Notation k := (bs_order s).
Local Notation n := (size (bs_knots s)).

Lemma piece_weight r i d x : (k <= i.+1)%N -> (i + k < n)%N ->
  (spline_piece s r i)^`(d).[x]
  = fsum k (fun c => bs_coef s r (i.+1 - k + c)%N * weight s x i d c).
Proof.
move=> ki iN; rewrite /spline_piece.
have := wf_cols wfs; have := wf_size wfs; have := wf_order wfs => h1 h2 h3.
rewrite curve_piece_local; [|lia..].
have -> : (k.-1.+1 = k)%N by lia.
have e2 : (i - k.-1 = i.+1 - k)%N by lia.
rewrite !fsumE raddf_sum horner_sum; apply: eq_bigr => c _ /=.
by rewrite derivnZ hornerZ /weight e2.
Qed.

Lemma evalD_piece x i d : segment_of eps s x i -> kn s i < kn s i.+1 ->
  exists2 v, evalD eps s x d = Ok v & forall r, v r = (spline_piece s r i)^`(d).[x].
Proof.
move=> seg pos; have [ki iN] := segment_of_range wfs seg.
have [v -> Hv] := evalD_weight wfs d seg pos; exists v => // r.
by rewrite Hv piece_weight.
Qed.
End Eval2.
