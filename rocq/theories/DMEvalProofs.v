(* Time lookup and evaluation of the manifold spline. *)
From mathcomp Require Import all_ssreflect all_algebra.
From mathcomp.algebra_tactics Require Import ring.
From mathcomp.zify Require Import zify.
From Verif Require Import Prelude CoxDeBoor CoxDeBoorProofs BSplineModel BSplineSpec
  BSplineProofs BSplineEvalProofs BSplineMoreProofs BSplineRemoveProofs BSplineAppendProofs
  DMModel DMSpec DMProofs.
Set Implicit Arguments.
Unset Strict Implicit.
Unset Printing Implicit Defensive.
Import GRing.Theory Num.Theory Order.Theory.
Local Open Scope ring_scope.
#[local] Arguments pos_of : simpl never.
#[local] Arguments deref : simpl never.
#[local] Arguments iter_next : simpl never.

Section Lookup.
Variables (F : realFieldType) (T : realDomainType).
Variables (dbl : T -> F).
Implicit Types (m : seq (seg F T)) (kps : seq (T * vec F)).
Notation keys m := (map (@sg_knot F T) m).

Section Canon.
Variables (k : nat) (kps : seq (T * vec F)).
Hypothesis gd : good k kps.
Notation n := (size kps).
Notation cs := (canon dbl k kps).
Notation kk := (kp_knot kps).

Let k0 : (0 < k)%N. Proof. by case/and3P: gd. Qed.
Let sz : (2 * k <= n)%N. Proof. by case/and3P: gd. Qed.
Let srt : sorted <%R (map fst kps). Proof. by case/and3P: gd. Qed.

Lemma kk_lt i j : (i < j)%N -> (j < n)%N -> kk i < kk j.
Proof.
move=> ij jn; rewrite !kp_knotE; [|lia..].
by apply: keys_lt => //; rewrite size_map.
Qed.
Lemma kk_le i j : (i <= j)%N -> (j < n)%N -> kk i <= kk j.
Proof.
by rewrite leq_eqVlt => /orP[/eqP -> //|ij] jn; apply: ltW; apply: kk_lt.
Qed.

Lemma size_canon : size (ds_segs cs) = n.
Proof. by rewrite size_mkseq. Qed.
Lemma canon_keys : keys (ds_segs cs) = map fst kps.
Proof. exact: keys_canon. Qed.
Lemma canon_uniq : uniq (keys (ds_segs cs)).
Proof. by rewrite canon_keys; apply: sorted_uniq_keys. Qed.
Lemma canon_knot_at i : (i < n)%N -> knot_at (ds_segs cs) i = kk i.
Proof. by move=> h; rewrite knot_atE ?size_canon // canon_keys kp_knotE. Qed.
Lemma canon_pos i : (i < n)%N -> pos_of (ds_segs cs) (AtKey (kk i)) = Ok i.
Proof.
by move=> h; rewrite -canon_knot_at // pos_ofE ?size_canon //; apply: canon_uniq.
Qed.
Lemma canon_deref i : (i < n)%N -> deref (ds_segs cs) (AtKey (kk i)) = Ok i.
Proof. by move=> h; rewrite /deref canon_pos //= size_canon /ub_unless h. Qed.

Lemma minTimeE : dm_getMinTime cs = Ok (kk (k - 1)).
Proof.
rewrite /dm_getMinTime canon_deref /=; last by lia.
by rewrite canon_knot_at //; lia.
Qed.
Lemma maxTimeE : dm_getMaxTime cs = Ok (kk (n - k)).
Proof.
rewrite /dm_getMaxTime canon_deref /=; last by lia.
by rewrite canon_knot_at //; lia.
Qed.

Lemma upper_boundE t i : (i < n)%N -> (forall j, (j < i)%N -> kk j <= t) -> t < kk i ->
  sm_upper_bound (ds_segs cs) t = i.
Proof.
move=> h le lt; rewrite /sm_upper_bound.
have -> : find (fun x => t < sg_knot x) (ds_segs cs) = find (fun x => t < x) (map fst kps).
  by rewrite -(keys_canon dbl k) [RHS]find_map.
have hi : has (fun x => t < x) (map fst kps).
  apply/(has_nthP 0); exists i; first by rewrite size_map.
  by rewrite -kp_knotE.
apply/eqP; rewrite eqn_leq; apply/andP; split.
  rewrite leqNgt; apply/negP => c; have := before_find 0 c.
  by rewrite -kp_knotE // lt.
rewrite leqNgt; apply/negP => c; have := nth_find 0 hi.
rewrite -kp_knotE; last exact: (ltn_trans c h).
by rewrite ltNge le.
Qed.

Lemma segment_unique t i j : is_segment k kps t i -> is_segment k kps t j -> i = j.
Proof.
have aux a b : is_segment k kps t a -> is_segment k kps t b -> (a < b)%N -> False.
  move=> [a1 a2 a3 a4] [b1 b2 b3 b4] ab.
  have le : kk a.+1 <= kk b by apply: kk_le => //; lia.
  case: a4 => [lt|[e _]]; last by lia.
  by move: (lt_le_trans lt le); rewrite ltNge b3.
move=> hi hj; case: (ltngtP i j) => // h; first by case: (aux i j hi hj h).
by case: (aux j i hj hi h).
Qed.

Lemma segIterE t i : is_segment k kps t i -> dm_getSegmentIterator cs t = Ok i.
Proof.
case=> i1 i2 i3 i4; rewrite /dm_getSegmentIterator minTimeE maxTimeE /= /sm_assert.
have -> : kk (k - 1) <= t by apply: le_trans i3; apply: kk_le; lia.
have le : t <= kk (n - k).
  case: i4 => [lt|[e ->]]; last by apply: kk_le; lia.
  by apply: (le_trans (ltW lt)); apply: kk_le; lia.
rewrite le; case: eqVneq => [te|tne].
  rewrite canon_pos /=; last by lia.
  case: i4 => [lt|[e te']].
    have : kk i.+1 <= kk (n - k) by apply: kk_le; lia.
    by rewrite leNgt -te lt.
  rewrite /ub_unless; have -> : (0 < n - k)%N by lia.
  by congr Ok; lia.
case: i4 => [lt|[e te']]; last first.
  by case/eqP: tne; rewrite te'; congr kp_knot; lia.
rewrite (upper_boundE (i := i.+1)) //; first by lia.
by move=> j ji; apply: le_trans i3; apply: kk_le; lia.
Qed.

Lemma segment_ex t : kk (k - 1) <= t -> t <= kk (n - k) ->
  exists i, is_segment k kps t i.
Proof.
move=> h1 h2; have [e|ne] := eqVneq t (kk (n - k)).
  exists (n - k - 1)%N; split; try lia.
    by rewrite e; apply: kk_le; lia.
  right; split; first by lia.
  by rewrite e; congr kp_knot; lia.
have lt : t < kk (n - k) by rewrite lt_neqAle ne.
have ex : exists i, (t < kk i) && (k <= i)%N && (i < n)%N.
  by exists (n - k)%N; rewrite lt; lia.
case: (ex_minnP ex) => i /andP[/andP[a1 a2] a3] amin; exists i.-1.
have in_ : (i <= n - k)%N by apply: amin; rewrite lt; lia.
split; try lia.
  case: (leqP k i.-1) => h3.
    rewrite leNgt; apply/negP => h4.
    have : (i <= i.-1)%N by apply: amin; rewrite h4 h3 /=; lia.
    by lia.
  by have -> : (i.-1 = k - 1)%N by lia.
by left; rewrite prednK //; lia.
Qed.

Lemma segIter_out t : t < kk (k - 1) \/ kk (n - k) < t ->
  dm_getSegmentIterator cs t = Throw ExnSpline.
Proof.
move=> h; rewrite /dm_getSegmentIterator minTimeE maxTimeE /= /sm_assert.
case: (leP (kk (k - 1)) t) => // h1.
case: h => h2; first by move: (lt_le_trans h2 h1); rewrite ltxx.
by rewrite leNgt h2.
Qed.

Lemma segLenE i : (i.+1 < n)%N -> dm_computeSegmentLength cs i = Ok (kk i.+1 - kk i).
Proof.
move=> h; rewrite /dm_computeSegmentLength size_canon.
have -> : (i == n) = false by lia.
rewrite -[1]/(1%N%:Z) getMoved_up /=; last by lia.
by rewrite /ub_unless addn1 h /computeDuration !canon_knot_at //; lia.
Qed.

Lemma firstRelevantE i : (k <= i.+1)%N -> (i < n)%N ->
  dm_getFirstRelevantSegmentByLast cs i = Ok (i.+1 - k)%N.
Proof.
move=> h1 h2; rewrite /dm_getFirstRelevantSegmentByLast size_canon /=.
have -> : k%:Z - 1 = (k - 1)%N%:Z by lia.
by rewrite getMoved_down; [congr Ok; lia|lia].
Qed.

Definition ev_of (t : T) (i : nat) : evaluator F T :=
  Evaluator i (i.+1 - k) i.+1 (kk i.+1 - kk i) (t - kk i)
    (dbl (t - kk i) / dbl (kk i.+1 - kk i)).

Lemma evaluatorE t i : is_segment k kps t i -> dm_evaluator dbl cs t = Ok (ev_of t i).
Proof.
move=> sg; have [i1 i2 i3 i4] := sg.
rewrite /dm_evaluator /sm_assert [ds_evaluable _]/= (segIterE sg) /=.
rewrite firstRelevantE /=; [|lia..].
rewrite size_canon -[1]/(1%N%:Z) getMoved_up /=; last by lia.
rewrite segLenE /=; last by lia.
have lt : kk i < kk i.+1 by apply: kk_lt; lia.
have -> : (kk i.+1 - kk i == 0) = false by apply: gt_eqF; rewrite subr_gt0.
by rewrite addn1 canon_knot_at //; lia.
Qed.
Lemma evaluator_out t : t < kk (k - 1) \/ kk (n - k) < t ->
  dm_evaluator dbl cs t = Throw ExnSpline.
Proof. by move=> h; rewrite /dm_evaluator /sm_assert /= (segIter_out h). Qed.
End Canon.
End Lookup.

Section Eval.
Variables (F : realFieldType) (T : realDomainType).
Variables (dbl : T -> F) (one : T).
Hypothesis et : exact_time dbl one.
Notation sc := (sec dbl one).

Lemma dbl0 : dbl 0 = 0.
Proof. by have := et_sub et 0 0; rewrite !subrr. Qed.
Lemma dbl_pos t : 0 < t -> 0 < dbl t.
Proof. by move=> h; have := et_lt et h; rewrite dbl0. Qed.
Lemma dbl_lt a b : (dbl a < dbl b) = (a < b).
Proof.
case: (ltP a b) => h; first exact: (et_lt et).
apply/negbTE; rewrite -leNgt; move: h; rewrite le_eqVlt => /orP[/eqP -> //|h].
by apply: ltW; apply: (et_lt et).
Qed.
Lemma dbl_one : 0 < dbl one. Proof. exact: dbl_pos (et_one et). Qed.
Lemma dbl_one0 : dbl one != 0. Proof. by rewrite gt_eqF ?dbl_one. Qed.
Lemma sec_sub a b : sc a - sc b = dbl (a - b) / dbl one.
Proof. by rewrite /sec (et_sub et) mulrBl. Qed.
Lemma sec_lt a b : (sc a < sc b) = (a < b).
Proof. by rewrite /sec ltr_pmul2r ?invr_gt0 ?dbl_one // dbl_lt. Qed.
Lemma sec_le a b : (sc a <= sc b) = (a <= b).
Proof. by rewrite leNgt sec_lt -leNgt. Qed.
Lemma divide_sec a b c d : d < c -> dbl (a - b) / dbl (c - d) = (sc a - sc b) / (sc c - sc d).
Proof.
move=> h; rewrite !sec_sub; have h1 : 0 < dbl (c - d) by apply: dbl_pos; rewrite subr_gt0.
by rewrite invfM invrK mulrACA [dbl one]lock mulVf -?lock ?mulr1 // dbl_one0.
Qed.

(* the basis matrix of the manifold spline is the one of the plain spline over seconds *)
Lemma dm_M_sec (knots : nat -> T) i k r c :
  dm_M dbl knots i k r c = Mmat (fun j => sc (knots j)) k i r c.
Proof.
elim: k r c => [//|[//|k] IH] r c; rewrite MmatS.
have d0 j : dm_d_0 dbl knots k.+2 i j = d_0 (fun j => sc (knots j)) k.+2 i j.
  rewrite /dm_d_0 /d_0 /computeDuration /divideDurations !subr_le0 sec_le.
  by case: leP => // h; rewrite divide_sec.
have d1 j : dm_d_1 dbl knots k.+2 i j = d_1 (fun j => sc (knots j)) k.+2 i j.
  rewrite /dm_d_1 /d_1 /computeDuration /divideDurations !subr_le0 sec_le.
  by case: leP => // h; rewrite divide_sec.
rewrite [LHS]/=; congr (_ + _); apply: eq_fsum => x _; congr (_ * _).
- by case: ifP.
- by rewrite /dm_M_A /M_A d0.
- by case: ifP.
by rewrite /dm_M_B /M_B d1.
Qed.

Lemma Mmat_shiftn (t : nat -> F) q k i r c : (k <= i.+1)%N ->
  Mmat (fun j => t (q + j)%N) k i r c = Mmat t k (q + i) r c.
Proof.
elim: q i => [//|q IH] i ki.
rewrite addSnnS -IH; last by lia.
rewrite -Mmat_shift //; apply: M_ext => // j _ _.
by rewrite addnS.
Qed.

Section Canon.
Variables (k : nat) (kps : seq (T * vec F)).
Hypothesis gd : good k kps.
Notation n := (size kps).
Notation cs := (canon dbl k kps).
Notation kk := (kp_knot kps).
Notation st := (fun j => sc (kk j)).

Let k0 : (0 < k)%N. Proof. by case/and3P: gd. Qed.
Let sz : (2 * k <= n)%N. Proof. by case/and3P: gd. Qed.

Lemma st_mono a b : (a <= b)%N -> (b < n)%N -> st a <= st b.
Proof. by move=> ab bn; rewrite sec_le (kk_le gd). Qed.

Lemma basisE i : (k <= i.+1)%N -> (i + k < n)%N ->
  exists2 B, dm_basis cs i = Ok B & forall r c, B r c = Mmat st k i r c.
Proof.
move=> h1 h2; rewrite /dm_basis nth_canon; last by lia.
rewrite /canon_seg /= h1 h2 /=; eexists; first by reflexivity.
move=> r c; rewrite dm_M_sec.
have e : (i.+1 - k + (k - 1) = i)%N by lia.
rewrite -[in RHS]e -Mmat_shiftn; last by lia.
apply: M_ext; first by lia.
move=> j j1 j2; congr (sc _); rewrite /window nth_take; last by lia.
by rewrite nth_drop kp_knotE //; lia.
Qed.

Definition dm_weight (t : T) (i d c : nat) : F :=
  (basis_poly st i k.-1 (i.+1 - k + c))^`(d).[sc t].

Lemma seg_pos i : (i.+1 < n)%N -> st i < st i.+1.
Proof. by move=> h; rewrite sec_lt (kk_lt gd). Qed.

Lemma dmul_same i d : dm_dmul i d = dmul i d.
Proof. by []. Qed.

Lemma computeUE t i d : is_segment k kps t i -> (d <= k)%N ->
  exists2 u, dm_computeU dbl one k (ev_of dbl k kps t i) d = Ok u &
  forall q, (q < k)%N -> u q = (q ^_ d)%:R * ((st i.+1 - st i)^-1) ^+ d
    * ((sc t - st i) / (st i.+1 - st i)) ^+ (q - d).
Proof.
move=> [i1 i2 i3 i4] dk; rewrite /dm_computeU /=.
have pos : kk i < kk i.+1 by apply: (kk_lt gd); lia.
rewrite subr_gt0 pos /ub_unless dk; eexists; first by reflexivity.
rewrite /getDurationAsDouble /divideDurations -sec_sub divide_sec //.
set uval := (_ - _) / _; set mlt := 1 / _ => q qk.
suff H : forall st, st = floop d k (fun i0 (st : vec F * F) => let: (u, uu) := st in
            (upd u i0 (mlt * uu * (dm_dmul i0 d)%:R), uu * uval)) (zerov, 1) ->
     st.2 = uval ^+ (k - d) /\ forall q, st.1 q = if (d <= q < k)%N then
       (q ^_ d)%:R * mlt * uval ^+ (q - d) else 0.
  have [_ ->] := H _ erefl; rewrite qk andbT /mlt.
  case: leqP => dq; first by rewrite mul1r exprVn.
  by rewrite ffact_small // !mul0r.
move=> st ->.
apply: (@floop_ind _ d k _ _ (fun i0 (st : vec F * F) => st.2 = uval ^+ (i0 - d) /\
    forall q, st.1 q = if (d <= q < i0)%N then (q ^_ d)%:R * mlt * uval ^+ (q - d) else 0)) => //.
  by rewrite subnn expr0; split=> // q'; case: ifP => //; lia.
move=> j [u uu] /andP[dj jk] /= [-> Hu]; split.
  by rewrite subSn // exprSr.
move=> q'; rewrite /upd; have [->|ne] := eqVneq q' j.
  have -> : (d <= j < j.+1)%N by lia.
  by rewrite dmul_same dmulE //; ring.
rewrite Hu; congr (if _ then _ else _); lia.
Qed.

Lemma localBiE t i d : is_segment k kps t i -> (d <= k)%N ->
  exists2 b, dm_computeLocalBi dbl one cs (ev_of dbl k kps t i) d = Ok b &
  forall c, (c < k)%N -> b c = dm_weight t i d c.
Proof.
move=> sg dk; have [i1 i2 i3 i4] := sg.
rewrite /dm_computeLocalBi; have [u -> Hu] := computeUE sg dk.
have [B hB HB] := basisE i1 i2.
rewrite /= hB /=; eexists; first by reflexivity.
move=> c ck; rewrite /dm_multAtB /dotv /dm_weight.
have pos : st i < st i.+1 by apply: seg_pos; lia.
have e2 : (i.+1 - k = i - k.-1)%N by lia.
rewrite e2 -(Mmat_poly (N := n) st_mono pos) //; [|lia..].
have -> : (k.-1.+1 = k)%N by lia.
rewrite !fsumE raddf_sum horner_sum; apply: eq_bigr => q _ /=.
rewrite derivnZ hornerZ derivn_linpow_horner Hu // HB mulrC; congr (_ * (_ * _ ^+ _)).
by rewrite mulrC.
Qed.

(* derivatives of order k and higher vanish *)
Lemma weight_high t i d c : (k <= d)%N -> dm_weight t i d c = 0.
Proof.
move=> kd; rewrite /dm_weight derivn_poly0 ?horner0 //.
apply: leq_trans (size_basis_poly _ _ _ _) _; lia.
Qed.

Lemma getLocalBiE t i d nc np : is_segment k kps t i -> (np <= k.+1)%N ->
  exists2 b, dm_getLocalBi dbl one nc np cs (ev_of dbl k kps t i) d = Ok b &
  forall c, (c < k)%N -> b c = dm_weight t i d c.
Proof.
move=> sg npk; rewrite /dm_getLocalBi /dm_getLocalBiT /dm_computeLocalBiT /=.
case: ifP => h.
  have /andP[/eqP -> dn] := h; apply: localBiE => //; lia.
case: leqP => dk; last by apply: localBiE => //; lia.
by exists zerov => // c ck; rewrite weight_high.
Qed.

(* cumulative basis values *)
Lemma cumulateE d (b : vec F) i : (i < k)%N ->
  dm_cumulate k d b i =
  if i == 0%N then (d == 0%N)%:R else fsum (k - i) (fun j => b (i + j)%N).
Proof.
move=> ik; rewrite /dm_cumulate.
set b0 := upd b 0 _.
have H : forall h, (1 <= h)%N -> (h <= k)%N -> forall i,
  floop 1 h (fun i (ret : vec F) =>
      let sum := floop 0 (k - 1 - i) (fun x sum => sum + ret (k - 1 - x)%N) 0 in
      upd ret i (ret i + sum)) b0 i =
  if ((1 <= i) && (i < h))%N then fsum (k - i) (fun j => b (i + j)%N) else b0 i; last first.
  rewrite H // ik andbT; case: (posnP i) => [->|i0] //=.
  by rewrite /b0 /upd eqxx; case: (d == 0%N).
elim=> [//|h IH] _ hm {ik}i; have [h0|h0] := posnP h.
  by rewrite h0 floop_nil //; case: ifP => //; lia.
rewrite floopSr // /= /upd; case: eqP => [->|/eqP ne].
  rewrite h0 ltnSn /= IH ?(ltnW hm) // ltnn andbF.
  have -> : b0 h = b (h + 0)%N by rewrite /b0 /upd addn0 gtn_eqF.
  have -> : (k - h = (k - 1 - h).+1)%N by lia.
  rewrite fsum_recl; congr (_ + _).
  have inv : forall q, (q <= k - 1 - h)%N ->
     floop 0 q (fun x sum => sum + floop 1 h (fun i0 (ret : vec F) =>
          fun j => if j == i0 then ret i0 + floop 0 (k - 1 - i0)
            (fun x0 sum0 => sum0 + ret (k - 1 - x0)%N) 0 else ret j) b0 (k - 1 - x)%N) 0
     = fsum q (fun x => b (k - 1 - x)%N).
    elim=> [//|q IHq] qh; rewrite floopSr // IHq ?(ltnW qh) //= ; congr (_ + _).
    have := IH h0 (ltnW hm) (k - 1 - q)%N; rewrite /= /upd => ->.
    have -> : (0 < k - 1 - q)%N && (k - 1 - q < h)%N = false by lia.
    by rewrite /b0 /upd; have -> : (k - 1 - q == 0)%N = false by lia.
  rewrite inv // !fsumE (reindex_inj rev_ord_inj) /=; apply: eq_bigr => x _.
  by congr b; have := ltn_ord x; lia.
have := IH h0 (ltnW hm) i; rewrite /= /upd => ->; rewrite ltnS; congr (if _ then _ else _).
by move: ne; lia.
Qed.

Lemma getLocalCumE t i d nc np : is_segment k kps t i -> (np <= k.+1)%N ->
  exists2 b, dm_getLocalCumulativeBi dbl one nc np cs (ev_of dbl k kps t i) d = Ok b &
  forall j, (j < k)%N -> b j =
    if j == 0%N then (d == 0%N)%:R else fsum (k - j) (fun c => dm_weight t i d (j + c)).
Proof.
move=> sg npk; rewrite /dm_getLocalCumulativeBi /dm_getLocalBiT /dm_computeLocalBiT /=.
have aux : (d <= k)%N -> exists2 b,
    dm_computeLocalCumulativeBi dbl one cs (ev_of dbl k kps t i) d = Ok b &
    forall j, (j < k)%N -> b j =
    if j == 0%N then (d == 0%N)%:R else fsum (k - j) (fun c => dm_weight t i d (j + c)).
  move=> dk; rewrite /dm_computeLocalCumulativeBi; have [b -> Hb] := localBiE sg dk.
  rewrite /=; eexists; first by reflexivity.
  move=> j jk; rewrite cumulateE //; case: ifP => // _.
  by apply: eq_fsum => c ck; rewrite Hb //; lia.
case: ifP => h.
  by have /andP[/eqP -> dn] := h; apply: aux; lia.
case: leqP => dk; last by apply: aux; lia.
exists zerov => // j jk; case: eqP => _.
  by have -> : (d == 0)%N = false by lia.
by rewrite fsum0 // => c ck; rewrite weight_high.
Qed.

(* linear combinations of control vertices *)
Lemma combLastE m i (c : vec F) : (k <= i.+1)%N -> (i < size m)%N ->
  exists2 v, dm_combLast (T := T) m i k false c zerov = Ok v &
  forall r, v r = fsum k (fun j => c j * sg_pt (seg_nth m (i.+1 - k + j)) r).
Proof.
move=> i1 i2; rewrite /dm_combLast.
set body := (X in oloop 0 k X).
have [st' -> [Hst _]] : exists2 st, oloop 0 k body (zerov, i.+1) = Ok st &
   (forall r, st.1 r = fsum k (fun x => c (k - 1 - x)%N * sg_pt (seg_nth m (i - x)%N) r)) /\
   st.2 = (i.+1 - k)%N.
  apply: (oloop_ind (I := fun q (st : vec F * nat) =>
     (forall r, st.1 r = fsum q (fun x => c (k - 1 - x)%N * sg_pt (seg_nth m (i - x)%N) r)) /\
     st.2 = (i.+1 - q)%N)) => //.
  move=> q [res e] /= qk [Hr He]; rewrite /body He.
  rewrite /ub_unless; have -> : (0 < i.+1 - q <= size m)%N by lia.
  eexists; first by reflexivity.
  have -> : ((i.+1 - q).-1 = i - q)%N by lia.
  split=> /=; last by lia.
  by move=> r; case: (posnP q) => [->|q0] /=; [rewrite add0r|rewrite Hr].
case: st' Hst => v e /= Hv; exists v => // r.
rewrite Hv !fsumE (reindex_inj rev_ord_inj) /=; apply: eq_bigr => x _.
have xk := ltn_ord x.
have e1 : (k - 1 - (k - x.+1) = x)%N by lia.
have e2 : (i - (k - x.+1) = i.+1 - k + x)%N by lia.
by rewrite e1 e2.
Qed.

Lemma canon_pt i : (i < n)%N -> sg_pt (seg_nth (ds_segs cs) i) = (nth kp0 kps i).2.
Proof. by move=> h; rewrite nth_canon. Qed.

Lemma piece_weightE r i d t : (k <= i.+1)%N -> (i + k < n)%N ->
  (dm_piece dbl one k kps r i)^`(d).[sc t]
  = fsum k (fun c => dm_weight t i d c * (nth kp0 kps (i.+1 - k + c)).2 r).
Proof.
move=> ki iN; rewrite /dm_piece curve_piece_local; [|lia..].
have -> : (k.-1.+1 = k)%N by lia.
have e2 : (i - k.-1 = i.+1 - k)%N by lia.
rewrite !fsumE raddf_sum horner_sum; apply: eq_bigr => c _ /=.
by rewrite derivnZ hornerZ /dm_weight e2 mulrC.
Qed.

Lemma eu_evalDE t i d imax np : is_segment k kps t i -> (np <= k.+1)%N ->
  (if imax is Some mx then (d <= mx)%N else true) ->
  exists2 v, eu_evalD dbl one imax np cs (ev_of dbl k kps t i) d = Ok v &
  forall r, v r = (dm_piece dbl one k kps r i)^`(d).[sc t].
Proof.
move=> sg npk hd; have [i1 i2 i3 i4] := sg.
rewrite /eu_evalD /sm_assert.
have -> : (if imax is Some m then (d < m.+1)%N else true) = true by case: imax hd.
case: ifP => dk.
  have [b -> Hb] := getLocalBiE d false sg npk.
  rewrite /=; have [|v -> Hv] := @combLastE (ds_segs cs) i b i1; first by rewrite size_canon; lia.
  exists v => // r; rewrite Hv piece_weightE //; apply: eq_fsum => c ck.
  by rewrite Hb // canon_pt //; lia.
exists zerov => // r; rewrite piece_weightE // fsum0 // => c ck.
by rewrite weight_high ?mul0r //; rewrite leqNgt dk.
Qed.
Lemma eu_evalD_max t i d mx np : (mx < d)%N ->
  eu_evalD dbl one (Some mx) np cs (ev_of dbl k kps t i) d = Throw ExnSpline.
Proof. by move=> h; rewrite /eu_evalD /sm_assert ltnNge h. Qed.

(* the weights sum to one *)
Lemma weight_sum t i : is_segment k kps t i -> fsum k (fun c => dm_weight t i 0 c) = 1.
Proof.
move=> [i1 i2 i3 i4].
have pos : st i < st i.+1 by apply: seg_pos; lia.
have e2 : (i.+1 - k = i - k.-1)%N by lia.
have P := @basis_poly_partition _ st n st_mono i pos k.-1 ltac:(lia) ltac:(lia).
move: P; rewrite prednK // => P.
have := congr1 (fun p => p.[sc t]) P; rewrite /= hornerC => <-.
rewrite !fsumE horner_sum; apply: eq_bigr => c _.
by rewrite /dm_weight e2.
Qed.

(* evalGeneric on a Euclidean space *)
Lemma evalGenericE D t i nc np : is_segment k kps t i -> (np <= k.+1)%N ->
  exists2 v, dm_evalGeneric dbl one (euclidean F D) nc np cs (ev_of dbl k kps t i) = Ok v &
  forall r, v r = (dm_piece dbl one k kps r i).[sc t].
Proof.
move=> sg npk; have [i1 i2 i3 i4] := sg.
rewrite /dm_evalGeneric; have [cum -> Hc] := getLocalCumE 0 nc sg npk.
rewrite [ev_first _]/= [obind _ _]/= size_canon /ub_unless.
have -> : (i.+1 - k < n)%N by lia.
set P := fun j => (nth kp0 kps (i.+1 - k + j)).2.
set body := (X in oloop 1 _ X).
set p0 := sg_pt _.
have p0E : p0 = P 0%N by rewrite /p0 canon_pt ?addn0 //; [rewrite /P addn0|lia].
have [st' -> [Hst _]] : exists2 st', oloop 1 k body (p0, p0) = Ok st' &
   (forall r, st'.1 r = P 0%N r + fsum (k - 1) (fun j => cum j.+1 * (P j.+1 r - P j r))) /\
   st'.2 = P (k - 1)%N.
  apply: (oloop_ind (I := fun q (st : vec F * vec F) =>
     (forall r, st.1 r = P 0%N r + fsum (q - 1) (fun j => cum j.+1 * (P j.+1 r - P j r))) /\
     st.2 = P (q - 1)%N)) => //.
    by rewrite subnn /= p0E; split=> // r; rewrite addr0.
  move=> q [p l] /= qk [Hp Hl]; rewrite /body.
  have -> : (i.+1 - k + q < n)%N by lia.
  rewrite canon_pt; last by lia.
  rewrite -/(P q) subn1 Hl.
  have qq : q = (q - 1).+1 by lia.
  have fq (f : nat -> F) : fsum q f = fsum (q - 1) f + f (q - 1)%N.
    by rewrite {1}qq.
  case: eqP => c0; (eexists; first by reflexivity); split=> //= r.
    by rewrite fq -qq c0 mul0r addr0 Hp.
  by rewrite fq -qq Hp addrA; congr (_ + _); rewrite mulrC.
case: st' Hst => v l /= Hv; exists v => // r; rewrite Hv.
have := piece_weightE r 0 t i1 i2; rewrite derivn0 => ->.
have W := weight_sum sg.
(* Abel summation *)
have abel : forall (w p : nat -> F) q,
   fsum q.+1 w * p 0%N + fsum q (fun j => fsum (q - j) (fun c => w (j.+1 + c)%N) * (p j.+1 - p j))
   = fsum q.+1 (fun j => w j * p j).
  move=> w p; elim=> [|q IH]; first by rewrite /= !add0r addr0.
  rewrite [in RHS]/= -/(fsum q.+1 _) -IH [fsum q.+2 w]/= -/(fsum q.+1 w).
  rewrite [fsum q.+1 (fun j => fsum (q.+1 - j) _ * _)]/= subSnn /= add0r addn0.
  rewrite (eq_fsum (n := q) (f := fun j => fsum (q.+1 - j) (fun c => w (j.+1 + c)%N) * (p j.+1 - p j))
     (g := fun j => fsum (q - j) (fun c => w (j.+1 + c)%N) * (p j.+1 - p j) + w q.+1 * (p j.+1 - p j))); last first.
    move=> j jq; rewrite subSn /= ?(ltnW jq) // mulrDl; congr (_ + w _ * _); lia.
  rewrite fsumD.
  have tel : fsum q (fun j => w q.+1 * (p j.+1 - p j)) = w q.+1 * (p q - p 0%N).
    rewrite -fsum_mull; congr (_ * _); elim: (q) => [|j IHj] /=; first by rewrite subrr.
    by rewrite IHj; ring.
  by rewrite tel; ring.
have kE : k = (k - 1).+1 by lia.
have := abel (fun c => dm_weight t i 0 c) (fun j => P j r) (k - 1)%N; rewrite -kE W mul1r => <-.
congr (_ + _); apply: eq_fsum => j jk; congr (_ * _).
rewrite Hc; last by lia.
rewrite /=; have -> : (k - j.+1 = k - 1 - j)%N by lia.
by [].
Qed.

(* the plain spline over the same knots and coefficients *)
Lemma same_as_bspline eps (s : bspline F) t d imax np : wf s -> 0 < eps -> eps <= last_len s ->
  bs_order s = k -> size (bs_knots s) = n ->
  (forall j, (j < n)%N -> kn s j = st j) ->
  (forall r j, (j < bs_ncoef s)%N -> bs_coef s r j = (nth kp0 kps j).2 r) ->
  kk (k - 1) <= t -> t <= kk (n - k) -> (np <= k.+1)%N ->
  (if imax is Some mx then (d <= mx)%N else true) ->
  exists v w ev, [/\ BSplineModel.evalD eps s (sc t) d = Ok v, dm_evaluator dbl cs t = Ok ev,
    eu_evalD dbl one imax np cs ev d = Ok w & forall r, v r = w r].
Proof.
move=> wfs e0 el ek en ekn ec t1 t2 npk hd.
have [i sg] := segment_ex gd t1 t2; have [i1 i2 i3 i4] := sg.
have [w hw Hw] := eu_evalDE sg npk hd.
have x1 : tmin s <= sc t.
  rewrite /tmin ek ekn -?subn1 ?sec_le //; move: k0 sz; clear; lia.
have x2 : sc t <= tmax s.
  rewrite /tmax en ek ekn ?sec_le //; move: k0 sz; clear; lia.
have [j [j1 j2 j3 j4 Hj]] := evalD_exact wfs e0 el x1 x2.
have [v hv Hv] := Hj d.
have ij : j = i.
  apply: (segment_unique gd (t := t)) => //.
  rewrite ek en in j1 j2 j4.
  have jn : (j < n)%N by move: j2; clear; lia.
  have jn1 : (j.+1 < n)%N by move: j2 k0; clear; lia.
  rewrite (ekn _ jn) in j3; rewrite (ekn _ jn1) in j4.
  rewrite sec_le in j3; split=> //.
  case: j4 => [lt|[e le]]; first by left; rewrite -sec_lt.
  rewrite sec_le le_eqVlt in le; case/orP: le => [/eqP te|lt]; last by left.
  by right; split=> //; move: e j2 k0; clear; lia.
exists v, w, (ev_of dbl k kps t i); split=> //; first exact: evaluatorE.
move=> r; rewrite Hv Hw ij /spline_piece /dm_piece ek.
have nc : bs_ncoef s = (n - k)%N.
  by have := wf_cols wfs; rewrite en ek => <-; rewrite addnK.
rewrite nc; congr (_^`(d).[_]).
have h1 : (k.-1 <= i)%N by move: i1; clear; lia.
have h2 : (i < n - k)%N by move: i2; clear; lia.
rewrite !curve_piece_local //.
apply: eq_fsum => c ck.
have h3 : (c <= k.-1)%N by [].
have h4 : (i - k.-1 + c < n - k)%N by move: h1 h2 h3; clear; lia.
rewrite ec ?nc //; congr (_ *: _).
case: (posnP k.-1) => [->|n0].
  by rewrite !basis_poly0.
have h5 : (i + k.-1 < n)%N by move: i2; clear; lia.
have h6 : (i.+1 < n)%N by move: i2 k0; clear; lia.
apply: (basis_poly_ext (N := n) (N' := n)) => //.
- move=> a b ab bn; rewrite !ekn //; last exact: (leq_ltn_trans ab bn).
  exact: st_mono.
- exact: st_mono.
- by rewrite !ekn //; [apply: seg_pos|apply: ltnW].
- by move=> a a1 a2; apply: ekn; move: a2 h5; clear; lia.
Qed.
End Canon.
End Eval.
