(* Main facts about manifold splines built by public calls (lemmas behind the property
   theorems of PropsDMA). *)
From mathcomp Require Import all_ssreflect all_algebra.
From mathcomp.zify Require Import zify.
From Verif Require Import Prelude CoxDeBoor BSplineModel BSplineSpec DMModel DMSpec DMProofs
  DMConstructProofs DMAppendProofs DMEvalProofs DMAccessProofs DMCurveProofs.
Set Implicit Arguments.
Unset Strict Implicit.
Unset Printing Implicit Defensive.
Import GRing.Theory Num.Theory Order.Theory.
Local Open Scope ring_scope.

Section Main.
Variables (F : realFieldType) (T : realDomainType).
Variables (dbl : T -> F) (one : T) (mf : manifold F).

Lemma main_structure k (os : seq (cop F T)) : (0 < k)%N ->
  (2 * k <= size (knot_list mf os))%N ->
  let n := size (knot_list mf os) in
  exists2 s, dm_init dbl (run_cops mf (dm_new F T k) os) = MRet s tt &
  [/\ map (@sg_knot F T) (ds_segs s) = knot_list mf os,
      dm_getNumValidTimeSegments s = (n - 2 * k + 1)%N,
      dm_getNumControlVertices s = Ok (n - k)%N,
      dm_getMinTime s = Ok (nth 0 (knot_list mf os) (k - 1))
    & dm_getMaxTime s = Ok (nth 0 (knot_list mf os) (n - k))].
Proof.
move=> k0 sz /=; have gd := good_knot_points k0 sz.
exists (canon dbl k (knot_points mf os)); first by rewrite constructE initE.
have kE i : (i < size (knot_list mf os))%N ->
    kp_knot (knot_points mf os) i = nth 0 (knot_list mf os) i.
  by move=> h; rewrite kp_knotE ?keys_knot_points // size_knot_points.
split.
- by rewrite canon_keys keys_knot_points.
- by rewrite numSegE // size_knot_points.
- by rewrite numCVE // size_knot_points.
- by rewrite minTimeE // kE //; move: k0 sz; clear; lia.
- by rewrite maxTimeE // size_knot_points kE //; move: k0 sz; clear; lia.
Qed.

Lemma main_too_few k (os : seq (cop F T)) : (size (knot_list mf os) < 2 * k)%N ->
  let s := run_cops mf (dm_new F T k) os in dm_init dbl s = MThrow s ExnSpline.
Proof. by move=> h /=; rewrite constructE init_few // size_knot_points. Qed.

Lemma main_constructing_throws (s : dspline F T) ts value ts' t f n C : ~~ ds_evaluable s ->
  [/\ dm_getNumControlVertices s = Throw ExnSpline,
      dm_evaluator dbl s t = Throw ExnSpline,
      dm_appendSegments dbl mf s true ts value = MThrow s ExnSpline,
      dm_manipulateControlVertices s f n t 0 = MThrow s ExnSpline
    & mf_size mf = dm_rows C -> dm_setControlVerticesAt mf s C t ts' = MThrow s ExnSpline].
Proof.
move=> h; have nc : dm_getNumControlVertices s = Throw ExnSpline.
  by rewrite /dm_getNumControlVertices /sm_assert (negbTE h).
split=> //.
- by rewrite /dm_evaluator /sm_assert (negbTE h).
- by rewrite /dm_appendSegments /massert (negbTE h).
- by rewrite /dm_manipulateControlVertices nc.
move=> e; rewrite /dm_setControlVerticesAt e eqxx.
by case: ifP => _; rewrite /dm_manipulateControlVertices nc.
Qed.

Lemma main_evaluable_throws (s : dspline F T) ts ps sz p : ds_evaluable s ->
  [/\ dm_init dbl s = MThrow s ExnSpline, dm_addKnots mf s ts = MThrow s ExnSpline,
      dm_addKnotsAndControlVertices mf s ts ps = MThrow s ExnSpline,
      dm_initWithKnots dbl mf s ts = MThrow s ExnSpline
    & dm_initWithKnotsAndControlVertices dbl mf s ts ps = MThrow s ExnSpline /\
      dm_initConstantSpline dbl mf s ts sz p = MThrow s ExnSpline].
Proof.
move=> h; rewrite /dm_init /dm_addKnots /dm_addKnotsAndControlVertices /dm_initWithKnots.
by rewrite /dm_initWithKnotsAndControlVertices /dm_initConstantSpline /massert h.
Qed.

Section Built.
Hypothesis D0 : (0 < mf_size mf)%N.
Variables (k : nat) (kps : seq (T * vec F)) (s : dspline F T).
Hypothesis bs : built dbl mf k kps s.

Let gd : good k kps. Proof. by have [] := builtE D0 bs. Qed.
Let sE : s = canon dbl k kps. Proof. by have [] := builtE D0 bs. Qed.
Let k0 : (0 < k)%N. Proof. by case/and3P: gd. Qed.
Let sz : (2 * k <= size kps)%N. Proof. by case/and3P: gd. Qed.

Lemma main_built :
  [/\ increasing kps, (0 < k)%N /\ (2 * k <= size kps)%N, ds_order s = k /\ ds_evaluable s,
      [seq (sg_knot x, sg_pt x) | x <- ds_segs s] = kps
    & [/\ dm_getNumValidTimeSegments s = (size kps - 2 * k + 1)%N,
      dm_getNumControlVertices s = Ok (size kps - k)%N,
      dm_getMinTime s = Ok (kp_knot kps (k - 1))
    & dm_getMaxTime s = Ok (kp_knot kps (size kps - k))]].
Proof.
rewrite sE; split=> //; first by case/and3P: gd.
  apply: (@eq_from_nth _ kp0); first by rewrite size_map size_canon.
  move=> i; rewrite size_map size_canon => h.
  rewrite (nth_map (seg0 F T)) ?size_canon // -/(seg_nth _ _) nth_canon //= /kp_knot.
  by case: (nth _ _ _).
by rewrite numSegE // numCVE // minTimeE // maxTimeE.
Qed.

Lemma main_lookup t : kp_knot kps (k - 1) <= t <= kp_knot kps (size kps - k) ->
  exists i ev, [/\ dm_getSegmentIterator s t = Ok i, is_segment k kps t i,
    dm_getFirstRelevantSegmentByLast s i = Ok (i.+1 - k)%N, dm_evaluator dbl s t = Ok ev
    & [/\ ev_ti ev = i, ev_first ev = (i.+1 - k)%N, ev_end ev = i.+1,
          ev_len ev = kp_knot kps i.+1 - kp_knot kps i & ev_pos ev = t - kp_knot kps i]].
Proof.
case/andP=> t1 t2; have [i sg] := segment_ex gd t1 t2; have [i1 i2 i3 i4] := sg.
exists i, (ev_of dbl k kps t i); rewrite sE; split=> //.
- exact: segIterE.
- by apply: firstRelevantE => //; move: i2; clear; lia.
- exact: evaluatorE.
Qed.

Lemma main_outside t : t < kp_knot kps (k - 1) \/ kp_knot kps (size kps - k) < t ->
  dm_getSegmentIterator s t = Throw ExnSpline /\ dm_evaluator dbl s t = Throw ExnSpline.
Proof. by move=> h; rewrite sE; split; [apply: segIter_out|apply: evaluator_out]. Qed.

Hypothesis et : exact_time dbl one.
Notation sc := (sec dbl one).

Lemma main_evalD t d imax np : kp_knot kps (k - 1) <= t <= kp_knot kps (size kps - k) ->
  (np <= k.+1)%N -> (if imax is Some mx then (d <= mx)%N else true) ->
  exists i ev v, [/\ is_segment k kps t i, dm_evaluator dbl s t = Ok ev,
    eu_evalD dbl one imax np s ev d = Ok v
  & forall r, v r = (dm_piece dbl one k kps r i)^`(d).[sc t]].
Proof.
case/andP=> t1 t2 npk hd; have [i sg] := segment_ex gd t1 t2.
have [v hv Hv] := eu_evalDE et gd sg npk hd.
by exists i, (ev_of dbl k kps t i), v; rewrite sE; split=> //; apply: evaluatorE.
Qed.

Lemma main_bspline eps (b : bspline F) t d imax np : wf b -> 0 < eps -> eps <= last_len b ->
  bs_order b = k -> size (bs_knots b) = size kps ->
  (forall j, (j < size kps)%N -> kn b j = sc (kp_knot kps j)) ->
  (forall r j, (j < bs_ncoef b)%N -> bs_coef b r j = (nth kp0 kps j).2 r) ->
  kp_knot kps (k - 1) <= t <= kp_knot kps (size kps - k) -> (np <= k.+1)%N ->
  (if imax is Some mx then (d <= mx)%N else true) ->
  exists v w ev, [/\ BSplineModel.evalD eps b (sc t) d = Ok v, dm_evaluator dbl s t = Ok ev,
    eu_evalD dbl one imax np s ev d = Ok w & forall r, v r = w r].
Proof.
by move=> wfb e0 el ek en ekn ec /andP[t1 t2] npk hd; rewrite sE; apply: same_as_bspline.
Qed.

Lemma main_generic t nc np : kp_knot kps (k - 1) <= t <= kp_knot kps (size kps - k) ->
  (np <= k.+1)%N ->
  exists i ev, [/\ is_segment k kps t i, dm_evaluator dbl s t = Ok ev
  & dm_evalGeneric dbl one mf nc np s ev =
    Ok (lie_curve mf (cum_weight dbl one k kps t i 0)
        (fun j => (nth kp0 kps (i.+1 - k + j)).2) (k - 1))].
Proof.
case/andP=> t1 t2 npk; have [i sg] := segment_ex gd t1 t2.
exists i, (ev_of dbl k kps t i); rewrite sE; split=> //; first exact: evaluatorE.
exact: evalGeneric_lie.
Qed.

Lemma main_generic_euclidean D t nc np imax :
  kp_knot kps (k - 1) <= t <= kp_knot kps (size kps - k) -> (np <= k.+1)%N ->
  exists ev v w, [/\ dm_evaluator dbl s t = Ok ev,
    dm_evalGeneric dbl one (euclidean F D) nc np s ev = Ok v,
    eu_evalD dbl one imax np s ev 0 = Ok w & forall r, v r = w r].
Proof.
case/andP=> t1 t2 npk; have [i sg] := segment_ex gd t1 t2.
have [v hv Hv] := evalGenericE et gd D nc sg npk.
have h0 : (if imax is Some mx then (0 <= mx)%N else true) : bool by case: imax.
have [w hw Hw] := eu_evalDE et gd sg npk h0.
exists (ev_of dbl k kps t i), v, w; rewrite sE; split=> //; first exact: evaluatorE.
by move=> r; rewrite Hv Hw derivn0.
Qed.

(* appending *)
Section Append.
Variables (ts : seq T) (value : option (vec F)).
Hypothesis srt : sorted <%R (map fst kps ++ ts).
Notation kps' := (append_points mf k kps ts value).

Lemma main_append : exists2 s', dm_appendSegments dbl mf s true ts value =
    MRet s' (kp_knot kps' (size kps + size ts - k)) &
  built dbl mf k kps' s' /\
  (all (fun tp => mf_in mf tp.2) kps' ->
   dm_init dbl (run_cops mf (dm_new F T k) [seq AddVertex tp.1 tp.2 | tp <- kps']) = MRet s' tt).
Proof.
have e := appendE dbl mf value gd srt; rewrite -sE in e.
have gd' := good_append mf value gd srt.
exists (canon dbl k kps') => //; split; first exact: (built_append bs srt e).
by move=> ins; apply: scratch.
Qed.

Lemma main_append_curve s' u t d imax np :
  dm_appendSegments dbl mf s true ts value = MRet s' u ->
  kp_knot kps (k - 1) <= t <= kp_knot kps (size kps - k) ->
  (t < kp_knot kps (size kps - k)) || (d.+1 < k)%N -> (np <= k.+1)%N ->
  (if imax is Some mx then (d <= mx)%N else true) ->
  exists ev ev' v v', [/\ dm_evaluator dbl s t = Ok ev, dm_evaluator dbl s' t = Ok ev',
    eu_evalD dbl one imax np s ev d = Ok v, eu_evalD dbl one imax np s' ev' d = Ok v'
  & forall r, v' r = v r].
Proof.
rewrite sE appendE // => -[<- _] /andP[t1 t2] td npk hd.
have gd' := good_append mf value gd srt.
have [p1 p2 p3] := append_prefix mf ts value gd.
by have := prefix_evalD et gd gd' p1 p2 p3 t1 t2 td npk hd.
Qed.

Lemma main_append_generic s' u t nc np :
  dm_appendSegments dbl mf s true ts value = MRet s' u ->
  kp_knot kps (k - 1) <= t < kp_knot kps (size kps - k) -> (np <= k.+1)%N ->
  exists ev ev' v, [/\ dm_evaluator dbl s t = Ok ev, dm_evaluator dbl s' t = Ok ev',
    dm_evalGeneric dbl one mf nc np s ev = Ok v & dm_evalGeneric dbl one mf nc np s' ev' = Ok v].
Proof.
rewrite sE appendE // => -[<- _] /andP[t1 t2] npk.
have gd' := good_append mf value gd srt.
have [p1 p2 p3] := append_prefix mf ts value gd.
by have := prefix_generic et gd gd' p1 p2 p3 mf nc t1 t2 npk.
Qed.
End Append.

(* control vertices *)
Lemma main_set_vertices C : layout_ok (mf_size mf) C ->
  let m := layout_count (mf_size mf) C in
  if (m <= size kps - k)%N then
    exists2 s', dm_setControlVertices mf s C = MRet s' tt &
    map (@sg_knot F T) (ds_segs s') = map (@sg_knot F T) (ds_segs s) /\
    forall i, (i < size kps)%N -> sg_pt (nth (seg0 F T) (ds_segs s') i) =
      if (i < m)%N then mf_project mf (layout_point (mf_size mf) C i) else (nth kp0 kps i).2
  else dm_setControlVertices mf s C = MThrow s ExnSpline.
Proof.
move=> lay /=; rewrite /dm_setControlVertices sE minTimeE // mreadOk.
have sg : is_segment k kps (kp_knot kps (k - 1)) (k - 1).
  split; try (move: k0 sz; clear; lia); first exact: lexx.
  by left; apply: (kk_lt gd); move: k0 sz; clear; lia.
have [i1 i2 _ _] := sg.
rewrite (setCVE dbl gd sg D0 lay (start_pos0 gd i1 i2)).
have e0 : ((k - 1).+1 - k = 0)%N by move: k0; clear; lia.
case: ifP => mk; rewrite ?mk // e0; eexists; first by reflexivity.
split; first by rewrite !canon_keys keys_with.
move=> i ik; rewrite -/(seg_nth _ _) canon_pt ?size_with // nth_with //= add0n subn0.
by case: ifP.
Qed.

Lemma main_set_bad C : mf_size mf != 1%N -> ~~ layout_ok (mf_size mf) C ->
  dm_setControlVertices mf s C = MThrow s ExnSpline.
Proof.
by move=> D1 lay; rewrite /dm_setControlVertices sE minTimeE // mreadOk setCV_bad.
Qed.

Lemma main_manipulate f g n : (n <= size kps - k)%N -> (forall i v, f i v = Ok (g i v)) ->
  exists2 s', dm_manipulateControlVertices0 s f n 0 = MRet s' tt &
  map (@sg_knot F T) (ds_segs s') = map (@sg_knot F T) (ds_segs s) /\
  forall i, (i < size kps)%N -> sg_pt (nth (seg0 F T) (ds_segs s') i) =
    if (i < n)%N then g i (nth kp0 kps i).2 else (nth kp0 kps i).2.
Proof.
move=> nk fg; rewrite /dm_manipulateControlVertices0 sE minTimeE // mreadOk.
have sg : is_segment k kps (kp_knot kps (k - 1)) (k - 1).
  split; try (move: k0 sz; clear; lia); first exact: lexx.
  by left; apply: (kk_lt gd); move: k0 sz; clear; lia.
have [i1 i2 _ _] := sg.
rewrite (manipulateE dbl gd _ _ _ sg) nk (start_pos0 gd i1 i2) mreadOk.
have e0 : ((k - 1).+1 - k = 0)%N by move: k0; clear; lia.
rewrite (msteps dbl gd (g := g)) // e0; eexists; first by reflexivity.
split; first by rewrite !canon_keys keys_with.
move=> i ik; rewrite -/(seg_nth _ _) canon_pt ?size_with // nth_with //= add0n subn0.
by case: ifP.
Qed.

(* the vertices are visited in order: a manipulator that throws at index q has changed
   exactly the vertices before it *)
Lemma main_manipulate_order f g n q e : (n <= size kps - k)%N -> (q < n)%N ->
  (forall i v, (i < q)%N -> f i v = Ok (g i v)) -> (forall v, f q v = Throw e) ->
  exists2 s', dm_manipulateControlVertices0 s f n 0 = MThrow s' e &
  forall i, (i < size kps)%N -> sg_pt (nth (seg0 F T) (ds_segs s') i) =
    if (i < q)%N then g i (nth kp0 kps i).2 else (nth kp0 kps i).2.
Proof.
move=> nk qn fg fe; rewrite /dm_manipulateControlVertices0 sE minTimeE // mreadOk.
have sg : is_segment k kps (kp_knot kps (k - 1)) (k - 1).
  split; try (move: k0 sz; clear; lia); first exact: lexx.
  by left; apply: (kk_lt gd); move: k0 sz; clear; lia.
have [i1 i2 _ _] := sg.
rewrite (manipulateE dbl gd _ _ _ sg) nk (start_pos0 gd i1 i2) mreadOk.
have e0 : ((k - 1).+1 - k = 0)%N by move: k0; clear; lia.
have -> : iota 0 n = iota 0 q ++ q :: iota q.+1 (n - q.+1).
  have nE : (n = q + (n - q.+1).+1)%N by move: qn; clear; lia.
  by rewrite {1}nE iotaD add0n.
rewrite (msteps_fail dbl gd (g := g) _ (e := e)) // ?e0.
- eexists; first by reflexivity.
  move=> i ik; rewrite -/(seg_nth _ _) canon_pt ?size_with // nth_with //= add0n subn0.
  by case: ifP.
- by move=> i iq _; apply: fg.
- by move: qn nk; clear; lia.
Qed.

Lemma main_manipulate_many f n t : (size kps - k < n)%N ->
  dm_manipulateControlVertices s f n t 0 = MThrow s ExnSpline.
Proof.
move=> h; rewrite /dm_manipulateControlVertices sE numCVE // mreadOk /massert.
by rewrite leqNgt h.
Qed.

(* local coefficient vectors *)
Lemma main_local c t junk : kp_knot kps (k - 1) <= t <= kp_knot kps (size kps - k) ->
  dv_size c = (k * mf_size mf)%N ->
  exists s' c', [/\ dm_setLocalCoefficientVector mf s t c (mf_size mf) = MRet s' tt,
    dm_getLocalCoefficientVector mf s' t (mf_size mf) junk = Ok c',
    dv_size c' = dv_size c & forall j, (j < dv_size c)%N -> c' j = c j].
Proof.
case/andP=> t1 t2 hc; have [i sg] := segment_ex gd t1 t2; have [i1 i2 i3 i4] := sg.
set kps' := with_points kps (i.+1 - k) k (fun j _ => get_segment c (j * mf_size mf)).
have gd' : good k kps' by apply: good_with.
have sg' : is_segment k kps' t i.
  by split; rewrite ?size_with ?knot_with //; move: i2 k0; clear; lia.
have [c' hc' [sc' Hc']] := getLocalE dbl gd' mf junk sg'.
exists (canon dbl k kps'), c'; split=> //.
- by rewrite sE (setLocalE dbl gd _ _ sg) hc eqxx.
- by rewrite sc' hc mulnC.
move=> j; rewrite hc => jk.
rewrite {1 2}(divn_eq j (mf_size mf)) Hc' ?ltn_mod //; last first.
  by rewrite ltn_divLR.
rewrite nth_with; last first.
  have := leq_trunc_div j (mf_size mf); have : (j %/ mf_size mf < k)%N by rewrite ltn_divLR.
  by move: i1 i2; clear; lia.
rewrite [snd _]/=; have jq : (j %/ mf_size mf < k)%N by rewrite ltn_divLR.
have -> : (i.+1 - k <= i.+1 - k + j %/ mf_size mf < i.+1 - k + k)%N.
  by rewrite leq_addr ltn_add2l.
by rewrite addKn /get_segment.
Qed.

Lemma main_local_get t junk : kp_knot kps (k - 1) <= t <= kp_knot kps (size kps - k) ->
  exists i c, [/\ is_segment k kps t i,
    dm_getLocalCoefficientVector mf s t (mf_size mf) junk = Ok c,
    dv_size c = (mf_size mf * k)%N
  & forall j r, (j < k)%N -> (r < mf_size mf)%N ->
    c (j * mf_size mf + r)%N = (nth kp0 kps (i.+1 - k + j)).2 r].
Proof.
case/andP=> t1 t2; have [i sg] := segment_ex gd t1 t2.
by have [c hc [sc' Hc]] := getLocalE dbl gd mf junk sg; exists i, c; rewrite sE.
Qed.

Lemma main_local_size c t : dv_size c <> (k * mf_size mf)%N ->
  kp_knot kps (k - 1) <= t <= kp_knot kps (size kps - k) ->
  dm_setLocalCoefficientVector mf s t c (mf_size mf) = MThrow s ExnSpline.
Proof.
move=> hc /andP[t1 t2]; have [i sg] := segment_ex gd t1 t2.
by rewrite sE (setLocalE dbl gd _ _ sg); case: eqP.
Qed.
End Built.
End Main.
