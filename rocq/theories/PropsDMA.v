(* Properties C22-C26 and C31: manifold spline construction, lookup, evaluation, appending,
   control vertex access; iterator movement. *)
From mathcomp Require Import all_ssreflect all_algebra.
From mathcomp.zify Require Import zify.
From Verif Require Import Prelude CoxDeBoor BSplineModel BSplineSpec DMModel DMSpec DMProofs
  DMConstructProofs DMAppendProofs DMEvalProofs DMAccessProofs DMCurveProofs DMMainProofs Examples.
Set Implicit Arguments.
Unset Strict Implicit.
Unset Printing Implicit Defensive.
Import GRing.Theory Num.Theory Order.Theory.
Local Open Scope ring_scope.

(* ------------------------------------------------------------------ time policies *)
(* the two time policies of the library satisfy the assumption on times *)
Theorem time_double_exact : forall F : realFieldType, exact_time (fun x : F => x) 1.
Proof. by move=> F; split=> //; apply: ltr01. Qed.
Print Assumptions time_double_exact.
Theorem time_nsec_exact : forall (F : realFieldType) (one : int), 0 < one ->
  exact_time (fun x : int => x%:~R : F) one.
Proof.
by move=> F one h; split=> // a b; [rewrite rmorphB|rewrite ltr_int].
Qed.
Print Assumptions time_nsec_exact.

(* ------------------------------------------------------------------ C22 *)
(* n distinct accepted knots added in any order, with any duplicates (knot_list: the distinct
   times sorted); n >= 2k, then init *)
Theorem C22_structure : forall (F : realFieldType) (T : realDomainType) (dbl : T -> F)
  (mf : manifold F) k (os : seq (cop F T)), (0 < k)%N ->
  (2 * k <= size (knot_list mf os))%N ->
  let n := size (knot_list mf os) in
  exists2 s, dm_init dbl (run_cops mf (dm_new F T k) os) = MRet s tt &
  [/\ map (@sg_knot F T) (ds_segs s) = knot_list mf os,
      dm_getNumValidTimeSegments s = (n - 2 * k + 1)%N,
      dm_getNumControlVertices s = Ok (n - k)%N,
      dm_getMinTime s = Ok (nth 0 (knot_list mf os) (k - 1))
    & dm_getMaxTime s = Ok (nth 0 (knot_list mf os) (n - k))].
Proof. exact main_structure. Qed.
Print Assumptions C22_structure.

Theorem C22_too_few_knots : forall (F : realFieldType) (T : realDomainType) (dbl : T -> F)
  (mf : manifold F) k (os : seq (cop F T)), (size (knot_list mf os) < 2 * k)%N ->
  let s := run_cops mf (dm_new F T k) os in dm_init dbl s = MThrow s ExnSpline.
Proof. exact main_too_few. Qed.
Print Assumptions C22_too_few_knots.

(* The same counts after any further history of public calls. *)
Theorem C22_history : forall (F : realFieldType) (T : realDomainType) (dbl : T -> F)
  (mf : manifold F), (0 < mf_size mf)%N ->
  forall k kps (s : dspline F T), built dbl mf k kps s ->
  [/\ increasing kps, (0 < k)%N /\ (2 * k <= size kps)%N, ds_order s = k /\ ds_evaluable s,
      [seq (sg_knot x, sg_pt x) | x <- ds_segs s] = kps
    & [/\ dm_getNumValidTimeSegments s = (size kps - 2 * k + 1)%N,
      dm_getNumControlVertices s = Ok (size kps - k)%N,
      dm_getMinTime s = Ok (kp_knot kps (k - 1))
    & dm_getMaxTime s = Ok (kp_knot kps (size kps - k))]].
Proof. exact main_built. Qed.
Print Assumptions C22_history.

(* Wrong construction state: these calls throw and change nothing ... *)
Theorem C22_constructing_throws_partial : forall (F : realFieldType) (T : realDomainType)
  (dbl : T -> F) (mf : manifold F) (s : dspline F T) ts value offset t f n C,
  ~~ ds_evaluable s ->
  [/\ dm_getNumControlVertices s = Throw ExnSpline,
      dm_evaluator dbl s t = Throw ExnSpline,
      dm_appendSegments dbl mf s true ts value = MThrow s ExnSpline,
      dm_manipulateControlVertices s f n t 0 = MThrow s ExnSpline
    & mf_size mf = dm_rows C -> dm_setControlVerticesAt mf s C t offset = MThrow s ExnSpline].
Proof. exact main_constructing_throws. Qed.
Print Assumptions C22_constructing_throws_partial.

Theorem C22_evaluable_throws_partial : forall (F : realFieldType) (T : realDomainType)
  (dbl : T -> F) (mf : manifold F) (s : dspline F T) ts ps sz p, ds_evaluable s ->
  [/\ dm_init dbl s = MThrow s ExnSpline, dm_addKnots mf s ts = MThrow s ExnSpline,
      dm_addKnotsAndControlVertices mf s ts ps = MThrow s ExnSpline,
      dm_initWithKnots dbl mf s ts = MThrow s ExnSpline
    & dm_initWithKnotsAndControlVertices dbl mf s ts ps = MThrow s ExnSpline /\
      dm_initConstantSpline dbl mf s ts sz p = MThrow s ExnSpline].
Proof. exact main_evaluable_throws. Qed.
Print Assumptions C22_evaluable_throws_partial.

(* ... but not all: getMinTime before init dereferences an iterator that was never set, ... *)
Theorem C22_getMinTime_refuted : forall (F : realFieldType) (T : realDomainType)
  (mf : manifold F) k (os : seq (cop F T)),
  dm_getMinTime (run_cops mf (dm_new F T k) os) = UB /\
  dm_getMaxTime (run_cops mf (dm_new F T k) os) = UB.
Proof. by move=> F T mf k os; rewrite constructE. Qed.
Print Assumptions C22_getMinTime_refuted.

(* ... and addKnot after init is accepted; evaluating there reads a basis matrix that was
   never computed. *)
Definition C22_os : seq (cop Q int_realDomainType) :=
  [:: AddVertex (4 : int) zerov; AddVertex (0 : int) zerov].
Theorem C22_addKnot_refuted : exists (dbl : int -> Q) kps (s s' : dspline Q int_realDomainType) t x ev,
  [/\ exact_time dbl 1, built dbl (euclidean Q 1) 1 kps s /\ ds_evaluable s,
      s' = dm_addKnot (euclidean Q 1) s t /\ size (ds_segs s') = (size (ds_segs s)).+1,
      dm_evaluator dbl s' x = Ok ev
    & eu_evalD dbl 1 None 0 s' ev 0 = UB].
Proof.
pose dbl : int -> Q := fun x => x%:~R.
have sz : (2 * 1 <= size (knot_list (euclidean Q 1) C22_os))%N by [].
have [s hs _] := C22_structure dbl (ltn0Sn 0) sz.
have B := built_init (ltn0Sn 0) hs; have [_ sE] := builtE (mf := euclidean Q 1) (ltn0Sn 0) B.
exists dbl, (knot_points (euclidean Q 1) C22_os), s, (dm_addKnot (euclidean Q 1) s 2).
exists 2, 3, (Evaluator 1 1 2 2 1 (dbl 1 / dbl 2)); rewrite sE; split.
- exact: time_nsec_exact.
- by rewrite -sE; split=> //; rewrite sE.
- by [].
- by [].
- by [].
Qed.
Print Assumptions C22_addKnot_refuted.

(* ------------------------------------------------------------------ running example *)
(* order 3, points in the plane, integer times with 10 ticks per second; knots given out of
   order, one of them twice *)
Definition ex_dbl : int -> Q := fun x => x%:~R.
Definition ex_mf := euclidean Q 2.
Definition ex_pt (a b : int) : vec Q := fun r => if r == 0%N then a%:~R else b%:~R.
Definition ex_os : seq (cop Q int_realDomainType) :=
  [:: AddVertex (4 : int) (ex_pt 1 2); AddVertex (0 : int) (ex_pt 5 0); AddKnot Q (9 : int);
      AddVertex (4 : int) (ex_pt 7 7); AddVertex (1 : int) (ex_pt 3 4); AddKnot Q (6 : int);
      AddVertex (2 : int) (ex_pt 0 1); AddKnot Q (11 : int); AddKnot Q (12 : int)].
Definition ex_kps := knot_points ex_mf ex_os.
Example C22_ex_knots : knot_list ex_mf ex_os = [:: 0; 1; 2; 4; 6; 9; 11; 12].
Proof. by vm_compute. Qed.
Example ex_time : exact_time ex_dbl 10.
Proof. exact: time_nsec_exact. Qed.
Example C22_ex : exists2 s, built ex_dbl ex_mf 3 ex_kps s &
  [/\ dm_getNumValidTimeSegments s = 3%N, dm_getNumControlVertices s = Ok 5%N,
      dm_getMinTime s = Ok 2 & dm_getMaxTime s = Ok 9].
Proof.
have sz : (2 * 3 <= size (knot_list ex_mf ex_os))%N by vm_compute.
have [s hs [_ h1 h2 h3 h4]] := C22_structure ex_dbl (ltn0Sn 2) sz.
exists s; first exact: built_init hs.
by rewrite h1 h2 h3 h4 !C22_ex_knots.
Qed.

(* ------------------------------------------------------------------ C23 *)
(* is_segment k kps t i: i is a valid segment (k-1 <= i < n-k), knot i <= t, and t is before
   knot i+1 (or equal to it, when i is the last valid segment) *)
Theorem C23_lookup : forall (F : realFieldType) (T : realDomainType) (dbl : T -> F)
  (mf : manifold F), (0 < mf_size mf)%N ->
  forall k kps (s : dspline F T), built dbl mf k kps s ->
  forall t, kp_knot kps (k - 1) <= t <= kp_knot kps (size kps - k) ->
  exists i ev, [/\ dm_getSegmentIterator s t = Ok i, is_segment k kps t i,
    dm_getFirstRelevantSegmentByLast s i = Ok (i.+1 - k)%N, dm_evaluator dbl s t = Ok ev
    & [/\ ev_ti ev = i, ev_first ev = (i.+1 - k)%N, ev_end ev = i.+1,
          ev_len ev = kp_knot kps i.+1 - kp_knot kps i & ev_pos ev = t - kp_knot kps i]].
Proof. exact main_lookup. Qed.
Print Assumptions C23_lookup.

Theorem C23_unique : forall (F : realFieldType) (T : realDomainType) k
  (kps : seq (T * vec F)) t i j, good k kps ->
  is_segment k kps t i -> is_segment k kps t j -> i = j.
Proof. by move=> F T k kps t i j gd; exact: (segment_unique gd). Qed.
Print Assumptions C23_unique.

Theorem C23_outside : forall (F : realFieldType) (T : realDomainType) (dbl : T -> F)
  (mf : manifold F), (0 < mf_size mf)%N ->
  forall k kps (s : dspline F T), built dbl mf k kps s ->
  forall t, t < kp_knot kps (k - 1) \/ kp_knot kps (size kps - k) < t ->
  dm_getSegmentIterator s t = Throw ExnSpline /\ dm_evaluator dbl s t = Throw ExnSpline.
Proof. exact main_outside. Qed.
Print Assumptions C23_outside.

Example C23_ex : exists2 s, built ex_dbl ex_mf 3 ex_kps s &
  exists ev, dm_evaluator ex_dbl s 5 = Ok ev /\ ev_first ev = 1%N.
Proof.
have [s B _] := C22_ex; exists s => //.
have h : kp_knot ex_kps (3 - 1) <= 5 <= kp_knot ex_kps (size ex_kps - 3) by vm_compute.
have [i [ev [_ sg _ hev [_ hf _ _ _]]]] := C23_lookup (mf := ex_mf) isT B h.
exists ev; split=> //; rewrite hf.
have sg3 : is_segment 3 ex_kps 5 3 by split=> //; left.
have gd : good 3 ex_kps by vm_compute.
by rewrite (C23_unique gd sg sg3).
Qed.

(* ------------------------------------------------------------------ C24 *)
(* the evaluator returns the derivatives of the Cox-de Boor curve over the knots in seconds *)
Theorem C24_evalD : forall (F : realFieldType) (T : realDomainType) (dbl : T -> F) (one : T)
  (mf : manifold F), (0 < mf_size mf)%N ->
  forall k kps (s : dspline F T), built dbl mf k kps s -> exact_time dbl one ->
  forall t d imax np, kp_knot kps (k - 1) <= t <= kp_knot kps (size kps - k) ->
  (np <= k.+1)%N -> (if imax is Some mx then (d <= mx)%N else true) ->
  exists i ev v, [/\ is_segment k kps t i, dm_evaluator dbl s t = Ok ev,
    eu_evalD dbl one imax np s ev d = Ok v
  & forall r, v r = (dm_piece dbl one k kps r i)^`(d).[sec dbl one t]].
Proof. exact main_evalD. Qed.
Print Assumptions C24_evalD.

Theorem C24_same_as_bspline : forall (F : realFieldType) (T : realDomainType) (dbl : T -> F)
  (one : T) (mf : manifold F), (0 < mf_size mf)%N ->
  forall k kps (s : dspline F T), built dbl mf k kps s -> exact_time dbl one ->
  forall eps (b : bspline F) t d imax np, wf b -> 0 < eps -> eps <= last_len b ->
  bs_order b = k -> size (bs_knots b) = size kps ->
  (forall j, (j < size kps)%N -> kn b j = sec dbl one (kp_knot kps j)) ->
  (forall r j, (j < bs_ncoef b)%N -> bs_coef b r j = (nth kp0 kps j).2 r) ->
  kp_knot kps (k - 1) <= t <= kp_knot kps (size kps - k) -> (np <= k.+1)%N ->
  (if imax is Some mx then (d <= mx)%N else true) ->
  exists v w ev, [/\ BSplineModel.evalD eps b (sec dbl one t) d = Ok v,
    dm_evaluator dbl s t = Ok ev, eu_evalD dbl one imax np s ev d = Ok w
  & forall r, v r = w r].
Proof. exact main_bspline. Qed.
Print Assumptions C24_same_as_bspline.

(* generic (Lie group) evaluation on a Euclidean space *)
Theorem C24_generic_euclidean : forall (F : realFieldType) (T : realDomainType) (dbl : T -> F)
  (one : T) (mf : manifold F), (0 < mf_size mf)%N ->
  forall k kps (s : dspline F T), built dbl mf k kps s -> exact_time dbl one ->
  forall D t nc np imax,
  kp_knot kps (k - 1) <= t <= kp_knot kps (size kps - k) -> (np <= k.+1)%N ->
  exists ev v w, [/\ dm_evaluator dbl s t = Ok ev,
    dm_evalGeneric dbl one (euclidean F D) nc np s ev = Ok v,
    eu_evalD dbl one imax np s ev 0 = Ok w & forall r, v r = w r].
Proof. exact main_generic_euclidean. Qed.
Print Assumptions C24_generic_euclidean.

(* generic evaluation on any Lie group: P_0 exp(b_1 log(P_0^-1 P_1)) ... with the cumulative
   basis values b_j *)
Theorem C24_generic : forall (F : realFieldType) (T : realDomainType) (dbl : T -> F)
  (one : T) (mf : manifold F), (0 < mf_size mf)%N ->
  forall k kps (s : dspline F T), built dbl mf k kps s -> exact_time dbl one ->
  forall t nc np, kp_knot kps (k - 1) <= t <= kp_knot kps (size kps - k) -> (np <= k.+1)%N ->
  exists i ev, [/\ is_segment k kps t i, dm_evaluator dbl s t = Ok ev
  & dm_evalGeneric dbl one mf nc np s ev =
    Ok (lie_curve mf (cum_weight dbl one k kps t i 0)
        (fun j => (nth kp0 kps (i.+1 - k + j)).2) (k - 1))].
Proof. exact main_generic. Qed.
Print Assumptions C24_generic.

Example C24_ex : exists s ev v, [/\ built ex_dbl ex_mf 3 ex_kps s,
  dm_evaluator ex_dbl s 3 = Ok ev, eu_evalD ex_dbl 10 (Some 4%N) 4 s ev 0 = Ok v
  & v 0%N = (dm_piece ex_dbl 10 3 ex_kps 0 2).[3%:R / 10%:R]].
Proof.
have [s B _] := C22_ex.
have h : kp_knot ex_kps (3 - 1) <= 3 <= kp_knot ex_kps (size ex_kps - 3) by vm_compute.
have [i [ev [v [sg hev hv Hv]]]] :=
  C24_evalD (mf := ex_mf) isT B ex_time (d := 0) (imax := Some 4%N) (np := 4) h isT isT.
exists s, ev, v; split=> //; rewrite Hv derivn0; congr ((dm_piece _ _ _ _ _ _).[_]).
have sg2 : is_segment 3 ex_kps 3 2 by split=> //; left.
have gd : good 3 ex_kps by vm_compute.
exact: (C23_unique gd sg sg2).
Qed.

(* ------------------------------------------------------------------ C25 *)
(* appending gives the state that constructing from all knots and points gives *)
Theorem C25_append : forall (F : realFieldType) (T : realDomainType) (dbl : T -> F)
  (mf : manifold F), (0 < mf_size mf)%N ->
  forall k kps (s : dspline F T), built dbl mf k kps s ->
  forall ts value, sorted <%R (map fst kps ++ ts) ->
  let kps' := append_points mf k kps ts value in
  exists2 s', dm_appendSegments dbl mf s true ts value =
    MRet s' (kp_knot kps' (size kps + size ts - k)) &
  built dbl mf k kps' s' /\
  (all (fun tp => mf_in mf tp.2) kps' ->
   dm_init dbl (run_cops mf (dm_new F T k) [seq AddVertex tp.1 tp.2 | tp <- kps']) = MRet s' tt).
Proof. exact main_append. Qed.
Print Assumptions C25_append.

(* appended knots and points: old ones kept; without a value every point is kept, with a value
   the vertices that become active get it *)
Theorem C25_append_points : forall (F : realFieldType) (T : realDomainType) (mf : manifold F) k
  (kps : seq (T * vec F)) ts value, good k kps ->
  let kps' := append_points mf k kps ts value in
  map fst kps' = map fst kps ++ ts /\
  forall j, (j < size kps + size ts)%N -> (nth kp0 kps' j).2 =
    if (size kps - k <= j < size kps - k + size ts)%N && isSome value
    then odflt zerov value
    else if (j < size kps)%N then (nth kp0 kps j).2 else mf_default mf.
Proof.
move=> F T mf k kps ts value gd /=; split; first exact: keys_append.
move=> j jn; rewrite /append_points nth_mkseq; last by rewrite size_cat size_map.
rewrite [snd _]/= nth_cat; have [h|h] := ltnP j (size kps).
  by case: ifP => // _; case: value.
rewrite (nth_map 0); last by rewrite ltn_subLR.
by case: ifP => // _; case: value.
Qed.
Print Assumptions C25_append_points.

(* knots added before init or appended afterwards: the same spline *)
Theorem C25_append_is_construct : forall (F : realFieldType) (T : realDomainType)
  (dbl : T -> F) (mf : manifold F) k (os : seq (cop F T)) ts s, (0 < k)%N ->
  (2 * k <= size (knot_list mf os))%N -> sorted <%R (knot_list mf os ++ ts) ->
  dm_init dbl (run_cops mf (dm_new F T k) os) = MRet s tt ->
  exists s' t, dm_appendSegments dbl mf s true ts None = MRet s' t /\
    dm_init dbl (run_cops mf (dm_new F T k) (os ++ [seq AddKnot F t | t <- ts])) = MRet s' tt.
Proof.
move=> F T dbl mf k os ts s k0 sz srt; have gd := good_knot_points k0 sz.
rewrite constructE initE // => -[<-].
have srt' : sorted <%R (map fst (knot_points mf os) ++ ts) by rewrite keys_knot_points.
rewrite appendE //; do 2 eexists; split; first by reflexivity.
rewrite constructE (knot_points_cat (k := k)) //; last by move: sz; clear; lia.
by rewrite initE //; exact: good_append.
Qed.
Print Assumptions C25_append_is_construct.

(* the curve on the old interval: all derivatives before the old end, derivatives up to order
   k-2 at the old end itself (there the new segment starts) *)
Theorem C25_curve_kept : forall (F : realFieldType) (T : realDomainType) (dbl : T -> F)
  (one : T) (mf : manifold F), (0 < mf_size mf)%N ->
  forall k kps (s : dspline F T), built dbl mf k kps s -> exact_time dbl one ->
  forall ts value, sorted <%R (map fst kps ++ ts) -> forall s' u t d imax np,
  dm_appendSegments dbl mf s true ts value = MRet s' u ->
  kp_knot kps (k - 1) <= t <= kp_knot kps (size kps - k) ->
  (t < kp_knot kps (size kps - k)) || (d.+1 < k)%N -> (np <= k.+1)%N ->
  (if imax is Some mx then (d <= mx)%N else true) ->
  exists ev ev' v v', [/\ dm_evaluator dbl s t = Ok ev, dm_evaluator dbl s' t = Ok ev',
    eu_evalD dbl one imax np s ev d = Ok v, eu_evalD dbl one imax np s' ev' d = Ok v'
  & forall r, v' r = v r].
Proof. exact main_append_curve. Qed.
Print Assumptions C25_curve_kept.

Theorem C25_generic_curve_kept : forall (F : realFieldType) (T : realDomainType) (dbl : T -> F)
  (one : T) (mf : manifold F), (0 < mf_size mf)%N ->
  forall k kps (s : dspline F T), built dbl mf k kps s -> exact_time dbl one ->
  forall ts value, sorted <%R (map fst kps ++ ts) -> forall s' u t nc np,
  dm_appendSegments dbl mf s true ts value = MRet s' u ->
  kp_knot kps (k - 1) <= t < kp_knot kps (size kps - k) -> (np <= k.+1)%N ->
  exists ev ev' v, [/\ dm_evaluator dbl s t = Ok ev, dm_evaluator dbl s' t = Ok ev',
    dm_evalGeneric dbl one mf nc np s ev = Ok v & dm_evalGeneric dbl one mf nc np s' ev' = Ok v].
Proof. exact main_append_generic. Qed.
Print Assumptions C25_generic_curve_kept.

Example C25_ex : exists s s', [/\ built ex_dbl ex_mf 3 ex_kps s,
  dm_appendSegments ex_dbl ex_mf s true [:: 15; 20] (Some (ex_pt 8 9)) = MRet s' 12
  & dm_getNumValidTimeSegments s' = 5%N].
Proof.
have [s B _] := C22_ex; exists s.
have srt : sorted <%R (map fst ex_kps ++ [:: 15; 20]) by vm_compute.
have [s' hs [B' _]] := C25_append (mf := ex_mf) isT B (Some (ex_pt 8 9)) srt.
exists s'; split=> //; have [_ _ _ _ [h _ _ _]] := C22_history (mf := ex_mf) isT B'.
by rewrite h size_append.
Qed.

(* ------------------------------------------------------------------ C26 *)
(* layout_ok: the matrix is D x m, m x D, 1 x mD or mD x 1 *)
Theorem C26_set_vertices : forall (F : realFieldType) (T : realDomainType) (dbl : T -> F)
  (mf : manifold F), (0 < mf_size mf)%N ->
  forall k kps (s : dspline F T), built dbl mf k kps s ->
  forall C, layout_ok (mf_size mf) C ->
  let m := layout_count (mf_size mf) C in
  if (m <= size kps - k)%N then
    exists2 s', dm_setControlVertices mf s C = MRet s' tt &
    map (@sg_knot F T) (ds_segs s') = map (@sg_knot F T) (ds_segs s) /\
    forall i, (i < size kps)%N -> sg_pt (nth (seg0 F T) (ds_segs s') i) =
      if (i < m)%N then mf_project mf (layout_point (mf_size mf) C i) else (nth kp0 kps i).2
  else dm_setControlVertices mf s C = MThrow s ExnSpline.
Proof. exact main_set_vertices. Qed.
Print Assumptions C26_set_vertices.

Theorem C26_set_bad_shape : forall (F : realFieldType) (T : realDomainType) (dbl : T -> F)
  (mf : manifold F), (0 < mf_size mf)%N ->
  forall k kps (s : dspline F T), built dbl mf k kps s ->
  forall C, mf_size mf != 1%N -> ~~ layout_ok (mf_size mf) C ->
  dm_setControlVertices mf s C = MThrow s ExnSpline.
Proof. exact main_set_bad. Qed.
Print Assumptions C26_set_bad_shape.

Theorem C26_manipulate : forall (F : realFieldType) (T : realDomainType) (dbl : T -> F)
  (mf : manifold F), (0 < mf_size mf)%N ->
  forall k kps (s : dspline F T), built dbl mf k kps s ->
  forall f g n, (n <= size kps - k)%N -> (forall i v, f i v = Ok (g i v)) ->
  exists2 s', dm_manipulateControlVertices0 s f n 0 = MRet s' tt &
  map (@sg_knot F T) (ds_segs s') = map (@sg_knot F T) (ds_segs s) /\
  forall i, (i < size kps)%N -> sg_pt (nth (seg0 F T) (ds_segs s') i) =
    if (i < n)%N then g i (nth kp0 kps i).2 else (nth kp0 kps i).2.
Proof. exact main_manipulate. Qed.
Print Assumptions C26_manipulate.

(* in order: when the manipulator throws at index q, exactly the vertices before q changed *)
Theorem C26_manipulate_order : forall (F : realFieldType) (T : realDomainType) (dbl : T -> F)
  (mf : manifold F), (0 < mf_size mf)%N ->
  forall k kps (s : dspline F T), built dbl mf k kps s ->
  forall f g n q e, (n <= size kps - k)%N -> (q < n)%N ->
  (forall i v, (i < q)%N -> f i v = Ok (g i v)) -> (forall v, f q v = Throw e) ->
  exists2 s', dm_manipulateControlVertices0 s f n 0 = MThrow s' e &
  forall i, (i < size kps)%N -> sg_pt (nth (seg0 F T) (ds_segs s') i) =
    if (i < q)%N then g i (nth kp0 kps i).2 else (nth kp0 kps i).2.
Proof. exact main_manipulate_order. Qed.
Print Assumptions C26_manipulate_order.

Theorem C26_too_many : forall (F : realFieldType) (T : realDomainType) (dbl : T -> F)
  (mf : manifold F), (0 < mf_size mf)%N ->
  forall k kps (s : dspline F T), built dbl mf k kps s ->
  forall f n t, (size kps - k < n)%N ->
  dm_manipulateControlVertices s f n t 0 = MThrow s ExnSpline.
Proof. exact main_manipulate_many. Qed.
Print Assumptions C26_too_many.

Theorem C26_local_round_trip : forall (F : realFieldType) (T : realDomainType) (dbl : T -> F)
  (mf : manifold F), (0 < mf_size mf)%N ->
  forall k kps (s : dspline F T), built dbl mf k kps s ->
  forall c t junk, kp_knot kps (k - 1) <= t <= kp_knot kps (size kps - k) ->
  dv_size c = (k * mf_size mf)%N ->
  exists s' c', [/\ dm_setLocalCoefficientVector mf s t c (mf_size mf) = MRet s' tt,
    dm_getLocalCoefficientVector mf s' t (mf_size mf) junk = Ok c',
    dv_size c' = dv_size c & forall j, (j < dv_size c)%N -> c' j = c j].
Proof. exact main_local. Qed.
Print Assumptions C26_local_round_trip.

Theorem C26_local_get : forall (F : realFieldType) (T : realDomainType) (dbl : T -> F)
  (mf : manifold F), (0 < mf_size mf)%N ->
  forall k kps (s : dspline F T), built dbl mf k kps s ->
  forall t junk, kp_knot kps (k - 1) <= t <= kp_knot kps (size kps - k) ->
  exists i c, [/\ is_segment k kps t i,
    dm_getLocalCoefficientVector mf s t (mf_size mf) junk = Ok c,
    dv_size c = (mf_size mf * k)%N
  & forall j r, (j < k)%N -> (r < mf_size mf)%N ->
    c (j * mf_size mf + r)%N = (nth kp0 kps (i.+1 - k + j)).2 r].
Proof. exact main_local_get. Qed.
Print Assumptions C26_local_get.

(* Two parts of the claim are false: a matrix with fewer points than control vertices is
   accepted, ... *)
Theorem C26_count_refuted : exists s s' (C : dmat Q),
  [/\ built ex_dbl ex_mf 3 ex_kps s, layout_ok (mf_size ex_mf) C,
      dm_getNumControlVertices s = Ok 5%N /\ layout_count (mf_size ex_mf) C = 3%N
    & dm_setControlVertices ex_mf s C = MRet s' tt].
Proof.
have [s B [_ h _ _]] := C22_ex; exists s.
pose C := DMat 2 3 (fun r c => (r + c)%N%:R : Q).
have lay : layout_ok (mf_size ex_mf) C by [].
have := C26_set_vertices (mf := ex_mf) isT B lay.
by rewrite /layout_count /= => -[s' hs _]; exists s', C; split.
Qed.
Print Assumptions C26_count_refuted.

(* ... and a negative offset moves the iterator before begin() (the limit of the backward
   movement lies ahead of the starting point). *)
Theorem C26_negative_offset_refuted : forall (F : realFieldType) (T : realDomainType)
  (dbl : T -> F) (mf : manifold F), (0 < mf_size mf)%N ->
  forall k kps (s : dspline F T), built dbl mf k kps s -> (1 < k)%N ->
  forall f n, (n <= size kps - k)%N ->
  dm_manipulateControlVertices s f n (kp_knot kps (k - 1)) (- 1) = MUB.
Proof.
move=> F T dbl mf D0 k kps s B k1 f n nk; have [gd ->] := builtE D0 B.
have /and3P[k0 sz _] := gd.
have sg : is_segment k kps (kp_knot kps (k - 1)) (k - 1).
  split; try (move: k0 sz; clear; lia); first exact: lexx.
  by left; apply: (kk_lt gd); move: k0 sz; clear; lia.
rewrite (manipulateE dbl gd _ _ _ sg) nk /start_pos.
have -> : ((k - 1).+1 - k = 0)%N by move: k0; clear; lia.
by have -> : (k - 1 <= 0)%N = false by move: k1; clear; lia.
Qed.
Print Assumptions C26_negative_offset_refuted.

Example C26_ex : exists s s' c', [/\ built ex_dbl ex_mf 3 ex_kps s,
  dm_setLocalCoefficientVector ex_mf s 5 (DVec 6 (fun i => i%:R)) 2 = MRet s' tt,
  dm_getLocalCoefficientVector ex_mf s' 5 2 zerov = Ok c' & c' 4%N = 4%:R].
Proof.
have [s B _] := C22_ex; exists s.
have h : kp_knot ex_kps (3 - 1) <= 5 <= kp_knot ex_kps (size ex_kps - 3) by vm_compute.
have [s' [c' [h1 h2 h3 h4]]] := C26_local_round_trip (mf := ex_mf) isT B
  (c := DVec 6 (fun i => i%:R : Q)) (t := 5) zerov h erefl.
by exists s', c'; split=> //; rewrite h4.
Qed.

(* ------------------------------------------------------------------ C31 *)
(* positions of a container of n elements; the limit lies in the direction of movement *)
Theorem C31_forward : forall n it limit steps, (it <= limit <= n)%N -> 0 <= steps ->
  moveIterator n it limit steps =
    Ok ((it + minn `|steps| (limit - it))%N, (minn `|steps| (limit - it))%:Z) /\
  exists2 it', getMovedIterator n it limit steps = Ok it' & (it <= it' <= limit)%N.
Proof.
move=> n it limit steps h s0; rewrite /getMovedIterator moveIterator_up //; split=> //.
by eexists; [reflexivity|move: h; clear; lia].
Qed.
Print Assumptions C31_forward.

Theorem C31_backward : forall n it limit steps, (limit <= it <= n)%N -> steps <= 0 ->
  moveIterator n it limit steps =
    Ok ((it - minn `|steps| (it - limit))%N, - (minn `|steps| (it - limit))%:Z) /\
  exists2 it', getMovedIterator n it limit steps = Ok it' & (limit <= it' <= it)%N.
Proof.
move=> n it limit steps /andP[h _] s0; rewrite /getMovedIterator moveIterator_down //; split=> //.
by eexists; [reflexivity|move: h; clear; lia].
Qed.
Print Assumptions C31_backward.

(* a limit behind the start does not stop the movement: full distance or past the container *)
Theorem C31_limit_behind : forall n it limit (q : nat), (it <= n)%N -> (limit <= n)%N ->
  ((limit < it)%N -> moveIterator n it limit q%:Z =
     if (it + q <= n)%N then Ok ((it + q)%N, q%:Z) else UB) /\
  ((it < limit)%N -> moveIterator n it limit (- q%:Z) =
     if (q <= it)%N then Ok ((it - q)%N, - q%:Z) else UB).
Proof.
move=> n it limit q h1 h2; split=> h.
  by rewrite moveIterator_all //= leqNgt h.
rewrite moveIterator_all //=; case: (posnP q) => [->|q0].
  by rewrite oppr0 /= (ltnW h) min0n addn0 subn0.
have -> : (0 <= - q%:Z) = false by move: q0; clear; lia.
by rewrite leqNgt h /= abszN.
Qed.
Print Assumptions C31_limit_behind.

Example C31_ex : moveIterator 10 2 5 7 = Ok (5%N, 3%:Z) /\
  moveIterator 10 8 5 (-2) = Ok (6%N, -2).
Proof. by []. Qed.
