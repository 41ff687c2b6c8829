(* Properties C36, C37, C55, C56, C57: BSplineFitterImpl.hpp. *)
From mathcomp Require Import all_ssreflect all_algebra.
From Verif Require Import Prelude CoxDeBoor BSplineSpec LinSolve DMModel DMSpec DMProofs DMEvalProofs DMAccessProofs FitterModel FitterSpec
  FitterCalcProofs FitterTopProofs FitterExamples.
Set Implicit Arguments.
Unset Strict Implicit.
Unset Printing Implicit Defensive.
Import GRing.Theory Num.Theory Order.Theory.
Local Open Scope ring_scope.

(* ------------------------------------------------------------------ C36 *)
(* best_fit k D kps kps' a b times pts w lambda: kps' has the knots of kps, its points outside
   a .. b-1 are those of kps, and no other such list has a smaller weighted squared residual
   plus lambda times the integral of the squared second derivative.

   Partial: with fixed vertices and lambda > 0 together the statement is false, see
   C36_refuted.  Everything else is covered: any knots, times, points, weights, nonnegative
   lambda without fixed vertices, any number of fixed vertices without lambda, both backends,
   with and without offsets (the code rejects offsets together with lambda). *)
Theorem C36_calc_partial : forall (F : realFieldType) (T : realDomainType) (dbl : T -> F)
  (one : T) (D : nat), (0 < D)%N -> exact_time dbl one ->
  forall solve, exact_solver solve ->
  forall k kps (s : dspline F T), built dbl (euclidean F D) k kps s ->
  forall dense nc np rs times pts wf w lambda fixN (offsets : bool) i0 il,
  (np <= k.+1)%N -> 0 <= lambda -> lambda = 0 \/ fixN = 0%N -> (offsets -> lambda = 0) ->
  batch_ok k kps times pts -> numbers_knots kps (head 0 times) (last 0 times) rs ->
  weights_are (size pts) wf w ->
  is_segment k kps (head 0 times) i0 -> is_segment k kps (last 0 times) il ->
  exists s' kps',
    [/\ ft_calcFittedControlVertices dbl one solve dense nc np (euclidean F D) s rs times pts wf
          lambda fixN offsets = MRet s' tt, built dbl (euclidean F D) k kps' s'
      & best_fit dbl one k D kps kps' (i0.+1 - k + fixN) il.+1 times pts w lambda].
Proof. exact b_calc. Qed.
Print Assumptions C36_calc_partial.

(* the public function, which builds its own index resolver *)
Theorem C36_fit_partial : forall (F : realFieldType) (T : realDomainType) (dbl : T -> F)
  (one : T) (D : nat), (0 < D)%N -> exact_time dbl one ->
  forall solve, exact_solver solve ->
  forall k kps (s : dspline F T), built dbl (euclidean F D) k kps s ->
  forall dense nc np times pts wf w lambda fixN (offsets : bool),
  (np <= k.+1)%N -> 0 <= lambda -> lambda = 0 \/ fixN = 0%N -> (offsets -> lambda = 0) ->
  batch_ok k kps times pts -> weights_are (size pts) wf w ->
  exists s' kps' i0 il,
    [/\ is_segment k kps (head 0 times) i0, is_segment k kps (last 0 times) il,
        ft_fitSpline dbl one solve dense nc np (euclidean F D) s times pts lambda fixN wf offsets
          = MRet s' tt,
        built dbl (euclidean F D) k kps' s'
      & best_fit dbl one k D kps kps' (i0.+1 - k + fixN) il.+1 times pts w lambda].
Proof. exact b_fit. Qed.
Print Assumptions C36_fit_partial.

(* a new spline *)
Theorem C36_init : forall (F : realFieldType) (T : realDomainType) (dbl : T -> F)
  (one : T), exact_time dbl one -> forall (k D : nat) (ts : seq T), (0 < k)%N -> (0 < D)%N ->
  sorted <%R ts -> (2 * k <= size ts)%N -> forall solve, exact_solver solve ->
  forall dense nc np own times pts lambda i0 il,
  (np <= k.+1)%N -> 0 <= lambda -> (2 <= size pts)%N -> 
  batch_ok k [seq (t, zerov) | t <- ts] times pts ->
  (if own is Some rs then
     numbers_knots [seq (t, zerov : vec F) | t <- ts] (head 0 times) (last 0 times) rs
   else True) ->
  is_segment k [seq (t, zerov : vec F) | t <- ts] (head 0 times) i0 ->
  is_segment k [seq (t, zerov : vec F) | t <- ts] (last 0 times) il ->
  exists2 kps',
    ft_initSpline dbl one solve dense nc np (euclidean F D) (dm_new F T k) ts own times pts lambda
      = MRet (canon dbl k kps') tt &
    best_fit dbl one k D [seq (t, zerov) | t <- ts] kps' (i0.+1 - k) il.+1 times pts (fun _ => 1)
      lambda.
Proof. exact initSplineE. Qed.
Print Assumptions C36_init.

(* Fixed vertices are honoured in every case (also with lambda): a normal return changes only
   the vertices after the fixed ones, up to the segment of the last time. *)
Theorem C36_fixed_kept : forall (F : realFieldType) (T : realDomainType) (dbl : T -> F)
  (one : T) (D : nat), (0 < D)%N -> exact_time dbl one -> forall solve,
  forall k kps (s : dspline F T), built dbl (euclidean F D) k kps s ->
  forall dense nc np times pts wf w lambda fixN (offsets : bool) i0 s',
  (np <= k.+1)%N -> (offsets -> lambda = 0) ->
  weights_are (size pts) wf w -> is_segment k kps (head 0 times) i0 ->
  ft_fitSpline dbl one solve dense nc np (euclidean F D) s times pts lambda fixN wf offsets
    = MRet s' tt ->
  exists il kps', [/\ is_segment k kps (last 0 times) il, built dbl (euclidean F D) k kps' s'
    & competitor D kps kps' (i0.+1 - k + fixN) il.+1].
Proof. exact b_fixed. Qed.
Print Assumptions C36_fixed_kept.

(* any other batch is rejected and nothing is changed *)
Theorem C36_rejects : forall (F : realFieldType) (T : realDomainType) (dbl : T -> F)
  (one : T) (D : nat), (0 < D)%N -> forall solve,
  forall k kps (s : dspline F T), built dbl (euclidean F D) k kps s ->
  forall dense nc np times pts wf lambda fixN (offsets : bool),
  ~ batch_ok k kps times pts ->
  ft_fitSpline dbl one solve dense nc np (euclidean F D) s times pts lambda fixN wf offsets
  = MThrow s ExnSpline.
Proof. exact b_rejects. Qed.
Print Assumptions C36_rejects.

(* One new value 1 at time 5, lambda = 1, two fixed vertices, one unknown: the result is not
   the optimum (2 is, the call returns 2/65). *)
Theorem C36_refuted : exists (F : realFieldType) (T : realDomainType) (dbl : T -> F) (one : T)
  solve (k D : nat) kps s times pts lambda fixN i0 il,
  [/\ (0 < D)%N /\ exact_time dbl one, exact_solver solve, built dbl (euclidean F D) k kps s,
      [/\ batch_ok k kps times pts, 0 <= lambda, is_segment k kps (head 0 times) i0
        & is_segment k kps (last 0 times) il]
    & exists s' kps',
  [/\ ft_fitSpline dbl one solve true false 3 (euclidean F D) s times pts lambda fixN None false
        = MRet s' tt, s' = canon dbl k kps',
      competitor D kps kps' (i0.+1 - k + fixN) il.+1
    & ~ best_fit dbl one k D kps kps' (i0.+1 - k + fixN) il.+1 times pts (fun=> 1) lambda]].
Proof.
exists Q, fxT, fx_dbl, (2 : fxT), fx_solve, 3%N, 1%N, fx_kps, (canon fx_dbl 3 fx_kps), fx_times,
  fx_pts, 1, 2%N, 2%N, 2%N; split.
- by split; [exact: isT|exact: fx_time].
- exact: fx_exact.
- exact: (good_built fx_dbl 1 fx_good).
- by split; [exact: fx_batch|exact: ler01|exact: fx_seg|exact: fx_seg].
- exact: fx_refuted.
Qed.
Print Assumptions C36_refuted.

Example C36_ex : exists s' kps', 
  [/\ built fx_dbl (euclidean Q 1) 3 fx_kps (canon fx_dbl 3 fx_kps),
      ft_fitSpline fx_dbl (2 : fxT) fx_solve false true 4 (euclidean Q 1) (canon fx_dbl 3 fx_kps)
        fx_times fx_pts 1 0 None false = MRet s' tt, built fx_dbl (euclidean Q 1) 3 kps' s'
    & best_fit fx_dbl (2 : fxT) 3 1 fx_kps kps' 0 3 fx_times fx_pts (fun=> 1) 1].
Proof.
have bs := good_built fx_dbl 1 fx_good.
have [||s' [kps' [i0 [il [s0 sl h1 h2 h3]]]]] := C36_fit_partial (D := 1) isT fx_time fx_exact bs false true
  (np := 4) (lambda := 1) (fixN := 0%N) (offsets := false) isT ler01 (or_intror erefl) _ fx_batch
  (wf := None) (w := fun=> 1) _.
- by [].
- by move=> i _.
exists s', kps'; split; [exact: bs|exact: h1|exact: h2|].
have e0 := segment_unique fx_good s0 fx_seg; have el := segment_unique fx_good sl fx_seg.
by rewrite e0 el in h3; exact: h3.
Qed.
(* two fixed vertices, no lambda: the free vertex becomes 18, then 0/8 + 3/4 + 18/8 = 3 *)
Example C36_ex_fixed :
  match ft_fitSpline fx_dbl (2 : fxT) fx_solve false true 4 (euclidean Q 1) (canon fx_dbl 3 fx_kps)
        fx_times [:: fx_pt 3] 0 2 None false with
  | MRet s' _ => [seq sg_pt x 0%N | x <- ds_segs s'] == [:: 0; 1; 18%:R; 3%:R; 4%:R; 5%:R]
  | _ => false end.
Proof. by vm_compute. Qed.

(* ------------------------------------------------------------------ C37 *)
(* The data of the final fit (s is the extended spline, knot e its old end, the first new time
   in segment i0): times and points get rel additional entries; the number of weights is rel
   if and only if 2k <= i0 + 3.  Otherwise it is smaller and the weight function reads behind
   the end.  Partial: the equality holds only under this condition. *)
Theorem C37_lengths_partial : forall (F : realFieldType) (T : realDomainType) (dbl : T -> F)
  (one : T) (D : nat), (0 < D)%N -> exact_time dbl one ->
  forall k kps (s : dspline F T), built dbl (euclidean F D) k kps s ->
  forall np junk times pts bw i0 e,
  (np <= k.+1)%N -> is_segment k kps (head 0 times) i0 -> (k <= e <= size kps - k)%N ->
  exists newTimes newPoints weights rel,
  [/\ ft_extendData (ft_evalAt dbl one np) junk s times pts (kp_knot kps e) bw
        = Ok (newTimes, newPoints, weights, rel),
      size newTimes = (size times + rel)%N, size newPoints = (size pts + rel)%N,
      (size weights <= rel)%N & size weights = rel <-> (2 * k <= i0 + 3)%N].
Proof. exact b_lengths. Qed.
Print Assumptions C37_lengths_partial.

(* k = 3, knots -4 -2 0 2 4 6, new values at the times 1 and 2 *)
Notation C37_kps := ([:: (- (4 : int), fx_pt 0); (- (2 : int), fx_pt 1); (0 : int, fx_pt 2);
  (2 : int, fx_pt 3); (4 : int, fx_pt 4); (6 : int, fx_pt 5)] : seq (fxT * vec Q)).
Notation C37_times := ([:: 1 : int; 2 : int] : seq fxT).
Notation C37_pts := ([:: fx_pt 1; fx_pt 2] : seq (vec Q)).
Theorem C37_refuted :
  [/\ built fx_dbl (euclidean Q 1) 3 C37_kps (canon fx_dbl 3 C37_kps),
      batch_ok 3 C37_kps C37_times C37_pts,
      (if ft_extendData (ft_evalAt fx_dbl (2 : fxT) 4) zerov (canon fx_dbl 3 C37_kps) C37_times
            C37_pts (2 : fxT) 1 is Ok (newTimes, newPoints, weights, rel)
       then [&& size newTimes == 5%N, size newPoints == 5%N, size weights == 2%N & rel == 3%N]
       else false)
    & match ft_extendAndFitSpline fx_dbl (2 : fxT) fx_solve (ft_evalAt fx_dbl (2 : fxT) 4) zerov
        true false 4 (euclidean Q 1) (canon fx_dbl 3 C37_kps) true (fun=> [::]) C37_times C37_pts 0
        50 false with MUB => true | _ => false end].
Proof.
split; [apply: good_built; by vm_compute|split; [by vm_compute..|]|by vm_compute|by vm_compute].
by move=> t; rewrite !inE => /orP[/eqP ->|/eqP ->]; vm_compute.
Qed.
Print Assumptions C37_refuted.

(* k = 3, knots 0 2 4 .. 14, first new time 7 in segment 3: equal lengths *)
Notation C37_kps2 := ([:: (0 : int, fx_pt 0); (2 : int, fx_pt 1); (4 : int, fx_pt 2);
  (6 : int, fx_pt 3); (8 : int, fx_pt 4); (10 : int, fx_pt 5); (12 : int, fx_pt 1);
  (14 : int, fx_pt 2)] : seq (fxT * vec Q)).
Example C37_ex : [/\ built fx_dbl (euclidean Q 1) 3 C37_kps2 (canon fx_dbl 3 C37_kps2),
  is_segment 3 C37_kps2 (7 : int) 3
  & if ft_extendData (ft_evalAt fx_dbl (2 : fxT) 4) zerov (canon fx_dbl 3 C37_kps2) [:: 7 : int]
            [:: fx_pt 1] (10 : fxT) 1 is Ok (newTimes, newPoints, weights, rel)
    then [&& newTimes == [:: 4; 6; 8; 10; 7], size newPoints == 5%N, size weights == 4%N &
      rel == 4%N] else false].
Proof.
split; [by apply: good_built; vm_compute|split; [by vm_compute..|left; by vm_compute]|by vm_compute].
Qed.

(* ------------------------------------------------------------------ C55 *)
(* With 0 < honor < 100 every batch that lies in the valid interval and ends before its end is
   rejected: the last old knot passed to the fit is the old end. *)
Theorem C55_rejects_inner : forall (F : realFieldType) (T : realDomainType) (dbl : T -> F)
  (one : T) (D : nat), (0 < D)%N -> exact_time dbl one ->
  forall solve k kps (s : dspline F T), built dbl (euclidean F D) k kps s ->
  forall gen times pts, sorted <%R (map fst kps ++ gen (last 0 times)) ->
  forall junk dense nc np lambda honor offsets, (np <= k.+1)%N -> (0 < honor < 100)%N ->
  batch_ok k kps times pts -> last 0 times < kp_knot kps (size kps - k) ->
  ft_extendAndFitSpline dbl one solve (ft_evalAt dbl one np) junk dense nc np (euclidean F D) s true
    gen times pts lambda honor offsets = MThrow s ExnSpline.
Proof. exact b_ends_before. Qed.
Print Assumptions C55_rejects_inner.
(* a batch that fitSpline accepts and extendAndFitSpline rejects *)
Theorem C55_refuted : exists s kps,
  [/\ built fx_dbl (euclidean Q 1) 3 kps s, batch_ok 3 kps fx_times fx_pts,
      (exists s', ft_fitSpline fx_dbl (2 : fxT) fx_solve true false 4 (euclidean Q 1) s fx_times
         fx_pts 0 0 None false = MRet s' tt)
    & ft_extendAndFitSpline fx_dbl (2 : fxT) fx_solve (ft_evalAt fx_dbl (2 : fxT) 4) zerov true
        false 4 (euclidean Q 1) s true (fun=> [::]) fx_times fx_pts 0 50 false
      = MThrow s ExnSpline].
Proof.
have bs := good_built fx_dbl 1 fx_good.
exists (canon fx_dbl 3 fx_kps), fx_kps; split; [exact: bs|exact: fx_batch| |].
- have [||s' [kps' [i0 [il [_ _ h _ _]]]]] := C36_fit_partial (D := 1) isT fx_time fx_exact bs true
    false (np := 4) (lambda := 0) (fixN := 0%N) (offsets := false) isT (lexx 0) (or_intror erefl) _
    fx_batch (wf := None) (w := fun=> 1) _.
  + by [].
  + by move=> i _.
  by exists s'; exact: h.
apply: (C55_rejects_inner (D := 1) isT fx_time fx_solve bs).
- by vm_compute.
- exact: isT.
- exact: isT.
- exact: fx_batch.
- by vm_compute.
Qed.
Print Assumptions C55_refuted.

(* ------------------------------------------------------------------ C56 *)
(* honor = 100: the curve before the old end is not changed, whatever the data, lambda and the
   solver *)
Theorem C56_keeps_old : forall (F : realFieldType) (T : realDomainType) (dbl : T -> F)
  (one : T) (D : nat), (0 < D)%N -> exact_time dbl one ->
  forall solve k kps (s : dspline F T), built dbl (euclidean F D) k kps s ->
  forall gen times pts, sorted <%R (map fst kps ++ gen (last 0 times)) ->
  forall evalAt junk dense nc np lambda (offsets : bool) s',
  (np <= k.+1)%N -> (0 < size pts)%N -> size times = size pts ->
  kp_knot kps (k - 1) <= head 0 times ->
  ft_extendAndFitSpline dbl one solve evalAt junk dense nc np (euclidean F D) s true gen times
    pts lambda 100 offsets = MRet s' tt ->
  forall t d imax np', kp_knot kps (k - 1) <= t < kp_knot kps (size kps - k) -> (np' <= k.+1)%N ->
  (if imax is Some mx then (d <= mx)%N else true) ->
  exists ev ev' v v', [/\ dm_evaluator dbl s t = Ok ev, dm_evaluator dbl s' t = Ok ev',
    eu_evalD dbl one imax np' s ev d = Ok v, eu_evalD dbl one imax np' s' ev' d = Ok v'
  & forall r, (r < D)%N -> v' r = v r].
Proof. exact b_keeps_old. Qed.
Print Assumptions C56_keeps_old.
(* extended to the knot 12; the vertex 3 is fitted to the value at time 7 *)
Example C56_ex : [/\ sorted <%R (map fst fx_kps ++ [:: 12]),
  kp_knot fx_kps (3 - 1) <= (7 : fxT)
  & match ft_extendAndFitSpline fx_dbl (2 : fxT) fx_solve (ft_evalAt fx_dbl (2 : fxT) 4) zerov
        true false 4 (euclidean Q 1) (canon fx_dbl 3 fx_kps) true (fun=> [:: 12])
        [:: 7] [:: fx_pt 1] 0 100 false with
     | MRet s' _ => (take 3 [seq sg_pt x 0%N | x <- ds_segs s'] == [:: 0; 1; 2%:R]) &&
         (sg_pt (nth (seg0 Q fxT) (ds_segs s') 3) 0%N == - 5%:R)
     | _ => false end].
Proof. split; by vm_compute. Qed.

(* ------------------------------------------------------------------ C57 *)
(* honor = 0: the best fit of the extended spline to the new data *)
Theorem C57_ignores_old : forall (F : realFieldType) (T : realDomainType) (dbl : T -> F)
  (one : T) (D : nat), (0 < D)%N -> exact_time dbl one ->
  forall solve, exact_solver solve -> forall k kps (s : dspline F T),
  built dbl (euclidean F D) k kps s ->
  forall gen times pts, sorted <%R (map fst kps ++ gen (last 0 times)) ->
  let ext := extended D k kps gen times in
  forall junk dense nc np lambda (offsets : bool) i0 il evalAt,
  (np <= k.+1)%N -> 0 <= lambda -> (offsets -> lambda = 0) -> batch_ok k ext times pts ->
  is_segment k ext (head 0 times) i0 -> is_segment k ext (last 0 times) il ->
  exists s' kps',
    [/\ ft_extendAndFitSpline dbl one solve evalAt junk dense nc np (euclidean F D) s true gen times
      pts lambda 0 offsets = MRet s' tt, built dbl (euclidean F D) k kps' s'
  & best_fit dbl one k D ext kps' (i0.+1 - k) il.+1 times pts (fun=> 1) lambda].
Proof. exact b_ignores_old. Qed.
Print Assumptions C57_ignores_old.

(* 0 < honor < 100: the best fit to the new data (weight 1) and the old curve at the knots
   between the first relevant one and the old end (weight honor / (100 - honor)).
   Partial: needs order at least 2, the first new time late enough for C37 and the last one
   not before the old end (C55). *)
Theorem C57_fits_both_partial : forall (F : realFieldType) (T : realDomainType) (dbl : T -> F)
  (one : T) (D : nat), (0 < D)%N -> exact_time dbl one ->
  forall solve, exact_solver solve -> forall k kps (s : dspline F T),
  built dbl (euclidean F D) k kps s ->
  forall gen times pts, sorted <%R (map fst kps ++ gen (last 0 times)) ->
  forall junk dense nc np lambda honor (offsets : bool) i0 il,
  let ext := extended D k kps gen times in
  (np <= k.+1)%N -> (0 < honor < 100)%N -> (1 < k)%N -> (2 * k <= i0 + 3)%N ->
  0 <= lambda -> (offsets -> lambda = 0) ->
  batch_ok k ext times pts -> kp_knot kps (size kps - k) <= last 0 times ->
  is_segment k ext (head 0 times) i0 -> is_segment k ext (last 0 times) il ->
  let rel := (size kps - k - (i0.+1 - k))%N in
  let ks := [seq kp_knot ext p.+1 | p <- iota (i0.+1 - k) rel] in
  exists s' vs i0' kps', [/\ size vs = rel /\
    (forall j i r, (j < rel)%N -> is_segment k ext (nth 0 ks j) i ->
      nth zerov vs j r = (dm_piece dbl one k ext r i).[sec dbl one (nth 0 ks j)]),
    is_segment k ext (head 0 (ks ++ times)) i0',
    ft_extendAndFitSpline dbl one solve (ft_evalAt dbl one np) junk dense nc np (euclidean F D) s
      true gen times pts lambda honor offsets = MRet s' tt, built dbl (euclidean F D) k kps' s'
  & best_fit dbl one k D ext kps' (i0'.+1 - k) il.+1 (ks ++ times) (vs ++ pts)
      (fun j => if (j < rel)%N then honor%:R / (100 - honor)%:R else 1) lambda].
Proof. exact b_fits_both. Qed.
Print Assumptions C57_fits_both_partial.
(* k = 2, knots 0 2 .. 10, extended to 12 14 for data at 5 and 9 *)
Example C57_ex : let ext := extended 1 2 fx_kps (fun=> [:: 12; 14]) [:: 5; 11] in
  [/\ good 2 fx_kps, sorted <%R (map fst fx_kps ++ [:: 12; 14]),
      batch_ok 2 ext [:: 5; 11] [:: fx_pt 1; fx_pt 2], is_segment 2 ext (5 : fxT) 2
    & is_segment 2 ext (11 : fxT) 5 /\ kp_knot fx_kps (size fx_kps - 2) <= (11 : fxT)].
Proof.
cbv zeta; split; [by vm_compute..|split; [by vm_compute..|]|split|split]; try by vm_compute.
- by move=> t; rewrite !inE => /orP[/eqP ->|/eqP ->]; vm_compute.
- by left; vm_compute.
- by split; [vm_compute..|left; vm_compute].
Qed.
