(* Property C68: the fitting constructors on uniform knots. *)
From mathcomp Require Import all_ssreflect all_algebra.
From mathcomp.zify Require Import zify.
From Verif Require Import Prelude CoxDeBoor BSplineModel BSplineSpec LinSolve DMModel DMSpec KnotModel KnotProofs
  KnotMainProofs FitterModel FitterSpec FitterExamples FitterUniformProofs FitterUniformExamples.
Set Implicit Arguments.
Unset Strict Implicit.
Unset Printing Implicit Defensive.
Import GRing.Theory Num.Theory Order.Theory.
Local Open Scope ring_scope.

(* ------------------------------------------------------------------ C68 *)
(* real times, given interval: the knots divide [tmin, tmax] into n equal segments, k - 1 more
   on each side; the vertices relevant for the data minimise the cost, the others are zero *)
Theorem C68_interval : forall (F : realFieldType) (cast : F -> int), truncates cast ->
  forall (dbl : F -> F) (one : F), exact_time dbl one ->
  forall (k n D : nat) solve, (0 < k)%N -> (0 < n)%N -> (0 < D)%N -> exact_solver solve ->
  forall fuel dense nc np (tmin tmax : F) times pts lambda,
  tmin < tmax -> (n + 2 * k - 1 <= fuel)%N -> (np <= k.+1)%N -> 0 <= lambda ->
  (2 <= size pts)%N -> size times = size pts ->
  tmin <= head 0 times -> last 0 times <= tmax ->
  (forall t, t \in times -> head 0 times <= t <= last 0 times) ->
  exists kps kps' i0 il, [/\
    ft_initUniformSpline dbl one solve (dbl_policy cast) fuel dense nc np (euclidean F D)
      (dm_new F F k) tmin tmax times pts n%:Z lambda = Some (MRet (canon dbl k kps') tt),
    size kps = (n + 2 * k - 1)%N,
    forall j, (j < size kps)%N ->
      nth kp0 kps j = (tmin + (tmax - tmin) * (j%:R - (k%:R - 1)) / n%:R, zerov),
    is_segment k kps (head 0 times) i0 /\ is_segment k kps (last 0 times) il
    & best_fit dbl one k D kps kps' (i0.+1 - k) il.+1 times pts (fun _ => 1) lambda].
Proof. exact uniform_real. Qed.
Print Assumptions C68_interval.

(* interval = first to last time: optimal among all splines on these knots *)
Theorem C68_over_times : forall (F : realFieldType) (cast : F -> int), truncates cast ->
  forall (dbl : F -> F) (one : F), exact_time dbl one ->
  forall (k n D : nat) solve, (0 < k)%N -> (0 < n)%N -> (0 < D)%N -> exact_solver solve ->
  forall fuel dense nc np times pts lambda,
  head 0 times < last 0 times -> (n + 2 * k - 1 <= fuel)%N -> (np <= k.+1)%N -> 0 <= lambda ->
  (2 <= size pts)%N -> size times = size pts ->
  (forall t, t \in times -> head 0 times <= t <= last 0 times) ->
  exists kps kps', [/\
    ft_initUniformSplineOverTimes dbl one solve (dbl_policy cast) fuel dense nc np (euclidean F D)
      (dm_new F F k) times pts n%:Z lambda = Some (MRet (canon dbl k kps') tt),
    size kps = (n + 2 * k - 1)%N,
    forall j, (j < size kps)%N -> nth kp0 kps j =
      (head 0 times + (last 0 times - head 0 times) * (j%:R - (k%:R - 1)) / n%:R, zerov)
    & best_fit dbl one k D kps kps' 0 (size kps - k) times pts (fun _ => 1) lambda].
Proof. exact uniform_real_over. Qed.
Print Assumptions C68_over_times.

(* given knot distance, any time type; m is the number of steps from the first to beyond the
   last time *)
Theorem C68_delta : forall (F : realFieldType) (T : realDomainType) (dbl : T -> F) (one : T),
  exact_time dbl one -> forall (k m D : nat) solve,
  (0 < k)%N -> (0 < m)%N -> (0 < D)%N -> exact_solver solve ->
  forall fuel dense nc np times pts (delta : T) lambda, 0 < delta ->
  head 0 times + delta *+ m.-1 < last 0 times -> last 0 times <= head 0 times + delta *+ m ->
  (m + 2 * k - 1 <= fuel)%N -> (np <= k.+1)%N -> 0 <= lambda ->
  (2 <= size pts)%N -> size times = size pts ->
  (forall t, t \in times -> head 0 times <= t <= last 0 times) ->
  exists kps kps', [/\
    ft_initUniformSplineWithKnotDelta dbl one solve fuel dense nc np (euclidean F D)
      (dm_new F T k) times pts delta lambda = Some (MRet (canon dbl k kps') tt),
    size kps = (m + 2 * k - 1)%N,
    forall j, (j < size kps)%N -> nth kp0 kps j =
      (head 0 times + delta *~ (j%:Z - (k%:Z - 1)), zerov)
    & best_fit dbl one k D kps kps' 0 (size kps - k) times pts (fun _ => 1) lambda].
Proof. exact uniform_delta. Qed.
Print Assumptions C68_delta.

(* integer times lo..hi, given interval: the same if the segment count divides the duration *)
Theorem C68_interval_nsec_partial : forall (F : realFieldType) (lo hi : int)
  (dbl : int_realDomainType -> F) (one : int_realDomainType), exact_time dbl one ->
  forall (k n D : nat) solve, (0 < k)%N -> (0 < n)%N -> (0 < D)%N -> exact_solver solve ->
  forall fuel dense nc np (tmin tmax : int_realDomainType) times pts lambda,
  tmin < tmax -> (n %| tmax - tmin)%Z ->
  let R := (tmax - tmin) * (n + k)%N%:Z in
  lo <= 0 <= hi -> lo <= - R -> R <= hi -> lo <= tmin - R -> tmax + R <= hi ->
  (n + 2 * k - 1 <= fuel)%N -> (np <= k.+1)%N -> 0 <= lambda ->
  (2 <= size pts)%N -> size times = size pts ->
  tmin <= head 0 times -> last 0 times <= tmax ->
  (forall t, t \in times -> head 0 times <= t <= last 0 times) ->
  exists kps kps' i0 il, [/\
    ft_initUniformSpline dbl one solve (nsec_policy lo hi) fuel dense nc np (euclidean F D)
      (dm_new F _ k) tmin tmax times pts n%:Z lambda = Some (MRet (canon dbl k kps') tt),
    size kps = (n + 2 * k - 1)%N,
    forall j, (j < size kps)%N -> nth kp0 kps j =
      (tmin + ((tmax - tmin) %/ n)%Z * (j%:Z - (k%:Z - 1)), zerov),
    is_segment k kps (head 0 times) i0 /\ is_segment k kps (last 0 times) il
    & best_fit dbl one k D kps kps' (i0.+1 - k) il.+1 times pts (fun _ => 1) lambda].
Proof. exact uniform_nsec. Qed.
Print Assumptions C68_interval_nsec_partial.

(* missing: a segment count that does not divide the duration, and there it is false.  Data
   0, 1, 2, 3 at the knots 0, 3, 6, 10 of a spline of order 2: every solver of the normal
   equations returns a curve with the value 1/2 at time 0, though there is a spline on these
   knots through all data. *)
Theorem C68_nsec_refuted : exists k (n : int) lo hi fuel dense nc np (ts times : seq int_realDomainType)
  (pts : seq (vec Q)), forall solve, exact_solver solve -> exists2 kps',
  ft_initUniformSplineOverTimes fx_dbl (2 : int_realDomainType) solve (nsec_policy lo hi) fuel dense nc np
    (euclidean Q 1) (dm_new Q _ k) times pts n 0 = Some (MRet (canon fx_dbl k kps') tt)
  & map fst kps' = ts /\ (nth kp0 kps' 0).2 0%N = 2%:R^-1 /\
    ~ best_fit fx_dbl (2 : int_realDomainType) k 1 [seq (t, zerov) | t <- ts] kps' 0 4 times pts
        (fun _ => 1) 0.
Proof. by do 11 eexists; exact: fu_refuted. Qed.
Print Assumptions C68_nsec_refuted.

(* arguments that are rejected leave the spline unchanged *)
Theorem C68_rejects : forall (F : realFieldType) (T : realDomainType) (dbl : T -> F) (one : T)
  solve tp fuel dense nc np mf (s : dspline F T) (minT maxT : T) times pts (n : int) lambda,
  (0 < size times)%N ->
  [\/ ds_evaluable s, head 0 times < minT, maxT < last 0 times | n <= 0 \/ maxT <= minT] ->
  exists e, ft_initUniformSpline dbl one solve tp fuel dense nc np mf s minT maxT times pts n lambda
    = Some (MThrow s e).
Proof. exact uniform_rejects. Qed.
Print Assumptions C68_rejects.
Theorem C68_delta_rejects : forall (F : realFieldType) (T : realDomainType) (dbl : T -> F) (one : T)
  solve fuel dense nc np mf (s : dspline F T) times pts delta lambda,
  ds_evaluable s \/ (size times < 2)%N ->
  ft_initUniformSplineWithKnotDelta dbl one solve fuel dense nc np mf s times pts delta lambda
    = Some (MThrow s ExnSpline).
Proof. exact delta_rejects. Qed.
Print Assumptions C68_delta_rejects.

(* three values at 0, 1, 3; order 2, two segments *)
Example C68_ex_over : exists kps kps', [/\
  ft_initUniformSplineOverTimes (fun x : Q => x) (1 : Q) fx_solve
    (dbl_policy (fun x : Q => (numq x %/ denq x)%Z)) 5 true false 3 (euclidean Q 1) (dm_new Q Q 2)
    fu_rtimes fu_rpts 2 1 = Some (MRet (canon (fun x : Q => x) 2 kps') tt), size kps = 5%N
  & best_fit (fun x : Q => x) (1 : Q) 2 1 kps kps' 0 3 fu_rtimes fu_rpts (fun _ => 1) 1].
Proof.
have lt : head 0 fu_rtimes < last 0 fu_rtimes by exact: isT.
have [kps [kps' [e sz _ bf]]] := C68_over_times rat_truncates fu_rtime (isT : 0 < 2)%N
  (isT : 0 < 2)%N (isT : 0 < 1)%N fx_exact true false lt (isT : 2 + 2 * 2 - 1 <= 5)%N
  (isT : 3 <= 3)%N ler01 (isT : 2 <= size fu_rpts)%N (erefl _) fu_bounded.
by exists kps, kps'; split; [exact: e|exact: sz|move: bf; rewrite sz].
Qed.
Example C68_ex_delta : exists kps kps', [/\
  ft_initUniformSplineWithKnotDelta fx_dbl (2 : int_realDomainType) fx_solve 9 true false 3 (euclidean Q 1)
    (dm_new Q _ 2) fu_times fu_pts 4 0 = Some (MRet (canon fx_dbl 2 kps') tt), size kps = 6%N
  & best_fit fx_dbl (2 : int_realDomainType) 2 1 kps kps' 0 4 fu_times fu_pts (fun _ => 1) 0].
Proof.
have bd t : t \in fu_times -> head 0 fu_times <= t <= last 0 fu_times.
  by rewrite !inE => /or4P[] /eqP ->.
have d0 : (0 : int_realDomainType) < 4 by exact: isT.
have l1 : head 0 fu_times + (4 : int_realDomainType) *+ 3.-1 < last 0 fu_times by exact: isT.
have l2 : last 0 fu_times <= head 0 fu_times + (4 : int_realDomainType) *+ 3 by exact: isT.
have [kps [kps' [e sz _ bf]]] := C68_delta fx_time (isT : 0 < 2)%N (isT : 0 < 3)%N
  (isT : 0 < 1)%N fx_exact true false d0 l1 l2 (isT : 3 + 2 * 2 - 1 <= 9)%N (isT : 3 <= 3)%N
  (lexx _) (isT : 2 <= size fu_pts)%N (erefl _) bd.
by exists kps, kps'; split; [exact: e|exact: sz|move: bf; rewrite sz].
Qed.
(* the straight line through the data at the knots has these knots, so the data can be met *)
Example C68_ex_line : map fst fu_line = fu_ts /\
  [seq (nth kp0 fu_line i).2 0%N | i <- iota 0 4] = [seq nth zerov fu_pts i 0%N | i <- iota 0 4].
Proof. by split; exact: erefl. Qed.
