(* Properties C27-C29: uniform knot generators, the knot index resolver, integer time
   interpolation. *)
From mathcomp Require Import all_ssreflect all_algebra.
From mathcomp.zify Require Import zify.
From Verif Require Import Prelude CoxDeBoor DMModel DMSpec DMMainProofs KnotModel KnotProofs
  KnotMainProofs Examples PropsDMA.
Set Implicit Arguments.
Unset Strict Implicit.
Unset Printing Implicit Defensive.
Import GRing.Theory Num.Theory Order.Theory.
Local Open Scope ring_scope.

(* ------------------------------------------------------------------ C27 *)
(* real times: n + 2k - 1 knots, evenly spaced, the k-th is tmin, the k-th from the end tmax;
   the generator is then exhausted *)
Theorem C27_interval : forall (F : realFieldType) (cast : F -> int) k n (tmin tmax : F) fuel,
  (0 < k)%N -> (0 < n)%N -> tmin < tmax -> (n + 2 * k - 1 <= fuel)%N ->
  exists g g' ts, [/\ ig_new k tmin tmax n%:Z = Ok g,
    ig_drain (dbl_policy cast) fuel g = Ok (Some (g', ts)) /\ ~~ ig_hasNextKnot g',
    size ts = (n + 2 * k - 1)%N /\ sorted <%R ts,
    forall i, (i.+1 < size ts)%N -> nth 0 ts i.+1 - nth 0 ts i = (tmax - tmin) / n%:R
  & nth 0 ts (k - 1) = tmin /\ nth 0 ts (size ts - k) = tmax].
Proof. exact main_interval_knots. Qed.
Print Assumptions C27_interval.

(* integer times lo..hi: whatever is delivered without overflow has the same count and ends,
   and is increasing if there is at least one tick per segment *)
Theorem C27_interval_nsec : forall (lo hi : int) k n (tmin tmax : int_realDomainType) fuel g g' ts,
  (0 < k)%N -> ig_new k tmin tmax n%:Z = Ok g ->
  ig_drain (nsec_policy lo hi) fuel g = Ok (Some (g', ts)) ->
  [/\ size ts = (n + 2 * k - 1)%N, nth 0 ts (k - 1) = tmin, nth 0 ts (size ts - k) = tmax
    & n%:Z <= tmax - tmin -> sorted <%R ts].
Proof. exact main_interval_nsec. Qed.
Print Assumptions C27_interval_nsec.

(* ... and nothing overflows if tmin - D and tmax + D fit, where D = (tmax - tmin) * (n + k) *)
Theorem C27_interval_nsec_total : forall (lo hi : int) k n (tmin tmax : int_realDomainType) fuel,
  (0 < k)%N -> (0 < n)%N -> tmin < tmax -> (n + 2 * k - 1 <= fuel)%N ->
  let D := (tmax - tmin) * (n + k)%N%:Z in
  lo <= 0 <= hi -> lo <= - D -> D <= hi -> lo <= tmin - D -> tmax + D <= hi ->
  exists g g' ts, ig_new k tmin tmax n%:Z = Ok g /\
    ig_drain (nsec_policy lo hi) fuel g = Ok (Some (g', ts)).
Proof. exact main_interval_nsec_total. Qed.
Print Assumptions C27_interval_nsec_total.

(* the constructor rejects an empty interval and a segment count below one *)
Theorem C27_interval_rejects : forall (T : realDomainType) k (tmin tmax : T) (n : int),
  n <= 0 \/ tmax <= tmin -> ig_new k tmin tmax n = Throw ExnRuntime.
Proof. exact main_interval_rejects. Qed.
Print Assumptions C27_interval_rejects.

(* the spline made from the generator: n segments on exactly [tmin, tmax] *)
Theorem C27_spline : forall (F : realFieldType) (cast : F -> int) (dbl : F -> F)
  (mf : manifold F) k n (tmin tmax : F) fuel sz c,
  (0 < mf_size mf)%N -> (0 < k)%N -> (0 < n)%N -> tmin < tmax -> (n + 2 * k - 1 <= fuel)%N ->
  (0 < sz)%N -> mf_in mf c ->
  exists s kps, [/\ dm_initConstantUniformSpline dbl (dbl_policy cast) mf (dm_new F F k) fuel
      tmin tmax n%:Z sz c = Some (MRet s tt),
    built dbl mf k kps s /\ size kps = (n + 2 * k - 1)%N,
    forall j, (j < size kps)%N -> (nth kp0 kps j).2 = c,
    dm_getNumValidTimeSegments s = n
  & dm_getMinTime s = Ok tmin /\ dm_getMaxTime s = Ok tmax].
Proof. exact main_uniform_spline. Qed.
Print Assumptions C27_spline.

(* DeltaUniformKnotGenerator(k, start, beyond, delta): knots at distance delta, the k-th is
   start, the k-th from the end is the first grid point not before beyond.
   m is the number of steps from start to there. *)
Theorem C27_delta : forall (T : realDomainType) k (start beyond delta : T) m fuel,
  (0 < k)%N -> 0 < delta -> (0 < m)%N ->
  start + delta *+ m.-1 < beyond -> beyond <= start + delta *+ m -> (m + 2 * k - 1 <= fuel)%N ->
  exists g' ts, [/\ dg_drain fuel (dg_new k start beyond delta false) = Some (g', ts),
    ~~ dg_hasNextKnot g', size ts = (m + 2 * k - 1)%N /\ sorted <%R ts,
    forall i, (i.+1 < size ts)%N -> nth 0 ts i.+1 - nth 0 ts i = delta
  & nth 0 ts (k - 1) = start /\ nth 0 ts (size ts - k) = start + delta *+ m].
Proof. by move=> T k st b d m f k0; exact: main_delta. Qed.
Print Assumptions C27_delta.

(* such an m exists for integer times and for every Archimedean number type *)
Theorem C27_delta_steps : forall (F : archiFieldType) (start beyond delta : F),
  0 < delta -> start < beyond ->
  exists2 m, (0 < m)%N & start + delta *+ m.-1 < beyond <= start + delta *+ m.
Proof. exact main_delta_steps. Qed.
Print Assumptions C27_delta_steps.
Theorem C27_delta_steps_nsec : forall (start beyond delta : int), 0 < delta -> start < beyond ->
  exists2 m, (0 < m)%N & start + delta *+ m.-1 < beyond <= start + delta *+ m.
Proof. exact main_delta_steps_nsec. Qed.
Print Assumptions C27_delta_steps_nsec.

(* after extendBeyondTime the generator continues on the same grid up to the new end *)
Theorem C27_delta_extend : forall (T : realDomainType) k (start beyond beyond' delta : T) m m' fuel,
  (0 < k)%N -> 0 < delta -> (0 < m)%N -> (m <= m')%N ->
  start + delta *+ m.-1 < beyond -> beyond <= start + delta *+ m ->
  start + delta *+ m'.-1 < beyond' -> beyond' <= start + delta *+ m' ->
  (m' + 2 * k - 1 <= fuel)%N ->
  exists g1 ts1 g2 ts2, [/\
    dg_drain fuel (dg_new k start beyond delta false) = Some (g1, ts1),
    dg_drain fuel (dg_extendBeyondTime g1 beyond') = Some (g2, ts2)
  & dg_drain fuel (dg_new k start beyond' delta false) = Some (g2, ts1 ++ ts2)].
Proof. by move=> T k st b b' d m m' f k0; exact: main_delta_extend. Qed.
Print Assumptions C27_delta_extend.

(* a delta that is not positive: the loop over the knots never ends *)
Theorem C27_delta_diverges : forall (T : realDomainType) k (start beyond delta : T) fuel,
  (0 < k)%N -> delta <= 0 -> start < beyond + delta *+ (2 * k - 1) ->
  dg_drain fuel (dg_new k start beyond delta false) = None.
Proof. by move=> T k st b d f k0; exact: main_delta_diverges. Qed.
Print Assumptions C27_delta_diverges.

(* order 3, [0, 10] with 3 segments; integer times; step 4 from 1 beyond 10 *)
Example C27_ex : match ig_new 3 (0 : int_realDomainType) 10 3%:Z with
  | Ok g => if ig_drain (nsec_policy (-1000) 1000) 9 g is Ok (Some (g', ts))
            then (ts == [:: -6; -3; 0; 3; 6; 10; 13; 16]) && ~~ ig_hasNextKnot g' else false
  | _ => false
  end.
Proof. by vm_compute. Qed.
Example C27_ex_delta :
  if dg_drain 9 (dg_new 3 (1 : int_realDomainType) 10 4 false) is Some (_, ts)
  then ts == [:: -7; -3; 1; 5; 9; 13; 17; 21] else false.
Proof. by vm_compute. Qed.
Example C27_ex_real : exists g g' ts, [/\ ig_new 2 (0 : Q) 1 3%:Z = Ok g,
  ig_drain (dbl_policy (fun _ : Q => 0)) 6 g = Ok (Some (g', ts)) & size ts = 6%N].
Proof.
have lt : (0 : Q) < 1 by [].
have [g [g' [ts [h1 [h2 _] [h3 _] _ _]]]] :=
  C27_interval (fun _ : Q => 0) (isT : 0 < 2)%N (isT : 0 < 3)%N lt (isT : 3 + 2 * 2 - 1 <= 6)%N.
by exists g, g', ts.
Qed.

(* ------------------------------------------------------------------ C28 *)
(* real times, t < tmax: the resolver of the generator that made the knots names the segment
   which the spline uses.  truncates: conversion of a nonnegative double to int. *)
Theorem C28_resolver_partial : forall (F : realFieldType) (cast : F -> int) (dbl : F -> F)
  (mf : manifold F), (0 < mf_size mf)%N -> forall k n (tmin tmax : F) g g' ts fuel,
  (0 < k)%N -> ig_new k tmin tmax n%:Z = Ok g ->
  ig_drain (dbl_policy cast) fuel g = Ok (Some (g', ts)) ->
  forall kps s, built dbl mf k kps s -> map fst kps = ts -> truncates cast ->
  forall t, tmin <= t < tmax ->
  exists2 i : nat, dm_getSegmentIterator s t = Ok i &
    ig_getKnotIndexAtTime (dbl_policy cast) g t = Ok i%:Z.
Proof. exact main_resolve. Qed.
Print Assumptions C28_resolver_partial.

(* missing: t = tmax, where the resolver is always one too high *)
Theorem C28_end_refuted : forall (F : realFieldType) (cast : F -> int) (dbl : F -> F)
  (mf : manifold F), (0 < mf_size mf)%N -> forall k n (tmin tmax : F) g g' ts fuel,
  (0 < k)%N -> ig_new k tmin tmax n%:Z = Ok g ->
  ig_drain (dbl_policy cast) fuel g = Ok (Some (g', ts)) ->
  forall kps s, built dbl mf k kps s -> map fst kps = ts -> truncates cast ->
  dm_getSegmentIterator s tmax = Ok (n + k - 2)%N /\
  ig_getKnotIndexAtTime (dbl_policy cast) g tmax = Ok ((n + k - 1)%N)%:Z.
Proof. exact main_resolve_end. Qed.
Print Assumptions C28_end_refuted.

(* integer times: one too low exactly when t is a knot that was rounded *)
Theorem C28_resolver_nsec_partial : forall (F : realFieldType) (lo hi : int) (dbl : int -> F)
  (mf : manifold F), (0 < mf_size mf)%N ->
  forall k n (tmin tmax : int_realDomainType) g g' ts fuel,
  (0 < k)%N -> ig_new k tmin tmax n%:Z = Ok g ->
  ig_drain (nsec_policy lo hi) fuel g = Ok (Some (g', ts)) ->
  forall kps s, built dbl mf k kps s -> map fst kps = ts ->
  forall t r, n%:Z <= tmax - tmin -> tmin <= t < tmax ->
  ig_getKnotIndexAtTime (nsec_policy lo hi) g t = Ok r ->
  exists2 i : nat, dm_getSegmentIterator s t = Ok i &
    r = if (t == nth 0 ts i) && ~~ (n %| (tmax - tmin) * (i.+1%:Z - k%:Z))%Z
        then i%:Z - 1 else i%:Z.
Proof. exact main_nsec_resolve. Qed.
Print Assumptions C28_resolver_nsec_partial.

(* exact for all t < tmax if the segment count divides the duration *)
Theorem C28_resolver_nsec_divisible : forall (F : realFieldType) (lo hi : int) (dbl : int -> F)
  (mf : manifold F), (0 < mf_size mf)%N ->
  forall k n (tmin tmax : int_realDomainType) g g' ts fuel,
  (0 < k)%N -> ig_new k tmin tmax n%:Z = Ok g ->
  ig_drain (nsec_policy lo hi) fuel g = Ok (Some (g', ts)) ->
  forall kps s, built dbl mf k kps s -> map fst kps = ts ->
  forall t r, (n %| tmax - tmin)%Z -> tmin <= t < tmax ->
  ig_getKnotIndexAtTime (nsec_policy lo hi) g t = Ok r ->
  exists2 i : nat, dm_getSegmentIterator s t = Ok i & r = i%:Z.
Proof. exact main_nsec_divisible. Qed.
Print Assumptions C28_resolver_nsec_divisible.

(* [0, 10] with 3 segments: at t = 3 the spline uses segment 2, the resolver says 1 *)
Theorem C28_nsec_refuted : exists k n (tmin tmax : int_realDomainType) lo hi g g' ts kps
  (s : dspline Q int_realDomainType) t i r,
  [/\ ig_new k tmin tmax n%:Z = Ok g,
    ig_drain (nsec_policy lo hi) 100 g = Ok (Some (g', ts)),
    built ex_dbl (euclidean Q 1) k kps s /\ map fst kps = ts, tmin <= t < tmax
  & dm_getSegmentIterator s t = Ok i /\
    ig_getKnotIndexAtTime (nsec_policy lo hi) g t = Ok r /\ r <> i%:Z].
Proof.
pose ts : seq int_realDomainType := [:: -3; 0; 3; 6; 10; 13].
have [s _ B] := initConstantE ex_dbl (mf := euclidean Q 1) (c := zerov) (isT : 0 < 2)%N
  (isT : 0 < 1)%N isT (isT : sorted <%R ts) (isT : 2 * 2 <= size ts)%N.
pose g := IntervalGen 2 (0 : int_realDomainType) 10 3 0 6.
have : if ig_drain (nsec_policy (-100) 100) 100 g is Ok (Some (_, us)) then us == ts else false.
  by vm_compute.
case hd : (ig_drain _ _ _) => [[[g' us]|]| |] // /eqP us_ts; rewrite us_ts in hd.
exists 2%N, 3%N, 0, 10, (-100), 100, g, g', ts, [seq (t, zerov) | t <- ts], s, 3, 2%N, 1; split.
- by [].
- exact: hd.
- by split.
- by [].
split; last by split; [vm_compute|].
apply: (built_segment (mf := euclidean Q 1) _ B) => //; split=> //; by left.
Qed.
Print Assumptions C28_nsec_refuted.

(* a truncation exists: rational numbers *)
Definition rat_cast (x : rat) : int := (numq x %/ denq x)%Z.
Example C28_ex_cast : truncates (rat_cast : Q -> int).
Proof. exact: rat_truncates. Qed.
Example C28_ex : exists g g' ts kps (s : dspline Q Q) i,
  [/\ ig_new 3 (0 : Q) 2 4%:Z = Ok g,
      ig_drain (dbl_policy (rat_cast : Q -> int)) 9 g = Ok (Some (g', ts)),
      built id (euclidean Q 2) 3 kps s /\ map fst kps = ts
    & dm_getSegmentIterator s 1 = Ok i /\
      ig_getKnotIndexAtTime (dbl_policy (rat_cast : Q -> int)) g 1 = Ok i%:Z].
Proof.
have lt : (0 : Q) < 2 by [].
have le12 : ((0 : Q) <= 1) && ((1 : Q) < 2) by [].
have [g [g' [ts [h1 [h2 _] [h3 srt] _ _]]]] :=
  C27_interval (rat_cast : Q -> int) (isT : 0 < 3)%N (isT : 0 < 4)%N lt
    (isT : 4 + 2 * 3 - 1 <= 9)%N.
have sz : (2 * 3 <= size ts)%N by rewrite h3.
have [s _ B] := initConstantE (id : Q -> Q) (mf := euclidean Q 2) (c := zerov) (isT : 0 < 3)%N
  (isT : 0 < 1)%N isT srt sz.
have mk : map fst [seq (t, zerov : vec Q) | t <- ts] = ts by rewrite -map_comp map_id.
have [i e1 e2] := C28_resolver_partial (mf := euclidean Q 2) isT (isT : 0 < 3)%N h1 h2 B mk
  C28_ex_cast le12.
exists g, g', ts, [seq (t, zerov) | t <- ts], s, i; split=> //.
Qed.

(* ------------------------------------------------------------------ C29 *)
(* values v p delivered without overflow for the positions p (negative ones included) *)
Theorem C29_ends : forall lo hi from till n v, 0 < n ->
  (nsec_linearlyInterpolate lo hi from till n 0 = Ok v -> v = from) /\
  (nsec_linearlyInterpolate lo hi from till n n = Ok till).
Proof. by move=> lo hi a b n v n0; exact: main_nsec_ends. Qed.
Print Assumptions C29_ends.

(* rounding error below one tick, toward tmin *)
Theorem C29_error : forall (F : realFieldType) lo hi from till n p v, 0 < n -> from <= till ->
  nsec_linearlyInterpolate lo hi from till n p = Ok v ->
  let x := from%:~R + (till - from)%:~R * p%:~R / n%:~R : F in
  [/\ `|v%:~R - x| < 1, 0 <= p -> v%:~R <= x & p <= 0 -> x <= v%:~R].
Proof. by move=> F lo hi a b n p v n0; exact: main_nsec_error. Qed.
Print Assumptions C29_error.

(* strictly increasing if every segment has at least one tick ... *)
Theorem C29_increasing : forall lo hi from till n p q v w, 0 < n -> n <= till - from ->
  nsec_linearlyInterpolate lo hi from till n p = Ok v ->
  nsec_linearlyInterpolate lo hi from till n q = Ok w -> p < q -> v < w.
Proof. by move=> lo hi a b n p q v w n0; exact: main_nsec_increasing. Qed.
Print Assumptions C29_increasing.

(* ... and only then *)
Theorem C29_only_if : forall lo hi from till n (v : int -> int), 0 < n ->
  (forall p, 0 <= p <= n -> nsec_linearlyInterpolate lo hi from till n p = Ok (v p)) ->
  (forall p, 0 <= p < n -> v p < v (p + 1)) -> n <= till - from.
Proof. by move=> lo hi a b n v n0; exact: main_nsec_only_if. Qed.
Print Assumptions C29_only_if.

(* no overflow as long as the product and the result fit *)
Theorem C29_total : forall lo hi from till n p, 0 < n -> lo <= 0 <= hi ->
  lo <= from <= hi -> lo <= till - from <= hi -> lo <= (till - from) * p <= hi ->
  lo <= from + (till - from) * p -> from + (till - from) * p <= hi ->
  exists v, nsec_linearlyInterpolate lo hi from till n p = Ok v.
Proof. by move=> lo hi a b n p n0; exact: main_nsec_total. Qed.
Print Assumptions C29_total.

Example C29_ex : let f := nsec_linearlyInterpolate (-1000) 1000 7 17 4 in
  [/\ f (-1) = Ok 5, f 0 = Ok 7, f 1 = Ok 9, f 3 = Ok 14 & f 4 = Ok 17].
Proof. by vm_compute. Qed.
Example C29_ex_overflow : nsec_linearlyInterpolate (-100) 100 7 50 4 3 = UB.
Proof. by vm_compute. Qed.
Example C29_ex_total : exists v, nsec_linearlyInterpolate (-1000) 1000 7 17 4 3 = Ok v.
Proof. by apply: C29_total. Qed.
Example C29_ex_equal : let f := nsec_linearlyInterpolate (-1000) 1000 0 3 4 in f 0 = f 1.
Proof. by vm_compute. Qed.
