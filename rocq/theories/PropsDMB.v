(* Properties C60-C62: integral of a Euclidean spline, uniform appending and construction, the
   generator with predefined knots. *)
From mathcomp Require Import all_ssreflect all_algebra.
From mathcomp.zify Require Import zify.
From Verif Require Import Prelude CoxDeBoor DMModel DMSpec DMIntegralSpec DMAppendProofs DMMainProofs
  DMIntegralProofs KnotModel KnotFreeSpec KnotMoreProofs Examples PropsDMA.
Set Implicit Arguments.
Unset Strict Implicit.
Unset Printing Implicit Defensive.
Import GRing.Theory Num.Theory Order.Theory.
Local Open Scope ring_scope.

(* ------------------------------------------------------------------ C60 *)
(* evalIntegral(t1, t2), either order of the times, is the difference of any antiderivative of
   the curve (over seconds).  dm_above: no piece falls below the threshold 1e-16 of the code. *)
Theorem C60_integral : forall (F : realFieldType) (T : realDomainType) (dbl : T -> F) (one : T)
  (mf : manifold F), (0 < mf_size mf)%N ->
  forall k kps (s : dspline F T), built dbl mf k kps s -> exact_time dbl one ->
  forall thr t1 t2, 0 <= thr ->
  kp_knot kps (k - 1) <= t1 <= kp_knot kps (size kps - k) ->
  kp_knot kps (k - 1) <= t2 <= kp_knot kps (size kps - k) ->
  dm_above dbl one thr k kps t1 -> dm_above dbl one thr k kps t2 ->
  exists2 v, eu_evalIntegral dbl one thr s t1 t2 = Ok v &
    forall r G, dm_antiderivative dbl one k kps r G ->
      v r = G (sec dbl one t2) - G (sec dbl one t1).
Proof. exact main_integral. Qed.
Print Assumptions C60_integral.

Theorem C60_antiderivative_exists : forall (F : realFieldType) (T : realDomainType)
  (dbl : T -> F) (one : T) (mf : manifold F), (0 < mf_size mf)%N ->
  forall k kps (s : dspline F T), built dbl mf k kps s -> exact_time dbl one ->
  forall r, exists G, dm_antiderivative dbl one k kps r G.
Proof. exact main_antiderivative. Qed.
Print Assumptions C60_antiderivative_exists.

(* integer times: nothing is dropped if the threshold is below one tick and every segment has
   fewer than 1/threshold ticks *)
Theorem C60_ticks : forall (F : realFieldType) (one : int) (thr : F) k
  (kps : seq (int_realDomainType * vec F)) (t : int_realDomainType),
  (0 < k)%N -> 0 < one -> 0 <= thr -> thr * one%:~R < 1 ->
  (forall i, (i.+1 < size kps)%N -> thr * (kp_knot kps i.+1 - kp_knot kps i)%:~R < 1) ->
  dm_above (fun x : int => x%:~R : F) one thr k kps t.
Proof. exact main_above_ticks. Qed.
Print Assumptions C60_ticks.

Theorem C60_outside : forall (F : realFieldType) (T : realDomainType) (dbl : T -> F) (one : T)
  (mf : manifold F), (0 < mf_size mf)%N ->
  forall k kps (s : dspline F T), built dbl mf k kps s -> exact_time dbl one ->
  forall thr t1 t2, t1 != t2 ->
  (t1 < kp_knot kps (k - 1) \/ kp_knot kps (size kps - k) < t1) \/
  (t2 < kp_knot kps (k - 1) \/ kp_knot kps (size kps - k) < t2) ->
  eu_evalIntegral dbl one thr s t1 t2 = Throw ExnSpline.
Proof. exact main_integral_out. Qed.
Print Assumptions C60_outside.

(* ... but equal times outside the interval are accepted and give zero *)
Theorem C60_equal_times_refuted : exists (F : realFieldType) (T : realDomainType) (dbl : T -> F)
  (one : T) (mf : manifold F) k kps (s : dspline F T) t,
  [/\ built dbl mf k kps s, exact_time dbl one, t < kp_knot kps (k - 1)
    & forall thr, eu_evalIntegral dbl one thr s t t = Ok zerov].
Proof.
have [s B _] := C22_ex.
exists rat_realFieldType, int_realDomainType, ex_dbl, 10, ex_mf, 3%N, ex_kps, s, (-5).
split; [exact: B|exact: ex_time|by vm_compute|].
by move=> thr; rewrite /eu_evalIntegral /eu_evalIntegral_ordered ltxx eqxx.
Qed.
Print Assumptions C60_equal_times_refuted.

(* order 3, knots at 0, 0.1, 0.2, 0.4, 0.6, 0.9, ... seconds, threshold 1/1000: both directions *)
Example C60_ex : exists2 s, built ex_dbl ex_mf 3 ex_kps s &
  exists v w, [/\ eu_evalIntegral ex_dbl 10 (1 / 1000%:R) s 3 8 = Ok v,
    eu_evalIntegral ex_dbl 10 (1 / 1000%:R) s 8 3 = Ok w & forall r, w r = - v r].
Proof.
have [s B _] := C22_ex; exists s => //.
have th0 : 0 <= 1 / 1000%:R :> Q by vm_compute.
have th1 : (1 / 1000%:R) * 10%:~R < 1 :> Q by vm_compute.
have sz : size ex_kps = 8%N by vm_compute.
have ab t : dm_above ex_dbl 10 (1 / 1000%:R) 3 ex_kps t.
  apply: (C60_ticks (one := 10)); [exact: isT|exact: isT|exact: th0|exact: th1|].
  have q : all (fun i => 1 / 1000%:R * (kp_knot ex_kps i.+1 - kp_knot ex_kps i)%:~R < 1 :> Q)
     (iota 0 7) by vm_compute.
  by move=> i; rewrite sz => hi; move/allP: q; apply; rewrite mem_iota.
have h3 : kp_knot ex_kps (3 - 1) <= 3 <= kp_knot ex_kps (size ex_kps - 3) by vm_compute.
have h8 : kp_knot ex_kps (3 - 1) <= 8 <= kp_knot ex_kps (size ex_kps - 3) by vm_compute.
have [v vE vG] := C60_integral (mf := ex_mf) isT B ex_time th0 h3 h8 (ab 3) (ab 8).
have [w wE wG] := C60_integral (mf := ex_mf) isT B ex_time th0 h8 h3 (ab 8) (ab 3).
exists v, w; split; [exact: vE|exact: wE|] => r.
have [G hG] := C60_antiderivative_exists (mf := ex_mf) isT B ex_time r.
by rewrite (wG _ _ hG) (vG _ _ hG) opprB.
Qed.

(* ------------------------------------------------------------------ C61 *)
(* m segments of the length of the last knot interval are appended: same as appendSegments with
   these knots (so that C25 applies); beyond is ignored *)
Theorem C61_append : forall (F : realFieldType) (T : realDomainType) (dbl : T -> F)
  (mf : manifold F), (0 < mf_size mf)%N ->
  forall k kps (s : dspline F T) m value beyond, built dbl mf k kps s ->
  let n := size kps in
  let ts := mkseq (fun i => kp_knot kps n.-1 +
               (kp_knot kps n.-1 - kp_knot kps n.-2) *+ i.+1) m in
  let kps' := append_points mf k kps ts value in
  [/\ sorted <%R (map fst kps ++ ts),
      dm_appendSegmentsUniformly dbl mf s m value beyond = dm_appendSegments dbl mf s true ts value
    & exists2 s', dm_appendSegmentsUniformly dbl mf s m value beyond =
        MRet s' (kp_knot kps' (n + m - k)) & built dbl mf k kps' s'].
Proof. exact main_append_uniform. Qed.
Print Assumptions C61_append.

(* a constant spline over [tMin, beyond] with the knot distance delta: the smallest number m of
   segments with tMin + m delta >= beyond *)
Theorem C61_knot_delta : forall (F : realFieldType) (T : realDomainType) (dbl : T -> F)
  (mf : manifold F), (0 < mf_size mf)%N ->
  forall k (tMin beyond delta : T) m fuel sz c,
  (0 < k)%N -> 0 < delta -> (0 < m)%N -> tMin + delta *+ m.-1 < beyond ->
  beyond <= tMin + delta *+ m -> (m + 2 * k - 1 <= fuel)%N -> (0 < sz)%N -> mf_in mf c ->
  exists s kps g, [/\ dm_initConstantUniformSplineWithKnotDelta dbl mf (dm_new F T k) fuel
      tMin beyond delta sz c = Some (MRet s tt, g),
    built dbl mf k kps s /\ size kps = (m + 2 * k - 1)%N,
    forall j, (j < size kps)%N -> (nth kp0 kps j).2 = c,
    dm_getNumValidTimeSegments s = m
  & dm_getMinTime s = Ok tMin /\ dm_getMaxTime s = Ok (tMin + delta *+ m)].
Proof. exact main_knot_delta. Qed.
Print Assumptions C61_knot_delta.

(* the knots end 11, 12: the next ones are 13, 14 *)
Example C61_ex : exists s s', [/\ built ex_dbl ex_mf 3 ex_kps s,
  dm_appendSegmentsUniformly ex_dbl ex_mf s 2 None 0 = MRet s' 12
  & dm_getNumValidTimeSegments s' = 5%N].
Proof.
have [s B _] := C22_ex; exists s.
have [_ _ [s' hs B']] := C61_append (mf := ex_mf) isT 2 None 0 B.
exists s'; split; first exact: B.
  by rewrite hs; congr (MRet _ _); vm_compute.
have [_ _ _ _ [h _ _ _]] := C22_history (mf := ex_mf) isT B'.
by rewrite h size_append.
Qed.
Example C61_ex_delta : exists s g, dm_initConstantUniformSplineWithKnotDelta ex_dbl ex_mf
    (dm_new Q int_realDomainType 3) 20 2 9 3 1 (ex_pt 1 2) = Some (MRet s tt, g) /\
  dm_getMaxTime s = Ok 11.
Proof.
have [s [kps [g [h1 _ _ _ [_ h2]]]]] := @C61_knot_delta _ _ ex_dbl ex_mf isT 3 2 9 3 3 20 1
  (ex_pt 1 2) isT isT isT isT isT isT isT isT.
by exists s, g; split; [exact: h1|rewrite h2].
Qed.

(* ------------------------------------------------------------------ C62 *)
(* addPredefinedKnot: accepted if and only if later than all earlier ones *)
Theorem C62_add : forall (T : realDomainType) (g : free_gen T) t, sorted <%R (df_pre g) ->
  let: (g', b) := df_addPredefinedKnot g t in
  [/\ b = all (fun x => x < t) (df_pre g), sorted <%R (df_pre g'),
      df_pre g' = if b then rcons (df_pre g) t else df_pre g
    & [/\ df_order g' = df_order g, df_delta g' = df_delta g, df_last g' = df_last g
        & df_beyond g' = df_beyond g]].
Proof. exact df_addE. Qed.
Print Assumptions C62_add.

(* getNextKnot: the first predefined knot after the last knot, else the last knot + delta *)
Theorem C62_next : forall (T : realDomainType) (g : free_gen T),
  sorted <%R (df_pre g) -> 0 < df_delta g ->
  let: (g', t) := df_getNextKnot g in
  [/\ df_last g < t, df_last g' = t,
      (if has (fun x => df_last g < x) (df_pre g)
       then t \in df_pre g /\ forall x, x \in df_pre g -> df_last g < x -> t <= x
       else t = df_last g + df_delta g)
    & [/\ df_order g' = df_order g, df_delta g' = df_delta g, df_pre g' = df_pre g
        & df_beyond g' = df_beyond g]].
Proof. exact df_nextE. Qed.
Print Assumptions C62_next.

(* any history of calls on a new generator: the knots delivered are strictly increasing and
   after the start position; the predefined knots stay sorted *)
Theorem C62_history : forall (T : realDomainType) (k : nat) (start beyond delta : T) b
  (os : seq (fop T)) g ts,
  0 < delta -> free_run (df_new k start beyond delta b) os = Some (g, ts) ->
  [/\ sorted <%R ts, sorted <%R (df_pre g)
    & forall t, t \in ts -> (if b then start - delta else start - delta *+ k) < t].
Proof. exact main_free_history. Qed.
Print Assumptions C62_history.

(* without predefined knots: the knots of DeltaUniformKnotGenerator (C27_delta) *)
Theorem C62_plain : forall (T : realDomainType) k (start beyond delta : T) m fuel, (0 < k)%N ->
  0 < delta -> (0 < m)%N -> start + delta *+ m.-1 < beyond -> beyond <= start + delta *+ m ->
  (m + 2 * k - 1 <= fuel)%N ->
  exists g' ts, [/\ df_drain fuel (df_new k start beyond delta false) = Some (g', ts),
    size ts = (m + 2 * k - 1)%N /\ sorted <%R ts,
    forall i, (i.+1 < size ts)%N -> nth 0 ts i.+1 - nth 0 ts i = delta
  & nth 0 ts (k - 1) = start /\ nth 0 ts (size ts - k) = start + delta *+ m].
Proof. exact main_free_plain. Qed.
Print Assumptions C62_plain.
Example C62_ex_plain : omap snd (df_drain 9 (df_new 3 (1 : int_realDomainType) 10 4 false))
  = Some [:: -7; -3; 1; 5; 9; 13; 17; 21].
Proof. exact: erefl. Qed.

(* after extendBeyondTime t with at least k predefined knots at or after t: the k knots from t on
   (those after the last knot) are delivered, nothing else *)
Theorem C62_extend : forall (T : realDomainType) (g : free_gen T) (t : T) fuel,
  sorted <%R (df_pre g) -> 0 < df_delta g ->
  (0 < df_order g)%N -> (df_order g <= size [seq x <- df_pre g | (t <= x)%R])%N ->
  (df_order g <= fuel)%N ->
  let rest := [seq x <- df_pre g | (t <= x)%R] in
  exists g1 g2 ts, [/\ df_extendBeyondTime g t = MRet g1 tt,
    df_drain fuel g1 = Some (g2, ts), ~~ df_hasNextKnot g2,
    df_pre g2 = rest
  & ts = [seq x <- take (df_order g) rest | (df_last g < x)%R]].
Proof. exact main_free_extend. Qed.
Print Assumptions C62_extend.

(* extendBeyondTime with fewer: throws with the knots before t dropped; undefined if none is left *)
Theorem C62_extend_outcome : forall (T : realDomainType) (g : free_gen T) t,
  sorted <%R (df_pre g) -> (0 < df_order g)%N -> (0 < size (df_pre g))%N ->
  let rest := [seq x <- df_pre g | (t <= x)%R] in
  df_extendBeyondTime g t =
  if (df_order g <= size rest)%N then
    MRet (FreeGen (df_order g) (df_delta g) (df_last g) (nth 0 rest (df_order g - 1)) rest) tt
  else if (0 < size rest)%N then
    MThrow (FreeGen (df_order g) (df_delta g) (df_last g) (df_beyond g) rest) ExnRuntime
  else MUB.
Proof. exact df_extendE. Qed.
Print Assumptions C62_extend_outcome.

(* The claim that every accepted predefined knot up to the end time becomes a knot is false:
   extendBeyondTime drops the ones between the last knot and its argument. *)
Definition C62_pre : free_gen int_realDomainType := FreeGen 2 1 0 0 [:: 1; 2; 3; 4; 5].
Theorem C62_all_predefined_refuted : exists (g g1 g2 : free_gen int_realDomainType) t x ts,
  [/\ df_addPredefinedKnot (FreeGen 2 1 0 0 [:: 1; 2; 3; 4]) 5 = (g, true),
      df_extendBeyondTime g t = MRet g1 tt, df_drain 5 g1 = Some (g2, ts),
      x \in df_pre g /\ df_last g < x < df_beyond g1 & x \notin ts].
Proof.
exists C62_pre, (FreeGen 2 1 0 4 [:: 3; 4; 5]),
  (FreeGen 2 1 4 4 [:: 3; 4; 5]), 3, 2, [:: 3; 4].
split; [exact: erefl|exact: erefl|exact: erefl| |exact: erefl].
by split; exact: isT.
Qed.
Print Assumptions C62_all_predefined_refuted.

(* The claim that extendBeyondTime always returns or throws is false. *)
Theorem C62_undefined_refuted : exists (g : free_gen int_realDomainType) t,
  [/\ sorted <%R (df_pre g), 0 < df_delta g & df_extendBeyondTime g t = MUB].
Proof. by exists C62_pre, 6; split; [exact: isT|exact: isT|exact: erefl]. Qed.
Print Assumptions C62_undefined_refuted.

Example C62_ex : exists g, free_run (df_new 2 (0 : int_realDomainType) 10 1 false)
    [:: FAdd (1 : int_realDomainType); FAdd 3; FAdd 2; FNext; FAdd 7; FAdd 8; FExtend 6; FNext; FNext; FNext]
  = Some (g, [:: 1; 7; 8; 9]).
Proof. eexists; exact: erefl. Qed.
Example C62_ex_extend : exists g1 g2, df_extendBeyondTime C62_pre 3 = MRet g1 tt /\
  df_drain 2 g1 = Some (g2, [:: 3; 4]).
Proof.
have [|||||g1 [g2 [ts [h1 h2 _ _ h]]]] := @C62_extend _ C62_pre 3 2; try exact: isT.
by exists g1, g2; rewrite h1 h2 h; split.
Qed.
