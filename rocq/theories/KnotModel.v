(* Model of the knot generators and the uniform knot index resolver
   (bsplines/include/bsplines/KnotArithmetics.hpp), of the interpolation functions of the time
   policies (SimpleTypeTimePolicy.hpp, NsecTimePolicy.hpp) and of the spline initialisation
   that uses them.  The DeltaUniformKnotGenerator is modelled in DMModel.v (delta_gen).
   C++ int (segment counts, knot indices) is modelled by unbounded integers.
   No proofs in this file. *)
From mathcomp Require Import all_ssreflect all_algebra.
From Verif Require Import Prelude DMModel.
Set Implicit Arguments.
Unset Strict Implicit.
Unset Printing Implicit Defensive.
Import GRing.Theory Num.Theory.
Local Open Scope ring_scope.

(* The two static functions of a time policy that interpolate, SimpleTypeTimePolicy.hpp:32-49;
   the C++ class is a template in the number type. *)
Record time_policy (T : Type) := TimePolicy {
  tp_linearlyInterpolate : T -> T -> int -> int -> outcome T;
  tp_getSegmentNumber : T -> T -> int -> T -> outcome int
}.

Section Real.
(* SimpleTypeTimePolicy<double>; double is an arbitrary real field.  cast is the conversion of
   a double to int.  Division by zero (inf or nan) is represented by UB. *)
Variables (F : realFieldType) (cast : F -> int).
(* SimpleTypeTimePolicy.hpp:32-36 *)
Definition dbl_linearlyInterpolate (from till : F) (segments pos : int) : outcome F :=
  if pos == segments then Ok till
  else need segments != 0 ;
       Ok (from + (computeDuration from till * pos%:~R) / segments%:~R).
(* SimpleTypeTimePolicy.hpp:38-49; the assertion is compiled out *)
Definition dbl_getSegmentNumber (from till : F) (segments : int) (t : F) : outcome int :=
  let duration := computeDuration from till in
  need duration != 0 ;
  Ok (cast (((t - from) * segments%:~R) / duration)).
Definition dbl_policy : time_policy F :=
  TimePolicy dbl_linearlyInterpolate dbl_getSegmentNumber.
End Real.

Section Nsec.
(* NsecTimePolicy.hpp:16-20: SimpleTypeTimePolicy over a signed integer type with values
   lo..hi (NsecTime is a 64 bit integer); an overflowing operation is undefined. *)
Variables (lo hi : int).
Definition in_range (x : int) : bool := (lo <= x) && (x <= hi).
(* C++ integer division truncates toward zero *)
Definition quotz (a b : int) : int := Num.sg a * Num.sg b * ((`|a| %/ `|b|)%N)%:Z.
(* SimpleTypeTimePolicy.hpp:32-36 *)
Definition nsec_linearlyInterpolate (from till segments pos : int) : outcome int :=
  if pos == segments then Ok till
  else
    let duration := till - from in
    need in_range duration ;
    need in_range (duration * pos) ;
    need segments != 0 ;
    let q := quotz (duration * pos) segments in
    need in_range q ;
    need in_range (from + q) ;
    Ok (from + q).
(* SimpleTypeTimePolicy.hpp:38-49; the assertion is compiled out *)
Definition nsec_getSegmentNumber (from till segments t : int) : outcome int :=
  let duration := till - from in
  need in_range duration ;
  need in_range (t - from) ;
  need in_range ((t - from) * segments) ;
  need duration != 0 ;
  let q := quotz ((t - from) * segments) duration in
  need in_range q ;
  Ok q.
Definition nsec_policy : time_policy int :=
  TimePolicy nsec_linearlyInterpolate nsec_getSegmentNumber.
End Nsec.

Section Generators.
Variables (T : realDomainType) (tp : time_policy T).

(* KnotArithmetics.hpp:61-107: the data members of IntervalUniformKnotGenerator together with
   those of its UniformTimeCalculator *)
Record interval_gen := IntervalGen {
  ig_order : nat; ig_min : T; ig_max : T; ig_segments : int; ig_next : nat; ig_num : int
}.
(* KnotArithmetics.hpp:94-97, constructor *)
Definition ig_new (k : nat) (tMin tMax : T) (numSegments : int) : outcome interval_gen :=
  assert 0 < numSegments raise ExnRuntime ;
  assert tMin < tMax raise ExnRuntime ;
  Ok (IntervalGen k tMin tMax numSegments 0 ((numSegments + k%:Z - 1) + k%:Z)).
(* KnotArithmetics.hpp:76-79 getTimeByKnotIndex (debug assertion compiled out) *)
Definition ig_getTimeByKnotIndex (g : interval_gen) (i : int) : outcome T :=
  tp_linearlyInterpolate tp (ig_min g) (ig_max g) (ig_segments g) (i - ((ig_order g)%:Z - 1)).
(* KnotArithmetics.hpp:81-83 getKnotIndexAtTime *)
Definition ig_getKnotIndexAtTime (g : interval_gen) (t : T) : outcome int :=
  do q <- tp_getSegmentNumber tp (ig_min g) (ig_max g) (ig_segments g) t ;
  Ok (q + ((ig_order g)%:Z - 1)).
(* KnotArithmetics.hpp:98 *)
Definition ig_hasNextKnot (g : interval_gen) : bool := (ig_next g)%:Z < ig_num g.
(* KnotArithmetics.hpp:99 *)
Definition ig_getNextKnot (g : interval_gen) : outcome (interval_gen * T) :=
  do t <- ig_getTimeByKnotIndex g (ig_next g)%:Z ;
  Ok (IntervalGen (ig_order g) (ig_min g) (ig_max g) (ig_segments g) (ig_next g).+1 (ig_num g),
      t).
(* while(hasNextKnot()) getNextKnot(): at most fuel iterations (None: not finished) *)
Fixpoint ig_drain (fuel : nat) (g : interval_gen) : outcome (option (interval_gen * seq T)) :=
  if ~~ ig_hasNextKnot g then Ok (Some (g, [::]))
  else if fuel is f.+1 then
    do ' (g1, t) <- ig_getNextKnot g ;
    do r <- ig_drain f g1 ;
    Ok (if r is Some (g2, ts) then Some (g2, t :: ts) else None)
  else Ok None.

(* KnotArithmetics.hpp:129-203 DeltaFreeKnotGenerator.  df_beyond is left uninitialised by the
   initialiser list and then assigned. *)
Record free_gen := FreeGen {
  df_order : nat; df_delta : T; df_last : T; df_beyond : T; df_pre : seq T
}.
(* KnotArithmetics.hpp:186-189: drop the predefined knots before t; front() of an empty
   deque is undefined *)
Fixpoint df_pop (pre : seq T) (t : T) : outcome (seq T) :=
  if pre is x :: pre' then (if x < t then df_pop pre' t else Ok pre) else UB.
(* KnotArithmetics.hpp:180-198 getExtendedEndTime: the new list of predefined knots and the
   time; the assertion inside the loop throws, with the knots already dropped *)
Definition df_getExtendedEndTime (k : nat) (delta : T) (pre : seq T) (t : T)
  : mres (seq T) T :=
  if (size pre < 1)%N then MRet pre (addScaledDuration t delta (k%:Z - 1))
  else match df_pop pre t with
       | Ok pre' =>
         if (k - 1 < size pre')%N then MRet pre' (nth 0 pre' (k - 1))
         else MThrow pre' ExnRuntime
       | Throw e => MThrow pre e
       | UB => MUB
       end.
(* KnotArithmetics.hpp:134-140, constructor: there are no predefined knots yet *)
Definition df_new (k : nat) (start beyond delta : T) (initialized : bool) : free_gen :=
  FreeGen k delta
    (addScaledDuration start delta (if initialized then -1 else - ((k%:Z - 1) + 1)))
    (addScaledDuration beyond delta (k%:Z - 1)) [::].
(* KnotArithmetics.hpp:142 *)
Definition df_hasNextKnot (g : free_gen) : bool := df_last g < df_beyond g.
(* KnotArithmetics.hpp:143-157: the first predefined knot after the last one *)
Definition df_getNextKnot (g : free_gen) : free_gen * T :=
  let i := find (fun x => df_last g < x) (df_pre g) in
  let t := if (i < size (df_pre g))%N then nth 0 (df_pre g) i
           else addScaledDuration (df_last g) (df_delta g) 1 in
  (FreeGen (df_order g) (df_delta g) t (df_beyond g) (df_pre g), t).
(* KnotArithmetics.hpp:158-161 *)
Definition df_extendBeyondTime (g : free_gen) (t : T) : mres free_gen unit :=
  match df_getExtendedEndTime (df_order g) (df_delta g) (df_pre g) t with
  | MRet pre b => MRet (FreeGen (df_order g) (df_delta g) (df_last g) b pre) tt
  | MThrow pre e =>
    MThrow (FreeGen (df_order g) (df_delta g) (df_last g) (df_beyond g) pre) e
  | MUB => MUB
  end.
(* KnotArithmetics.hpp:164-178 *)
Definition df_addPredefinedKnot (g : free_gen) (t : T) : free_gen * bool :=
  if (size (df_pre g) < 1)%N || (last 0 (df_pre g) < t) then
    (FreeGen (df_order g) (df_delta g) (df_last g) (df_beyond g) (rcons (df_pre g) t), true)
  else (g, false).
(* while(hasNextKnot()) getNextKnot(): at most fuel iterations (None: not finished) *)
Fixpoint df_drain (fuel : nat) (g : free_gen) : option (free_gen * seq T) :=
  if ~~ df_hasNextKnot g then Some (g, [::])
  else if fuel is f.+1 then
    let: (g1, t) := df_getNextKnot g in
    if df_drain f g1 is Some (g2, ts) then Some (g2, t :: ts) else None
  else None.
End Generators.

Section Init.
Variables (F : realFieldType) (T : realDomainType) (dbl : T -> F) (tp : time_policy T).
(* implementation/DiffManifoldBSplineImpl.hpp:252-257 initConstantUniformSpline.  The knots are
   drawn before they are added (the points added are all the same, so the only possible
   exception of addControlVertex comes at the first knot); sz is constant.size(). *)
Definition dm_initConstantUniformSpline (mf : manifold F) (s : dspline F T) (fuel : nat)
  (tMin tMax : T) (numSegments : int) (sz : nat) (c : vec F) : option (mres (dspline F T) unit) :=
  match ig_new (ds_order s) tMin tMax numSegments with
  | Ok g =>
    match ig_drain tp fuel g with
    | Ok (Some (_, ts)) => Some (dm_initConstantSpline dbl mf s ts sz c)
    | Ok None => None
    | Throw e => Some (MThrow s e)
    | UB => Some MUB
    end
  | Throw e => Some (MThrow s e)
  | UB => Some MUB
  end.
(* implementation/DiffManifoldBSplineImpl.hpp:259-264 initConstantUniformSplineWithKnotDelta *)
Definition dm_initConstantUniformSplineWithKnotDelta (mf : manifold F) (s : dspline F T)
  (fuel : nat) (tMin beyond delta : T) (sz : nat) (c : vec F)
  : option (mres (dspline F T) unit * delta_gen T) :=
  if dg_drain fuel (dg_new (ds_order s) tMin beyond delta false) is Some (g, ts)
  then Some (dm_initConstantSpline dbl mf s ts sz c, g) else None.
End Init.
