(* Model of the manifold spline
   bsplines/include/bsplines/implementation/DiffManifoldBSplineImpl.hpp (class template
   DiffManifoldBSpline) and of EuclideanBSplineImpl.hpp.  Line numbers refer to the former
   file unless another file is named; all files below bsplines/include/bsplines.

   Numbers: [double] is an arbitrary real field F (exact arithmetic).  Times live in an
   ordered ring T (F itself for SimpleTypeTimePolicy<double>, the integers for
   NsecTimePolicy; no overflow); dbl is the conversion (double)t and one is getOne().
   Points and tangent vectors are Eigen column vectors (index functions).
   SM_ASSERT_*_DBG macros are compiled out (release build).  No proofs in this file. *)
From mathcomp Require Import all_ssreflect all_algebra.
From Verif Require Import Prelude.
Set Implicit Arguments.
Unset Strict Implicit.
Unset Printing Implicit Defensive.
Import GRing.Theory Num.Theory.
Local Open Scope ring_scope.

(* Result of a call that may modify the object: the new state and a return value, an
   exception together with the state it leaves behind, or undefined behaviour. *)
Inductive mres (S A : Type) :=
  | MRet of S & A
  | MThrow of S & exn
  | MUB.
Arguments MThrow {S A} _ _.
Arguments MUB {S A}.
Definition mbind S A B (m : mres S A) (f : S -> A -> mres S B) : mres S B :=
  match m with MRet s a => f s a | MThrow s e => MThrow s e | MUB => MUB end.
Definition massert S A (s : S) (c : bool) (e : exn) (k : mres S A) : mres S A :=
  if c then k else MThrow s e.
(* a const call inside a modifying one *)
Definition mread S A B (s : S) (o : outcome A) (f : A -> mres S B) : mres S B :=
  match o with Ok a => f a | Throw e => MThrow s e | UB => MUB end.
Notation "'read' x <- o 'on' s ; k" := (mread s o (fun x => k))
  (at level 200, x name, o at level 100, s at level 100, k at level 200).
Notation "'check' c 'on' s ; k" := (massert s c ExnSpline k)
  (at level 200, c at level 100, s at level 100, k at level 200).
Notation "'call' s x <- m ; k" := (mbind m (fun s x => k))
  (at level 200, s name, x name, m at level 100, k at level 200).

Section Tools.
(* implementation/DiffManifoldBSplineTools.hpp:22-27, the loop for steps > 0 of
   moveIterator.  Iterators into a container of n elements are positions 0..n (n is end());
   moving beyond end() is undefined. *)
Fixpoint move_up (n limit c it : nat) (count : int) : outcome (nat * int) :=
  if c is c'.+1 then
    if it == limit then Ok (it, count)
    else need (it < n)%N ; move_up n limit c' it.+1 (count + 1)
  else Ok (it, count).
(* DiffManifoldBSplineTools.hpp:30-35, the loop for steps < 0; moving before begin() is
   undefined. *)
Fixpoint move_down (limit c it : nat) (count : int) : outcome (nat * int) :=
  if c is c'.+1 then
    if it == limit then Ok (it, count)
    else need (0 < it)%N ; move_down limit c' it.-1 (count - 1)
  else Ok (it, count).
(* DiffManifoldBSplineTools.hpp:15-39 moveIterator: the moved iterator and the returned
   count *)
Definition moveIterator (n it limit : nat) (steps : int) : outcome (nat * int) :=
  if steps == 0 then Ok (it, 0)
  else if 0 < steps then move_up n limit `|steps|%N it 0
  else move_down limit `|steps|%N it 0.
(* DiffManifoldBSplineTools.hpp:41-47 getMovedIterator *)
Definition getMovedIterator (n it limit : nat) (steps : int) : outcome nat :=
  do ' (it', _) <- moveIterator n it limit steps ; Ok it'.
End Tools.

Section Counts.
(* KnotArithmetics.hpp:41-44 *)
Definition ka_getNumControlVerticesRequired (segments k : nat) : nat := (segments + k - 1)%N.
(* KnotArithmetics.hpp:46-49 *)
Definition ka_getNumKnotsRequired (segments k : nat) : nat :=
  (ka_getNumControlVerticesRequired segments k + k)%N.
(* KnotArithmetics.hpp:51-55, std::max(numKnots - 2*splineOrder + 1, 0) *)
Definition ka_getNumValidTimeSegments (n k : nat) : nat := (n.+1 - 2 * k)%N.
(* KnotArithmetics.hpp:57-59 *)
Definition ka_getNumRequiredPreambleKnots (k : nat) : nat := (k - 1)%N.
End Counts.

Section DM.
Variables (F : realFieldType) (T : realDomainType).
Variables (dbl : T -> F) (one : T).

(* SimpleTypeTimePolicy.hpp:20-22 *)
Definition computeDuration (from till : T) : T := till - from.
(* SimpleTypeTimePolicy.hpp:24-26; scale is an int *)
Definition addScaledDuration (from dist : T) (scale : int) : T := from + dist *~ scale.
(* SimpleTypeTimePolicy.hpp:28-30 *)
Definition divideDurations (a b : T) : F := dbl a / dbl b.
(* DiffManifoldBSplineImpl.hpp:338-341 *)
Definition getDurationAsDouble (d : T) : F := divideDurations d one.

(* The operations of the manifold used by the spline (manifolds/DiffManifold.hpp,
   LieGroup.hpp): default point, membership test, projection, log, exp; pointSize is
   getPointSize(). *)
Record manifold := Manifold {
  mf_size : nat;
  mf_default : vec F;
  mf_in : vec F -> bool;
  mf_project : vec F -> vec F;
  mf_log : vec F -> vec F -> vec F;
  mf_exp : vec F -> vec F -> vec F
}.

(* DiffManifoldBSpline.hpp:62-85 SegmentData; the basis matrix of a new segment is
   uninitialised memory (None). *)
Record seg := Seg { sg_knot : T; sg_pt : vec F; sg_basis : option (mat F) }.
(* An iterator into the segment map: std::map iterators stay attached to their element
   when other elements are inserted, so they are represented by the key.  Singular: default
   constructed member, not yet assigned. *)
Inductive iter := AtKey of T | AtEnd | Singular.

(* DiffManifoldBSpline.hpp: members _configuration (order), _state, _segments, _begin,
   _end, _firstRelevantSegment.  The segment map is the list of its elements in key order. *)
Record dspline := DSpline {
  ds_order : nat;
  ds_evaluable : bool;
  ds_segs : seq seg;
  ds_begin : iter;
  ds_end : iter;
  ds_first : iter
}.
Definition with_segs (s : dspline) (m : seq seg) : dspline :=
  DSpline (ds_order s) (ds_evaluable s) m (ds_begin s) (ds_end s) (ds_first s).
Definition set_end (s : dspline) (e : iter) : dspline :=
  DSpline (ds_order s) (ds_evaluable s) (ds_segs s) (ds_begin s) e (ds_first s).

Definition seg0 : seg := Seg 0 zerov None.
Definition seg_nth (m : seq seg) (p : nat) : seg := nth seg0 m p.
Definition knot_at (m : seq seg) (p : nat) : T := sg_knot (seg_nth m p).
(* position of an iterator in the map, and back *)
Definition pos_of (m : seq seg) (it : iter) : outcome nat :=
  match it with
  | AtKey t => let p := find (fun x => sg_knot x == t) m in need (p < size m)%N ; Ok p
  | AtEnd => Ok (size m)
  | Singular => UB
  end.
Definition iter_at (m : seq seg) (p : nat) : iter :=
  if (p < size m)%N then AtKey (knot_at m p) else AtEnd.
(* it.getKnot() / it->: dereferencing *)
Definition deref (m : seq seg) (it : iter) : outcome nat :=
  do p <- pos_of m it ; need (p < size m)%N ; Ok p.
(* it++ *)
Definition iter_next (m : seq seg) (it : iter) : outcome iter :=
  do p <- deref m it ; Ok (iter_at m p.+1).

Definition set_pt (x : seg) (v : vec F) : seg := Seg (sg_knot x) v (sg_basis x).
Definition set_basis (x : seg) (B : mat F) : seg := Seg (sg_knot x) (sg_pt x) (Some B).
Definition seg_upd (m : seq seg) (p : nat) (f : seg -> seg) : seq seg :=
  mkseq (fun i => if i == p then f (seg_nth m i) else seg_nth m i) (size m).

(* std::map::insert: an existing key is left untouched *)
Fixpoint sm_insert (x : seg) (m : seq seg) : seq seg :=
  if m is y :: m' then
    if sg_knot x < sg_knot y then x :: m
    else if sg_knot y < sg_knot x then y :: sm_insert x m'
    else m
  else [:: x].
(* std::map::upper_bound: first element with a key greater than t *)
Definition sm_upper_bound (m : seq seg) (t : T) : nat := find (fun x => t < sg_knot x) m.

(* DiffManifoldBSpline.hpp:185 constructor *)
Definition dm_new (k : nat) : dspline := DSpline k false [::] Singular Singular Singular.

(* DiffManifoldBSplineImpl.hpp:522-527 getNumKnots *)
Definition dm_getNumKnots (s : dspline) : nat := size (ds_segs s).
(* DiffManifoldBSplineImpl.hpp:508-512 getNumValidTimeSegments *)
Definition dm_getNumValidTimeSegments (s : dspline) : nat :=
  ka_getNumValidTimeSegments (dm_getNumKnots s) (ds_order s).
(* DiffManifoldBSplineImpl.hpp:515-519 getNumControlVertices *)
Definition dm_getNumControlVertices (s : dspline) : outcome nat :=
  assert ds_evaluable s raise ExnSpline ;
  Ok (ka_getNumControlVerticesRequired (dm_getNumValidTimeSegments s) (ds_order s)).
(* DiffManifoldBSplineImpl.hpp:530-534 getMinTime *)
Definition dm_getMinTime (s : dspline) : outcome T :=
  do p <- deref (ds_segs s) (ds_begin s) ; Ok (knot_at (ds_segs s) p).
(* DiffManifoldBSplineImpl.hpp:536-540 getMaxTime *)
Definition dm_getMaxTime (s : dspline) : outcome T :=
  do p <- deref (ds_segs s) (ds_end s) ; Ok (knot_at (ds_segs s) p).

(* DiffManifoldBSplineImpl.hpp:76-79 addKnot: no check of the construction state *)
Definition dm_addKnot (mf : manifold) (s : dspline) (t : T) : dspline :=
  with_segs s (sm_insert (Seg t (mf_default mf) None) (ds_segs s)).
(* DiffManifoldBSplineImpl.hpp:81-85 addControlVertex *)
Definition dm_addControlVertex (mf : manifold) (s : dspline) (t : T) (p : vec F)
  : mres dspline unit :=
  check mf_in mf p on s ;
  MRet (with_segs s (sm_insert (Seg t p None) (ds_segs s))) tt.

(* DiffManifoldBSplineImpl.hpp:113-118 initIterators *)
Definition dm_initIterators (s : dspline) : outcome dspline :=
  let m := ds_segs s in let n := size m in let k := ds_order s in
  do b <- getMovedIterator n 0 n (k%:Z - 1) ;
  do e <- getMovedIterator n n 0 (- k%:Z) ;
  Ok (DSpline k (ds_evaluable s) m (iter_at m b) (iter_at m e) (iter_at m 0)).

(* DiffManifoldBSplineImpl.hpp:447-460 d_0 *)
Definition dm_d_0 (knots : nat -> T) (k i j : nat) : F :=
  let denom := computeDuration (knots j) (knots (j + k - 1)%N) in
  if denom <= 0 then 0 else divideDurations (computeDuration (knots j) (knots i)) denom.
(* DiffManifoldBSplineImpl.hpp:463-476 d_1 *)
Definition dm_d_1 (knots : nat -> T) (k i j : nat) : F :=
  let denom := computeDuration (knots j) (knots (j + k - 1)%N) in
  if denom <= 0 then 0 else divideDurations (computeDuration (knots i) (knots i.+1)) denom.
(* DiffManifoldBSplineImpl.hpp:420-427 and 429-436, the matrices A and B of M *)
Definition dm_M_A (knots : nat -> T) (k i : nat) : mat F := fun idx c =>
  let j := (i + 2 + idx - k)%N in
  if c == idx then 1 - dm_d_0 knots k i j else if c == idx.+1 then dm_d_0 knots k i j else 0.
Definition dm_M_B (knots : nat -> T) (k i : nat) : mat F := fun idx c =>
  let j := (i + 2 + idx - k)%N in
  if c == idx then - dm_d_1 knots k i j else if c == idx.+1 then dm_d_1 knots k i j else 0.
(* DiffManifoldBSplineImpl.hpp:392-444 M(k, knots); i = getSplineOrder() - 1 is the second
   argument here.  Reads of the deque are not bounds checked (only entries i-k+2 .. i+k-1
   are read). *)
Fixpoint dm_M (knots : nat -> T) (i k : nat) : mat F :=
  match k with
  | 0 => zerom
  | k'.+1 =>
    if k' == 0%N then (fun r c => ((r == 0%N) && (c == 0%N))%:R)
    else
      let Mkm1 := dm_M knots i k' in
      let M1 : mat F := fun r c => if (r < k')%N then Mkm1 r c else 0 in
      let M2 : mat F := fun r c => if (0 < r)%N then Mkm1 r.-1 c else 0 in
      fun r c => mulm k' M1 (dm_M_A knots k'.+1 i) r c + mulm k' M2 (dm_M_B knots k'.+1 i) r c
  end.

(* DiffManifoldBSplineImpl.hpp:381-388, the loop that builds the matrices: c counts the
   knots that are left, rel is the deque relevantKnots, e the position of _end. *)
Fixpoint dm_basis_loop (k e c knotIt basisIt : nat) (rel : seq T) (m : seq seg)
  : outcome (seq seg) :=
  if c is c'.+1 then
    if basisIt == e then Ok m
    else
      let rel1 := rcons rel (knot_at m knotIt) in
      need (basisIt < size m)%N ;
      dm_basis_loop k e c' knotIt.+1 basisIt.+1 (behead rel1)
        (seg_upd m basisIt (fun x => set_basis x (dm_M (nth 0 rel1) (k - 1) k)))
  else Ok m.

(* DiffManifoldBSplineImpl.hpp:360-389 initializeBasisMatrices(knotIt, basisIt).  The end
   test of line 374 comes after the dereference of line 370, which is undefined at end(). *)
Definition dm_initializeBasisMatricesAt (s : dspline) (knotIt basisIt : nat)
  : outcome dspline :=
  let k := ds_order s in let m := ds_segs s in
  do rel <- oloop 0 (2 * k - 1) (fun c rel =>
    need (knotIt + c < size m)%N ;
    let rel' := rcons rel (knot_at m (knotIt + c)) in
    assert ((c == k - 1) ==> (basisIt == knotIt + c))%N raise ExnSpline ;
    Ok rel') [::] ;
  do e <- pos_of m (ds_end s) ;
  do m' <- dm_basis_loop k e (size m - (knotIt + (2 * k - 1)))
             (knotIt + (2 * k - 1)) basisIt rel m ;
  Ok (with_segs s m').
(* DiffManifoldBSplineImpl.hpp:355-358 initializeBasisMatrices() *)
Definition dm_initializeBasisMatrices (s : dspline) : outcome dspline :=
  do f <- pos_of (ds_segs s) (ds_first s) ;
  do b <- pos_of (ds_segs s) (ds_begin s) ;
  dm_initializeBasisMatricesAt s f b.

(* DiffManifoldBSplineImpl.hpp:99-110 init *)
Definition dm_init (s : dspline) : mres dspline unit :=
  check ~~ ds_evaluable s on s ;
  check (1 <= dm_getNumValidTimeSegments s)%N on s ;
  read s1 <- dm_initIterators s on s ;
  read s2 <- dm_initializeBasisMatrices s1 on s1 ;
  MRet (DSpline (ds_order s2) true (ds_segs s2) (ds_begin s2) (ds_end s2) (ds_first s2)) tt.

(* DiffManifoldBSplineImpl.hpp:121-129 addKnots; the times are given in the time type (the
   code converts doubles implicitly) *)
Definition dm_addKnots (mf : manifold) (s : dspline) (ts : seq T) : mres dspline unit :=
  check ~~ ds_evaluable s on s ;
  MRet (foldl (dm_addKnot mf) s ts) tt.
(* the loop of lines 137-139 and 151-153 *)
Definition dm_addControlVertices (mf : manifold) (s : dspline) (tps : seq (T * vec F))
  : mres dspline unit :=
  foldl (fun r tp => mbind r (fun s' _ => dm_addControlVertex mf s' tp.1 tp.2))
    (MRet s tt) tps.
(* DiffManifoldBSplineImpl.hpp:131-140 addKnotsAndControlVertices; the columns of the
   matrix are given as a list of points *)
Definition dm_addKnotsAndControlVertices (mf : manifold) (s : dspline) (ts : seq T)
  (ps : seq (vec F)) : mres dspline unit :=
  check ~~ ds_evaluable s on s ;
  check size ps == size ts on s ;
  dm_addControlVertices mf s (zip ts ps).
(* DiffManifoldBSplineImpl.hpp:142-158 initWithKnotsAndControlVertices *)
Definition dm_initWithKnotsAndControlVertices (mf : manifold) (s : dspline) (ts : seq T)
  (ps : seq (vec F)) : mres dspline unit :=
  check ~~ ds_evaluable s on s ;
  check (size ps + ds_order s == size ts)%N on s ;
  call s1 _u <- dm_addControlVertices mf s (zip (take (size ps) ts) ps) ;
  dm_init (foldl (dm_addKnot mf) s1 (drop (size ps) ts)).
(* DiffManifoldBSplineImpl.hpp:160-171 initWithKnots *)
Definition dm_initWithKnots (mf : manifold) (s : dspline) (ts : seq T) : mres dspline unit :=
  check ~~ ds_evaluable s on s ;
  check (ka_getNumKnotsRequired 1 (ds_order s) <= size ts)%N on s ;
  dm_init (foldl (dm_addKnot mf) s ts).
(* DiffManifoldBSplineImpl.hpp:240-250 initConstantSpline; ts are the knots delivered by
   the generator until hasNextKnot() is false, sz is constant.size() *)
Definition dm_initConstantSpline (mf : manifold) (s : dspline) (ts : seq T) (sz : nat)
  (p : vec F) : mres dspline unit :=
  check ~~ ds_evaluable s on s ;
  check (1 <= sz)%N on s ;
  call s1 _u <- dm_addControlVertices mf s [seq (t, p) | t <- ts] ;
  dm_init s1.

(* copy constructor DiffManifoldBSpline.hpp:187 and operator=
   DiffManifoldBSplineImpl.hpp:16-26: the map is copied, the iterators are recomputed if
   the source is initialised (else they stay singular) *)
Definition dm_copy (s : dspline) : outcome dspline :=
  let c := DSpline (ds_order s) (ds_evaluable s) (ds_segs s) Singular Singular Singular in
  if ds_evaluable s then dm_initIterators c else Ok c.

(* the loop of DiffManifoldBSplineImpl.hpp:277-295 (appendSegments); ts are the knots drawn
   from the generator: numSegments many, or all when numSegments < 0 *)
Fixpoint dm_append_loop (mf : manifold) (ts : seq T) (value : option (vec F)) (s : dspline)
  (currentValidEnd it : iter) : mres dspline iter :=
  if ts is t :: ts' then
    let s1 := dm_addKnot mf s t in
    read cve <- iter_next (ds_segs s1) currentValidEnd on s1 ;
    if value is Some v then
      read p <- deref (ds_segs s1) it on s1 ;
      let s2 := with_segs s1 (seg_upd (ds_segs s1) p (fun x => set_pt x v)) in
      read it' <- iter_next (ds_segs s2) it on s2 ;
      dm_append_loop mf ts' value s2 cve it'
    else dm_append_loop mf ts' value s1 cve it
  else MRet s currentValidEnd.

(* DiffManifoldBSplineImpl.hpp:267-308 appendSegments; supports is the generator's
   supportsAppending() *)
Definition dm_appendSegments (mf : manifold) (s : dspline) (supports : bool) (ts : seq T)
  (value : option (vec F)) : mres dspline T :=
  let n := size (ds_segs s) in
  let absBegin := iter_at (ds_segs s) 0 in
  check ds_evaluable s on s ;
  check supports on s ;
  read itp <- getMovedIterator n n 0 (- (ds_order s)%:Z) on s ;
  read ep <- pos_of (ds_segs s) (ds_end s) on s ;
  check ep == itp on s ;
  call s1 cve <- dm_append_loop mf ts value s (ds_end s) (iter_at (ds_segs s) itp) ;
  let m1 := ds_segs s1 in let n1 := size m1 in
  read ep1 <- pos_of m1 (ds_end s1) on s1 ;
  read cp <- pos_of m1 cve on s1 ;
  read ab <- pos_of m1 absBegin on s1 ;
  if ep1 != cp then
    read formerLast <- getMovedIterator n1 ep1 ab (-1) on s1 ;
    let s2 := set_end s1 cve in
    read kp <- getMovedIterator n1 formerLast ab (- ((ds_order s)%:Z - 1)) on s2 ;
    read s3 <- dm_initializeBasisMatricesAt s2 kp formerLast on s2 ;
    read t <- dm_getMaxTime s3 on s3 ; MRet s3 t
  else read t <- dm_getMaxTime s1 on s1 ; MRet s1 t.

(* KnotArithmetics.hpp:110-127 DeltaUniformKnotGenerator: members _splineOrder, _delta,
   _lastKnot, _beyondThisTime *)
Record delta_gen := DeltaGen { dg_order : nat; dg_delta : T; dg_last : T; dg_beyond : T }.
(* KnotArithmetics.hpp:123 getExtendedEndTime *)
Definition dg_extend (k : nat) (delta t : T) : T := addScaledDuration t delta (k%:Z - 1).
(* KnotArithmetics.hpp:114-115 constructor *)
Definition dg_new (k : nat) (start beyond delta : T) (initialized : bool) : delta_gen :=
  DeltaGen k delta
    (addScaledDuration start delta
       (if initialized then -1 else - ((ka_getNumRequiredPreambleKnots k)%:Z + 1)))
    (dg_extend k delta beyond).
(* KnotArithmetics.hpp:117 hasNextKnot *)
Definition dg_hasNextKnot (g : delta_gen) : bool := dg_last g < dg_beyond g.
(* KnotArithmetics.hpp:118 getNextKnot *)
Definition dg_getNextKnot (g : delta_gen) : delta_gen * T :=
  let t := addScaledDuration (dg_last g) (dg_delta g) 1 in
  (DeltaGen (dg_order g) (dg_delta g) t (dg_beyond g), t).
(* KnotArithmetics.hpp:119 extendBeyondTime *)
Definition dg_extendBeyondTime (g : delta_gen) (beyond : T) : delta_gen :=
  DeltaGen (dg_order g) (dg_delta g) (dg_last g) (dg_extend (dg_order g) (dg_delta g) beyond).
(* n successive calls of getNextKnot (KnotArithmetics.hpp:31 jumpOverNextKnots drops them) *)
Fixpoint dg_draw (n : nat) (g : delta_gen) : delta_gen * seq T :=
  if n is n'.+1 then
    let: (g1, t) := dg_getNextKnot g in
    let: (g2, ts) := dg_draw n' g1 in (g2, t :: ts)
  else (g, [::]).
(* while(hasNextKnot()) getNextKnot(): at most fuel knots are drawn; None when the loop has
   not stopped by then *)
Fixpoint dg_drain (fuel : nat) (g : delta_gen) : option (delta_gen * seq T) :=
  if ~~ dg_hasNextKnot g then Some (g, [::])
  else if fuel is f.+1 then
    let: (g1, t) := dg_getNextKnot g in
    if dg_drain f g1 is Some (g2, ts) then Some (g2, t :: ts) else None
  else None.

(* DiffManifoldBSplineImpl.hpp:310-323 appendSegmentsUniformly with numSegments >= 0 (it is
   unsigned); beyondThisTime is then not used as an end condition *)
Definition dm_appendSegmentsUniformly (mf : manifold) (s : dspline) (numSegments : nat)
  (value : option (vec F)) (beyond : T) : mres dspline T :=
  let m := ds_segs s in let n := size m in
  read p1 <- getMovedIterator n n 0 (-1) on s ;
  read _u <- (need (p1 < n)%N ; Ok tt) on s ;
  read p2 <- getMovedIterator n p1 0 (-1) on s ;
  let g := dg_new (ds_order s) (knot_at m p2) beyond
             (computeDuration (knot_at m p2) (knot_at m p1)) true in
  let: (g1, _) := dg_draw 2 g in
  dm_appendSegments mf s true (dg_draw numSegments g1).2 value.

(* DiffManifoldBSplineImpl.hpp:479-488 computeSegmentLength *)
Definition dm_computeSegmentLength (s : dspline) (p : nat) : outcome T :=
  let m := ds_segs s in let n := size m in
  if p == n then Ok 0
  else do q <- getMovedIterator n p n 1 ;
       need (q < n)%N ;
       Ok (computeDuration (knot_at m p) (knot_at m q)).

(* DiffManifoldBSplineImpl.hpp:618-637 getSegmentIterator *)
Definition dm_getSegmentIterator (s : dspline) (t : T) : outcome nat :=
  do tmin <- dm_getMinTime s ;
  assert tmin <= t raise ExnSpline ;
  do tmax <- dm_getMaxTime s ;
  assert t <= tmax raise ExnSpline ;
  do ub <- (if t == tmax then pos_of (ds_segs s) (ds_end s)
            else Ok (sm_upper_bound (ds_segs s) t)) ;
  need (0 < ub)%N ; Ok ub.-1.
(* DiffManifoldBSplineImpl.hpp:653-664 getFirstRelevantSegmentByLast *)
Definition dm_getFirstRelevantSegmentByLast (s : dspline) (p : nat) : outcome nat :=
  getMovedIterator (size (ds_segs s)) p 0 (- ((ds_order s)%:Z - 1)).

(* DiffManifoldBSplineImpl.hpp:572-589 computeDiiInto; the comparison dt > 0 is the same as
   dt > getZero() *)
Definition dm_computeDii (s : dspline) (p : nat) : outcome (mat F) :=
  do dt <- dm_computeSegmentLength s p ;
  if dt == 0 then Ok zerom
  else
    let recip_dt := if 0 < dt then divideDurations one dt else 0 in
    Ok (floop 0 (ds_order s - 1) (fun i (D : mat F) =>
          fun r c => if (r == i) && (c == i.+1) then i.+1%:R * recip_dt else D r c) zerom).
(* DiffManifoldBSplineImpl.hpp:592-615 computeViInto (for both indices below the order) *)
Definition dm_computeVi (s : dspline) (p : nat) : outcome (mat F) :=
  do dt <- dm_computeSegmentLength s p ;
  let vals : vec F := fun i => i.+1%:R^-1 in
  Ok (fun r c => vals (r + c)%N * getDurationAsDouble dt).

(* Data members of the Evaluator, DiffManifoldBSpline.hpp:384-394 *)
Record evaluator := Evaluator {
  ev_ti : nat; ev_first : nat; ev_end : nat;
  ev_len : T; ev_pos : T; ev_rel : F
}.
(* DiffManifoldBSplineImpl.hpp:731-753 Evaluator constructor (without the cached local
   bases, see dm_getLocalBiT) *)
Definition dm_evaluator (s : dspline) (t : T) : outcome evaluator :=
  let m := ds_segs s in let n := size m in
  assert ds_evaluable s raise ExnSpline ;
  do ti <- dm_getSegmentIterator s t ;
  do first <- dm_getFirstRelevantSegmentByLast s ti ;
  do e <- getMovedIterator n ti n 1 ;
  do len <- dm_computeSegmentLength s ti ;
  let pos := computeDuration (knot_at m ti) t in
  Ok (Evaluator ti first e len pos
        (if len == 0 then 0 else divideDurations pos len)).

(* DiffManifoldBSplineImpl.hpp:813-823 Evaluator::dmul; int overflow not modelled *)
Fixpoint dm_dmul (i d : nat) : nat :=
  match d with
  | 0 => 1
  | d'.+1 => if d' is 0 then i else (i * dm_dmul i.-1 d')%N
  end.

(* DiffManifoldBSplineImpl.hpp:826-845 computeUInto; u has k entries, the first loop writes
   the entries below d *)
Definition dm_computeU (k : nat) (ev : evaluator) (d : nat) : outcome (vec F) :=
  if 0 < ev_len ev then
    need (d <= k)%N ;
    let multiplier := 1 / getDurationAsDouble (ev_len ev) ^+ d in
    Ok (floop d k (fun i (st : vec F * F) =>
          let: (u, uu) := st in
          (upd u i (multiplier * uu * (dm_dmul i d)%:R), uu * ev_rel ev))
        (zerov, 1)).1
  else Ok zerov.
(* DiffManifoldBSplineImpl.hpp:847-861 computeVInto *)
Definition dm_computeV (k : nat) (ev : evaluator) : vec F :=
  if 0 < ev_len ev then
    (floop 0 k (fun i (st : vec F * F) =>
       let: (v, du) := st in (upd v i (du / i.+1%:R), du * ev_rel ev))
     (zerov, ev_rel ev)).1
  else zerov.

(* DiffManifoldBSplineImpl.hpp:490-505 fastMultiplyAtransposedTimesBInto *)
Definition dm_multAtB (k : nat) (A : mat F) (b : vec F) : vec F :=
  fun j => dotv k b (fun r => A r j).
(* basis matrix of segment ti; reading it uninitialised is undefined *)
Definition dm_basis (s : dspline) (ti : nat) : outcome (mat F) :=
  if sg_basis (seg_nth (ds_segs s) ti) is Some B then Ok B else UB.

(* DiffManifoldBSplineImpl.hpp:775-782 computeLocalBiInto *)
Definition dm_computeLocalBi (s : dspline) (ev : evaluator) (d : nat) : outcome (vec F) :=
  do u <- dm_computeU (ds_order s) ev d ;
  do B <- dm_basis s (ev_ti ev) ;
  Ok (dm_multAtB (ds_order s) B u).
(* DiffManifoldBSplineImpl.hpp:793-810 computeLocalCumulativeBiInto(localBi, ret, d, true):
   ret aliases localBi and is overwritten in place *)
Definition dm_cumulate (k d : nat) (ret : vec F) : vec F :=
  floop 1 k (fun i (ret : vec F) =>
      let sum := floop 0 (k - 1 - i) (fun x sum => sum + ret (k - 1 - x)%N) 0 in
      upd ret i (ret i + sum))
    (upd ret 0 (if d == 0%N then 1 else 0)).
(* DiffManifoldBSplineImpl.hpp:785-791 computeLocalCumulativeBiInto(ret, d) *)
Definition dm_computeLocalCumulativeBi (s : dspline) (ev : evaluator) (d : nat)
  : outcome (vec F) :=
  do b <- dm_computeLocalBi s ev d ; Ok (dm_cumulate (ds_order s) d b).
(* DiffManifoldBSplineImpl.hpp:863-871 computeLocalBiIntoT *)
Definition dm_computeLocalBiT (cumulative : bool) (s : dspline) (ev : evaluator) (d : nat)
  : outcome (vec F) :=
  if cumulative then dm_computeLocalCumulativeBi s ev d else dm_computeLocalBi s ev d.
(* DiffManifoldBSpline.hpp:384 NumberOfPreparedDerivatives; imax = None is Eigen::Dynamic,
   static says whether the spline order is a template constant *)
Definition dm_numPrepared (static : bool) (k : nat) (imax : option nat) : nat :=
  if imax is Some m then if static then (minn m k).+1 else 0%N else 0%N.
(* DiffManifoldBSplineImpl.hpp:873-895 getLocalBiT; needsCum is NeedsCumulativeBasisMatrices,
   np the number of prepared vectors, which the constructor (lines 745-752) computed with
   computeLocalBiIntoT<NeedsCumulativeBasisMatrices> *)
Definition dm_getLocalBiT (needsCum : bool) (np : nat) (cumulative : bool) (s : dspline)
  (ev : evaluator) (d : nat) : outcome (vec F) :=
  if (needsCum == cumulative) && (d < np)%N then dm_computeLocalBiT needsCum s ev d
  else if (ds_order s <= d)%N then Ok zerov
  else dm_computeLocalBiT cumulative s ev d.
(* DiffManifoldBSplineImpl.hpp:916-920 getLocalBi, 923-927 getLocalCumulativeBi *)
Definition dm_getLocalBi needsCum np := dm_getLocalBiT needsCum np false.
Definition dm_getLocalCumulativeBi needsCum np := dm_getLocalBiT needsCum np true.

(* DiffManifoldBSplineImpl.hpp:943-966 evalGeneric; the segment iterator is dereferenced at
   every step *)
Definition dm_evalGeneric (mf : manifold) (needsCum : bool) (np : nat) (s : dspline)
  (ev : evaluator) : outcome (vec F) :=
  let m := ds_segs s in
  do cum <- dm_getLocalCumulativeBi needsCum np s ev 0 ;
  need (ev_first ev < size m)%N ;
  let p0 := sg_pt (seg_nth m (ev_first ev)) in
  do ' (p, _) <- oloop 1 (ds_order s) (fun i (st : vec F * vec F) =>
      let: (p, last) := st in
      need (ev_first ev + i < size m)%N ;
      let next := sg_pt (seg_nth m (ev_first ev + i)) in
      let v := mf_log mf last next in
      let d := cum i in
      if d == 0 then Ok (p, next)
      else Ok (mf_exp mf p (fun r => v r * d), next)) (p0, p0) ;
  Ok p.

(* DiffManifoldBSplineImpl.hpp:667-679 setLocalCoefficientVector: e is the position after
   the current segment, x counts the segments written; pointSize is getPointSize() (an
   assignment of a vector of a different size to a fixed-size point is undefined) *)
Definition dm_setLocalCoefficientVector (mf : manifold) (s : dspline) (t : T)
  (c : dvec F) (D : nat) : mres dspline unit :=
  let k := ds_order s in
  read it <- dm_getSegmentIterator s t on s ;
  check (dv_size c == (k - 1) * D + D)%N on s ;
  read _u <- (need (D == mf_size mf) ; Ok tt) on s ;
  MRet (with_segs s (foldl (fun m x =>
    if (x <= it)%N then
      seg_upd m (it - x) (fun g => set_pt g (get_segment c ((k - 1 - x) * D)))
    else m) (ds_segs s) (iota 0 k))) tt.
(* DiffManifoldBSplineImpl.hpp:682-695 getLocalCoefficientVector (entries that are not
   written keep the value junk of the resized vector) *)
Definition dm_getLocalCoefficientVector (mf : manifold) (s : dspline) (t : T) (D : nat)
  (junk : vec F) : outcome (dvec F) :=
  do it <- dm_getSegmentIterator s t ;
  let k := ds_order s in
  need (D == mf_size mf) ;
  Ok (DVec (D * k) (foldl (fun v x =>
    if (x <= it)%N then
      set_segment v ((k - 1 - x) * D) D (sg_pt (seg_nth (ds_segs s) (it - x)))
    else v) junk (iota 0 k))).

(* DiffManifoldBSplineImpl.hpp:226-238 manipulateControlVertices; the manipulator maps index
   and control vertex to the new control vertex (or fails) *)
Definition dm_manipulateControlVertices (s : dspline) (f : nat -> vec F -> outcome (vec F))
  (n : nat) (t : T) (offset : int) : mres dspline unit :=
  let m := ds_segs s in
  read nc <- dm_getNumControlVertices s on s ;
  check (n <= nc)%N on s ;
  read ti <- dm_getSegmentIterator s t on s ;
  read it0 <- dm_getFirstRelevantSegmentByLast s ti on s ;
  read it <- (if offset == 0 then Ok it0
              else do lim <- pos_of m (if 0 < offset then ds_end s else ds_begin s) ;
                   getMovedIterator (size m) it0 lim offset) on s ;
  foldl (fun r i =>
    call s' _u <- r ;
    if (it + i < size (ds_segs s'))%N then
      read v <- f i (sg_pt (seg_nth (ds_segs s') (it + i))) on s' ;
      MRet (with_segs s' (seg_upd (ds_segs s') (it + i) (fun g => set_pt g v))) tt
    else MRet s' tt) (MRet s tt) (iota 0 n).
(* DiffManifoldBSplineImpl.hpp:220-224 manipulateControlVertices(f, n, offset) *)
Definition dm_manipulateControlVertices0 (s : dspline) (f : nat -> vec F -> outcome (vec F))
  (n : nat) (offset : int) : mres dspline unit :=
  read t <- dm_getMinTime s on s ; dm_manipulateControlVertices s f n t offset.

(* DiffManifoldBSplineImpl.hpp:203-216: the four vertex manipulators of setControlVertices *)
Definition dm_vertex (mf : manifold) (C : dmat F) (single columns : bool) (D i : nat)
  : outcome (vec F) :=
  if single then
    if columns then need (i < dm_cols C)%N ; need (dm_rows C == mf_size mf) ;
                    Ok (mf_project mf (fun r => C r i))
    else need (i < dm_rows C)%N ; need (dm_cols C == mf_size mf) ;
         Ok (mf_project mf (fun r => C i r))
  else
    if columns then need (i * D + D <= dm_cols C)%N ;
                    Ok (mf_project mf (fun r => C 0%N (i * D + r)%N))
    else need (i * D + D <= dm_rows C)%N ;
         Ok (mf_project mf (fun r => C (i * D + r)%N 0%N)).
(* DiffManifoldBSplineImpl.hpp:178-218 setControlVertices(C, startTime, offset) *)
Definition dm_setControlVerticesAt (mf : manifold) (s : dspline) (C : dmat F) (t : T)
  (offset : int) : mres dspline unit :=
  let n := (dm_rows C * dm_cols C)%N in
  let D := mf_size mf in
  let go single columns D n :=
    dm_manipulateControlVertices s (fun i _ => dm_vertex mf C single columns D i) n t offset in
  if D == 1%N then go true (dm_rows C == 1)%N 1%N n
  else if dm_rows C == D then go true true 1%N (n %/ D)%N
  else if dm_cols C == D then go true false 1%N (n %/ D)%N
  else if dm_rows C == 1%N then
    check (n %% D == 0)%N on s ; go false true D (n %/ D)%N
  else if dm_cols C == 1%N then
    check (n %% D == 0)%N on s ; go false false D (n %/ D)%N
  else MThrow s ExnSpline.
(* DiffManifoldBSplineImpl.hpp:173-176 setControlVertices(C) *)
Definition dm_setControlVertices (mf : manifold) (s : dspline) (C : dmat F)
  : mres dspline unit :=
  read t <- dm_getMinTime s on s ; dm_setControlVerticesAt mf s C t 0.

(* ------------------------------------------------------------------ Euclidean splines *)
(* manifolds/implementation/EuclideanSpaceImpl.hpp:16-58 (getIdentityInto, logInto, expInto);
   DiffManifold.hpp:108-109 isInManifold, projectIntoManifold *)
Definition euclidean (D : nat) : manifold :=
  Manifold D zerov (fun _ => true) (fun v => v)
    (fun from to r => to r - from r) (fun p v r => p r + v r).

(* EuclideanBSplineImpl.hpp:21-44 computeControlVertexSequenceLinearCombinationInto with
   IteratorPosition_last; e is one past the current segment (decrementing begin() after the
   last step is not dereferenced and not treated as an error) *)
Definition dm_combLast (m : seq seg) (it k : nat) (add : bool) (c : vec F) (res : vec F)
  : outcome (vec F) :=
  do ' (res, _) <- oloop 0 k (fun x (st : vec F * nat) =>
      let: (res, e) := st in
      need (0 < e <= size m)%N ;
      let i := (k - 1 - x)%N in
      let p := sg_pt (seg_nth m e.-1) in
      Ok ((if add || (x != 0%N) then (fun r => res r + c i * p r) else (fun r => c i * p r)),
          e.-1)) (res, it.+1) ;
  Ok res.
(* the same with IteratorPosition_first *)
Definition dm_combFirst (m : seq seg) (it k : nat) (add : bool) (c : vec F) (res : vec F)
  : outcome (vec F) :=
  oloop 0 k (fun i res =>
      need (it + i < size m)%N ;
      let p := sg_pt (seg_nth m (it + i)) in
      Ok (if add || (i != 0%N) then (fun r => res r + c i * p r) else (fun r => c i * p r)))
    res.

(* EuclideanBSplineImpl.hpp:102-116 Evaluator::evalD *)
Definition eu_evalD (imax : option nat) (np : nat) (s : dspline) (ev : evaluator) (d : nat)
  : outcome (vec F) :=
  assert (if imax is Some m then (d < m.+1)%N else true) raise ExnSpline ;
  if (d < ds_order s)%N then
    do bi <- dm_getLocalBi false np s ev d ;
    dm_combLast (ds_segs s) (ev_ti ev) (ds_order s) false bi zerov
  else Ok zerov.
(* EuclideanBSplineImpl.hpp:95-100 Evaluator::eval *)
Definition eu_eval imax np s ev := eu_evalD imax np s ev 0.
(* EuclideanBSplineImpl.hpp:118-136 Evaluator::evalJacobian, D x kD matrix *)
Definition eu_evalJacobian (D : nat) (imax : option nat) (np : nat) (s : dspline)
  (ev : evaluator) (d : nat) : outcome (mat F) :=
  assert (if imax is Some m then (d < m.+1)%N else true) raise ExnSpline ;
  do u <- dm_getLocalBi false np s ev d ;
  Ok (floop 0 (ds_order s) (fun i J =>
        set_block J 0 (i * D) D D (fun r c => eyem r c * u i)) zerom).

(* DiffManifoldBSplineImpl.hpp:898-913 computeLocalViInto *)
Definition dm_computeLocalVi (s : dspline) (v : vec F) (ti : nat) : outcome (vec F) :=
  do B <- dm_basis s ti ; Ok (dm_multAtB (ds_order s) B v).

(* EuclideanBSplineImpl.hpp:46-87 evalIntegral for t1 <= t2; thr is the constant 1e-16 *)
Definition eu_evalIntegral_ordered (thr : F) (s : dspline) (t1 t2 : T) : outcome (vec F) :=
  let k := ds_order s in let m := ds_segs s in
  if t1 == t2 then Ok zerov else
  do ev1 <- dm_evaluator s t1 ;
  let len1 := getDurationAsDouble (ev_len ev1) in
  do i1 <- (if (thr < len1) && (thr < ev_rel ev1) then
              do v <- dm_computeLocalVi s (dm_computeV k ev1) (ev_ti ev1) ;
              dm_combFirst m (ev_first ev1) k true (fun i => - len1 * v i) zerov
            else Ok zerov) ;
  let v : vec F := fun i => 1 / i.+1%:R in
  do ev2 <- dm_evaluator s t2 ;
  need (ev_ti ev1 <= ev_ti ev2)%N ;
  do i2 <- oloop (ev_ti ev1) (ev_ti ev2) (fun it acc =>
      do localVi <- dm_computeLocalVi s v it ;
      do len <- dm_computeSegmentLength s it ;
      dm_combLast m it k true (fun i => getDurationAsDouble len * localVi i) acc) i1 ;
  let len2 := getDurationAsDouble (ev_len ev2) in
  if (thr < len2) && (thr < ev_rel ev2) then
    do v <- dm_computeLocalVi s (dm_computeV k ev2) (ev_ti ev2) ;
    dm_combFirst m (ev_first ev2) k true (fun i => len2 * v i) i2
  else Ok i2.
(* EuclideanBSplineImpl.hpp:46-52 *)
Definition eu_evalIntegral (thr : F) (s : dspline) (t1 t2 : T) : outcome (vec F) :=
  if t2 < t1 then do v <- eu_evalIntegral_ordered thr s t2 t1 ; Ok (fun r => - v r)
  else eu_evalIntegral_ordered thr s t1 t2.
End DM.

Arguments AtKey {T} _.
Arguments AtEnd {T}.
Arguments Singular {T}.
