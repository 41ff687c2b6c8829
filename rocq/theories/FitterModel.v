(* Model of the spline fitter
   bsplines/include/bsplines/implementation/BSplineFitterImpl.hpp (class template
   BSplineFitter) on top of the manifold spline of DMModel.v.  Line numbers refer to this file
   unless another file is named.

   The two backends (FittingBackend::DENSE and SPARSE) are distinguished by a flag where the
   code distinguishes them; block sparse matrices are represented by their dense content
   (blocks that are not allocated are zero).  The linear solvers (Eigen ldlt, CHOLMOD with ldlt
   as fallback) are represented by a function solve.  std::vector<time_t> and
   std::vector<point_t> are lists.  C++ int is modelled by unbounded integers,
   fixNFirstRelevantControlVertices (nonnegative by a debug assertion) by a natural number.
   SM_ASSERT_*_DBG and SM_THROW_DBG are compiled out (release build).  No proofs in this
   file. *)
From mathcomp Require Import all_ssreflect all_algebra.
From Verif Require Import Prelude DMModel KnotModel.
Set Implicit Arguments.
Unset Strict Implicit.
Unset Printing Implicit Defensive.
Import GRing.Theory Num.Theory.
Local Open Scope ring_scope.

Section Resolver.
Variable T : realDomainType.
(* KnotIndexResolver::getKnotIndexAtTime, KnotArithmetics.hpp:19-24 *)
Definition resolver := T -> outcome int.

(* lines 64-66 MapKnotIndexResolver: a std::map from knots to indices; insert keeps an
   existing entry *)
Fixpoint mr_insert (t : T) (i : int) (m : seq (T * int)) : seq (T * int) :=
  if m is x :: m' then
    if t < x.1 then (t, i) :: m
    else if x.1 < t then x :: mr_insert t i m'
    else m
  else [:: (t, i)].
(* line 66 getKnotIndexAtTime: the element before upper_bound(t); decrementing begin() is
   undefined *)
Definition mr_getKnotIndexAtTime (m : seq (T * int)) : resolver := fun t =>
  let p := find (fun x => t < x.1) m in
  need (0 < p)%N ; Ok (nth (0, 0) m p.-1).2.

(* lines 69-80 checkTimesBounds: does not throw *)
Definition ft_checkTimesBounds (times : seq T) : bool :=
  if (1 < size times)%N then
    all (fun t => (head 0 times <= t) && (t <= last 0 times)) times
  else true.
End Resolver.

Section Fitter.
Variables (F : realFieldType) (T : realDomainType).
Variables (dbl : T -> F) (one : T).
Variable solve : nat -> mat F -> vec F -> vec F.
Notation dspline := (dspline F T).

(* lines 549-561 computeBijInto; B is kD x D, the block B.block(i*k, i, k, 1) is written *)
Definition ft_computeBij (s : dspline) (D p j : nat) (B : mat F) : outcome (mat F) :=
  let k := ds_order s in
  do M <- dm_basis s p ;
  Ok (floop 0 D (fun i B => set_block B (i * k) i k 1 (fun r _ => M r j)) B).
(* lines 563-576 computeMiInto *)
Definition ft_computeMi (s : dspline) (D p : nat) : outcome (mat F) :=
  let k := ds_order s in
  oloop 0 k (fun j M =>
    do B <- ft_computeBij s D p j (get_block M 0 (j * D)) ;
    Ok (set_block M 0 (j * D) (k * D) D B)) zerom.
(* lines 506-547 addOrSetSegmentQuadraticIntegralDiag: the matrix that is added or set, of
   size kD; W is Wdiag, whose size is D *)
Definition ft_segmentQuadraticIntegralDiag (s : dspline) (D : nat) (W : vec F) (p d : nat)
  : outcome (mat F) :=
  let k := ds_order s in let m := ds_segs s in
  need (p < size m)%N ;
  do tmin <- dm_getMinTime s ;
  assert tmin <= knot_at m p raise ExnSpline ;
  do tmax <- dm_getMaxTime s ;
  assert knot_at m p < tmax raise ExnSpline ;
  do Dm <- dm_computeDii dbl one s p ;
  do V <- dm_computeVi dbl one s p ;
  let V' := floop 0 d (fun _ V => mulm k (mulm k (trm Dm) V) Dm) V in
  let WV := floop 0 D (fun r WV =>
    set_block WV (k * r) (k * r) k k (fun a b => W r * V' a b)) zerom in
  do M <- ft_computeMi s D p ;
  Ok (mulm (k * D) (mulm (k * D) (trm M) WV) M).

(* A.block(r0,c0,n,m) += B *)
Definition ft_add_block (A : mat F) (r0 c0 n m : nat) (B : mat F) : mat F :=
  fun r c => if [&& r0 <= r, r < r0 + n, c0 <= c & c < c0 + m]%N
             then A r c + B (r - r0)%N (c - c0)%N else A r c.
(* lines 252-262 (dense) and 298-304 (sparse) addBlockToBlock for a square range of n blocks *)
Definition ft_addBlockToBlock (dense : bool) (D : nat) (A : mat F) (a : nat) (Q : mat F)
  (q n : nat) : mat F :=
  if dense then ft_add_block A (a * D) (a * D) (n * D) (n * D) (get_block Q (q * D) (q * D))
  else floop 0 n (fun i A => floop 0 n (fun j A =>
         ft_add_block A ((a + i) * D) ((a + j) * D) D D
           (get_block Q ((q + i) * D) ((q + j) * D))) A) A.
(* the same with segmentInRowVector: n blocks of a column vector *)
Definition ft_addSegments (dense : bool) (D : nat) (b : vec F) (a : nat) (v : vec F) (n : nat)
  : vec F :=
  let add (b : vec F) a0 m (v : vec F) : vec F := fun r =>
    if ((a0 <= r) && (r < a0 + m))%N then b r + v (r - a0)%N else b r in
  if dense then add b (a * D)%N (n * D)%N v
  else floop 0 n (fun i b => add b ((a + i) * D)%N D (get_segment v (i * D))) b.

(* lines 491-496, the loop over the vertices of segment p, from the last one backwards (the
   decrement after the last step is not dereferenced and not treated as an error) *)
Definition ft_subtractFixed (dense : bool) (s : dspline) (D p : nat) (Q : mat F)
  (blockRow left right : int) (b : vec F) : outcome (vec F) :=
  let k := ds_order s in let m := ds_segs s in
  let num := absz (right - left + 1) in
  let Q_r_Left := right - blockRow + 1 in
  let Q_l_Right := - blockRow - 1 in
  oloop 0 k (fun x b =>
    let i := (k - 1 - x)%N in
    if (Q_r_Left <= i%:Z) || (i%:Z <= Q_l_Right) then
      need (x <= p)%N ;
      need (p < size m)%N ;
      let v := sg_pt (seg_nth m (p - x)) in
      let q := absz (left - blockRow) in
      Ok (ft_addSegments dense D b (absz left)
            (fun r => - fsum D (fun c => Q (q * D + r)%N (i * D + c)%N * v c)) num)
    else Ok b) b.

(* lines 443-504 addCurveQuadraticIntegralDiagTo; n is the number of block rows of the
   matrix; the loop ends when sIt == end, so start beyond end would run off the map *)
Definition ft_addCurveQuadraticIntegralDiagTo (dense : bool) (s : dspline) (D : nat)
  (start e : nat) (startIndex : int) (W : vec F) (d n : nat) (A : mat F) (b : vec F)
  : outcome (mat F * vec F) :=
  let k := ds_order s in
  need (start <= e)%N ;
  oloop start e (fun sIt (st : mat F * vec F) =>
    let: (A, b) := st in
    let blockRow := startIndex + (sIt - start)%N%:Z in
    do Q <- ft_segmentQuadraticIntegralDiag s D W sIt d ;
    if [&& dense, 0 <= blockRow & blockRow <= n%:Z - k%:Z] then
      Ok (ft_add_block A (`|blockRow| * D) (`|blockRow| * D) (k * D) (k * D) Q, b)
    else
      let left := Num.max 0 blockRow in
      let right := Num.min n%:Z (k%:Z + blockRow) - 1 in
      let num := right - left + 1 in
      if 0 < num then
        let A' := ft_addBlockToBlock dense D A (absz left) Q (absz (left - blockRow)) (absz num) in
        if num != k%:Z then
          do b' <- ft_subtractFixed dense s D sIt Q blockRow left right b ;
          Ok (A', b')
        else Ok (A', b)
      else Ok (A, b)) (A, b).

(* lines 410-423: the motion constraint; t0 and tl are the first and the last time *)
Definition ft_motion (dense : bool) (s : dspline) (D : nat) (lambda : F) (fixN : nat)
  (t0 tl : T) (n : nat) (A : mat F) (b : vec F) : outcome (mat F * vec F) :=
  let k := ds_order s in let m := ds_segs s in
  if lambda == 0 then Ok (A, b) else
  do start <- dm_getSegmentIterator s t0 ;
  do e <- dm_getSegmentIterator s tl ;
  let moveCount := fixN%:Z - (k%:Z - 1) in
  do limit <- (if moveCount < 0 then pos_of m (ds_begin s) else Ok e) ;
  do ' (start', movedCount) <- moveIterator (size m) start limit moveCount ;
  do send <- pos_of m (ds_end s) ;
  do ' (e', _) <- moveIterator (size m) e send k%:Z ;
  if moveCount - movedCount <= 0 then
    ft_addCurveQuadraticIntegralDiagTo dense s D start' e' movedCount (fun _ => lambda) 2 n A b
  else Ok (A, b).

(* lines 372-402: one position constraint.  current gives the captured control vertices,
   offset is controlVertexIndexOffset, n is numToFitControlVertices. *)
Definition ft_row (nc : bool) (np : nat) (s : dspline) (D : nat) (resolve : resolver T)
  (times : seq T) (points : seq (vec F)) (weights : option (nat -> outcome F)) (fixN : nat)
  (offsets : bool) (tmax : T) (offset : int) (n : nat) (current : seq (vec F)) (i : nat)
  (st : mat F * vec F) : outcome (mat F * vec F) :=
  let k := ds_order s in
  need (i < size times)%N ;
  let time := nth 0 times i in
  do weight <- (if weights is Some w then w i else Ok 1) ;
  do ki <- resolve time ;
  do ev <- dm_evaluator dbl s time ;
  do bi0 <- dm_getLocalBi dbl one nc np s ev 0 ;
  let bi : vec F := if weight != 1 then (fun j => bi0 j * weight) else bi0 in
  let knotIndex := ki - offset - (k%:Z - 1) - (if time == tmax then 1 else 0) in
  do ' (A, b) <- oloop 0 k (fun j (st : mat F * vec F) =>
    let: (A, b) := st in
    let col := knotIndex + j%:Z in
    do A' <- (if (0 <= col) && (bi j != 0) then
                need (`|col| < n)%N ;
                Ok ((fun r c => if [&& i * D <= r, r < i * D + D & c == `|col| * D + (r - i * D)]%N
                                then bi j else A r c) : mat F)
              else Ok A) ;
    do b' <- (if (col < 0) || offsets then
                let v := fixN%:Z + col in
                need (0 <= v) && (`|v| < size current)%N ;
                Ok ((fun r => if ((i * D <= r) && (r < i * D + D))%N
                              then b r - nth zerov current `|v| (r - i * D)%N * bi j
                              else b r) : vec F)
              else Ok b) ;
    Ok (A', b')) st ;
  let p : vec F := fun r => nth zerov points i r * weight in
  Ok (A, if (0 <= knotIndex) && ~~ offsets then set_segment b (i * D) D p
         else (fun r => if ((i * D <= r) && (r < i * D + D))%N
                        then b r + p (r - i * D)%N else b r)).

(* lines 345-352: the captured control vertices (pointers; the vertices are not changed while
   they are used) *)
Definition ft_capture (s : dspline) (t0 : T) (c : nat) : outcome (seq (vec F)) :=
  let m := ds_segs s in
  if c == 0%N then Ok [::] else
  do ti <- dm_getSegmentIterator s t0 ;
  do it <- dm_getFirstRelevantSegmentByLast s ti ;
  need (it + c <= size m)%N ;
  Ok (mkseq (fun i => sg_pt (seg_nth m (it + i))) c).

(* lines 324-441 calcFittedControlVertices.  weights = None is the empty std::function; nc is
   NeedsCumulativeBasisMatrices and np the number of prepared derivatives of the evaluator.
   Lines 425-426: the solution is the dense vector c of size n*D. *)
Definition ft_calcFittedControlVertices (dense : bool) (nc : bool) (np : nat) (mf : manifold F)
  (s : dspline) (resolve : resolver T) (times : seq T) (points : seq (vec F))
  (weights : option (nat -> outcome F)) (lambda : F) (fixN : nat) (offsets : bool)
  : mres dspline unit :=
  let k := ds_order s in let D := mf_size mf in
  check offsets ==> (lambda == 0) on s ;
  read tmax <- dm_getMaxTime s on s ;
  read _u <- (need (0 < size times)%N ; Ok tt) on s ;
  let t0 := head 0 times in let tl := last 0 times in
  read k0 <- resolve t0 on s ;
  let minKnotIndex := k0 - (k%:Z - 1) - (if t0 == tmax then 1 else 0) in
  let offset := minKnotIndex + fixN%:Z in
  read kl <- resolve tl on s ;
  let toFit := kl - offset + 1 - (if tl == tmax then 1 else 0) in
  if toFit <= 0 then MRet s tt else
  let n := `|toFit|%N in
  let q := (size points * D)%N in
  read current <- ft_capture s t0 (if offsets then fixN + n else fixN)%N on s ;
  read Ab <- oloop 0 (size points)
    (ft_row nc np s D resolve times points weights fixN offsets tmax offset n current)
    (zerom, zerov) on s ;
  let b1 := mulv q (trm Ab.1) Ab.2 in
  let A1 := mulm q (trm Ab.1) Ab.1 in
  read Ab2 <- ft_motion dense s D lambda fixN t0 tl n A1 b1 on s ;
  let c := solve (n * D) Ab2.1 Ab2.2 in
  if offsets then
    dm_manipulateControlVertices s
      (fun i v => Ok (mf_project mf (fun r => v r + c (i * D + r)%N))) n t0 fixN%:Z
  else dm_setControlVerticesAt mf s (DMat (n * D) 1 (fun r _ => c r)) t0 fixN%:Z.

(* lines 84-115 initSpline: ts are the knots delivered by the generator; own is the knot
   index resolver of the generator if it has one.  The index of the map resolver is the
   loop counter. *)
Definition ft_initSpline (dense nc : bool) (np : nat) (mf : manifold F) (s : dspline)
  (ts : seq T) (own : option (resolver T)) (times : seq T) (points : seq (vec F)) (lambda : F)
  : mres dspline unit :=
  check ~~ ds_evaluable s on s ;
  check size times == size points on s ;
  check (2 <= size points)%N on s ;
  check ft_checkTimesBounds times on s ;
  let s1 := foldl (dm_addKnot mf) s ts in
  let resolve := if own is Some f then f else
    mr_getKnotIndexAtTime (foldl (fun m ti => mr_insert ti.1 ti.2 m) [::]
      (zip ts (map Posz (iota 0 (size ts))))) in
  call s2 _u <- dm_init dbl s1 ;
  ft_calcFittedControlVertices dense nc np mf s2 resolve times points None lambda 0 false.

(* lines 25-32: the convenience overloads; fuel bounds the number of knots drawn (None: the
   generator has not finished) *)
Definition ft_initUniformSpline (tp : time_policy T) (fuel : nat) (dense nc : bool) (np : nat)
  (mf : manifold F) (s : dspline) (minT maxT : T) (times : seq T) (points : seq (vec F))
  (numSegments : int) (lambda : F) : option (mres dspline unit) :=
  if ds_evaluable s then Some (MThrow s ExnSpline) else
  if (size times == 0)%N then Some MUB else
  if ~~ ((minT <= head 0 times) && (last 0 times <= maxT)) then Some (MThrow s ExnSpline) else
  match ig_new (ds_order s) minT maxT numSegments with
  | Ok g =>
    match ig_drain tp fuel g with
    | Ok (Some (g', ts)) => Some (ft_initSpline dense nc np mf s ts
        (Some (ig_getKnotIndexAtTime tp g')) times points lambda)
    | Ok None => None
    | Throw e => Some (MThrow s e)
    | UB => Some MUB
    end
  | Throw e => Some (MThrow s e)
  | UB => Some MUB
  end.
(* lines 19-23: the interval is given by the first and the last time *)
Definition ft_initUniformSplineOverTimes (tp : time_policy T) (fuel : nat) (dense nc : bool)
  (np : nat) (mf : manifold F) (s : dspline) (times : seq T) (points : seq (vec F))
  (numSegments : int) (lambda : F) : option (mres dspline unit) :=
  if (size times < 2)%N then Some (MThrow s ExnSpline) else
  ft_initUniformSpline tp fuel dense nc np mf s (head 0 times) (last 0 times) times points
    numSegments lambda.
(* lines 34-42 *)
Definition ft_initUniformSplineWithKnotDelta (fuel : nat) (dense nc : bool) (np : nat)
  (mf : manifold F) (s : dspline) (times : seq T) (points : seq (vec F)) (delta : T)
  (lambda : F) : option (mres dspline unit) :=
  if ds_evaluable s then Some (MThrow s ExnSpline) else
  if (size times < 2)%N then Some (MThrow s ExnSpline) else
  if dg_drain fuel (dg_new (ds_order s) (head 0 times) (last 0 times) delta false)
    is Some (_, ts)
  then Some (ft_initSpline dense nc np mf s ts None times points lambda) else None.

(* lines 130-138, the loop of fitSpline over the segments from the first relevant one on; c
   counts the segments that are left *)
Fixpoint ft_collectKnots (mf : manifold F) (lastTime : T) (c p : nat) (i : int)
  (s : dspline) (m : seq (T * int)) : dspline * seq (T * int) :=
  if c is c'.+1 then
    let t := knot_at (ds_segs s) p in
    if lastTime < t then (s, m)
    else ft_collectKnots mf lastTime c' p.+1 (i + 1) (dm_addKnot mf s t) (mr_insert t i m)
  else (s, m).

(* lines 117-141 fitSpline *)
Definition ft_fitSpline (dense nc : bool) (np : nat) (mf : manifold F) (s : dspline)
  (times : seq T) (points : seq (vec F)) (lambda : F) (fixN : nat)
  (weights : option (nat -> outcome F)) (offsets : bool) : mres dspline unit :=
  check ds_evaluable s on s ;
  check (1 <= size points)%N on s ;
  check size times == size points on s ;
  check ft_checkTimesBounds times on s ;
  read tmin <- dm_getMinTime s on s ;
  check tmin <= head 0 times on s ;
  read tmax <- dm_getMaxTime s on s ;
  check last 0 times <= tmax on s ;
  read ti <- dm_getSegmentIterator s (head 0 times) on s ;
  read first <- dm_getFirstRelevantSegmentByLast s ti on s ;
  let: (s1, m) := ft_collectKnots mf (last 0 times) (size (ds_segs s) - first) first 0 s [::] in
  ft_calcFittedControlVertices dense nc np mf s1 (mr_getKnotIndexAtTime m) times points weights
    lambda fixN offsets.

(* lines 143-153 getNumberOfRelevantControlVertices: c bounds the number of steps; running
   onto end() and dereferencing it is undefined.  The positions passed to apply are
   returned. *)
Fixpoint ft_relevant_loop (m : seq (seg F T)) (upTo : T) (c p : nat) : outcome (seq nat) :=
  if c is c'.+1 then
    if knot_at m p < upTo then
      do ps <- ft_relevant_loop m upTo c' p.+1 ; Ok (p :: ps)
    else Ok [::]
  else UB.
Definition ft_relevantControlVertices (s : dspline) (start upTo : T) : outcome (seq nat) :=
  do ti <- dm_getSegmentIterator s start ;
  do first <- dm_getFirstRelevantSegmentByLast s ti ;
  ft_relevant_loop (ds_segs s) upTo (size (ds_segs s) - first) first.

(* line 195 getEvaluatorAt<0>(t).eval() of a Euclidean spline; np as in eu_evalD *)
Definition ft_evalAt (np : nat) (s : dspline) (t : T) : outcome (vec F) :=
  do ev <- dm_evaluator dbl s t ; eu_eval dbl one (Some 0%N) np s ev.

(* lines 185-205: the data of the final fit.  evalAt is getEvaluatorAt<0>(t).eval(); the
   entries created by resize and not overwritten are the time 0 and the point junk. *)
Definition ft_extendData (evalAt : dspline -> T -> outcome (vec F)) (junk : vec F)
  (s : dspline) (times : seq T) (points : seq (vec F)) (oldMaxTime : T) (baseWeight : F)
  : outcome (seq T * seq (vec F) * seq F * nat) :=
  let m := ds_segs s in
  do minTime <- dm_getMinTime s ;
  do ps <- ft_relevantControlVertices s (head 0 times) oldMaxTime ;
  let relevantOldVCs := size ps in
  do pushed <- foldl (fun acc p =>
      do l <- acc ;
      need (p.+1 < size m)%N ;
      let t := knot_at m p.+1 in
      if minTime <= t then do v <- evalAt s t ; Ok (rcons l (t, v)) else Ok l)
    (Ok [::]) ps ;
  let resize A (x : A) (l : seq A) n := take n l ++ nseq (n - size l) x in
  let newTimes := map fst pushed in
  let newPoints := map snd pushed in
  Ok (take relevantOldVCs (resize T 0 newTimes (size times + relevantOldVCs)%N) ++ times,
      take relevantOldVCs (resize _ junk newPoints (size points + relevantOldVCs)%N) ++ points,
      [seq baseWeight | _ <- pushed], relevantOldVCs).

(* line 208, the weight function: weights[i] is not bounds checked *)
Definition ft_weight (weights : seq F) (relevantOldVCs i : nat) : outcome F :=
  if (i < relevantOldVCs)%N then need (i < size weights)%N ; Ok (nth 0 weights i) else Ok 1.

(* lines 155-213 extendAndFitSpline; gen t are the knots that the generator delivers after
   extendBeyondTime(t); honor is honorCurrentValuePercentage (unsigned char) *)
Definition ft_extendAndFitSpline (evalAt : dspline -> T -> outcome (vec F)) (junk : vec F)
  (dense nc : bool) (np : nat) (mf : manifold F) (s : dspline) (supports : bool)
  (gen : T -> seq T) (times : seq T) (points : seq (vec F)) (lambda : F) (honor : nat)
  (offsets : bool) : mres dspline unit :=
  check supports on s ;
  check (1 <= size points)%N on s ;
  check size times == size points on s ;
  check (honor <= 100)%N on s ;
  let lastTime := last 0 times in
  read oldMaxTime <- dm_getMaxTime s on s ;
  call s1 _t <- (if oldMaxTime < lastTime then
                   dm_appendSegments dbl mf s supports (gen lastTime) None
                 else MRet s oldMaxTime) ;
  if (honor == 0)%N || (honor == 100)%N then
    if honor != 0%N then
      if oldMaxTime < lastTime then
        read ps <- ft_relevantControlVertices s1 (head 0 times) oldMaxTime on s1 ;
        ft_fitSpline dense nc np mf s1 times points lambda (size ps) None offsets
      else MRet s1 tt
    else ft_fitSpline dense nc np mf s1 times points lambda 0 None offsets
  else
    let baseWeight := honor%:R / (100 - honor)%:R in
    read data <- ft_extendData evalAt junk s1 times points oldMaxTime baseWeight on s1 ;
    let: (newTimes, newPoints, weights, rel) := data in
    ft_fitSpline dense nc np mf s1 newTimes newPoints lambda 0
      (Some (ft_weight weights rel)) offsets.
End Fitter.
