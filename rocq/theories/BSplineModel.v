(* Model of bsplines/src/BSpline.cpp (class bsplines::BSpline).
   All line numbers refer to /repo/bsplines/src/BSpline.cpp unless another file is
   named.  Numbers: [double] is an arbitrary real field F (exact arithmetic; no
   rounding, no NaN, no overflow).  SM_ASSERT_*_DBG macros are compiled out (release
   build).  No proofs in this file. *)
From mathcomp Require Import all_ssreflect all_algebra.
From Verif Require Import Prelude.
Set Implicit Arguments.
Unset Strict Implicit.
Unset Printing Implicit Defensive.
Import GRing.Theory Num.Theory.
Local Open Scope ring_scope.

Section Counts.
(* BSpline.cpp:198-202 numValidTimeSegments(numKnots); truncated subtraction on nat is
   std::max(numKnots - 2*splineOrder_ + 1, 0). *)
Definition numValidTimeSegments (k n : nat) : nat := (n.+1 - 2 * k)%N.
(* BSpline.cpp:214-217 numCoefficientsRequired *)
Definition numCoefficientsRequired (k s : nat) : nat := (s + k - 1)%N.
(* BSpline.cpp:219-222 numKnotsRequired *)
Definition numKnotsRequired (k s : nat) : nat := (numCoefficientsRequired k s + k)%N.
(* BSpline.cpp:209-212 minimumKnotsRequired *)
Definition minimumKnotsRequired (k : nat) : nat := numKnotsRequired k 1.
(* BSpline.cpp:1368-1371 basisMatrixIndexFromStartingKnotIndex, nonnegative results only
   (the callers below check the sign). *)
Definition basisMatrixIndexFromStartingKnotIndex (k i : nat) : nat := (i.+1 - k)%N.
(* BSpline.cpp:1372-1375 startingKnotIndexFromBasisMatrixIndex *)
Definition startingKnotIndexFromBasisMatrixIndex (k b : nat) : nat := (k + b - 1)%N.
(* BSpline.cpp:289-297 dmul (free function); int overflow not modelled. *)
Fixpoint dmul (i d : nat) : nat :=
  match d with
  | 0 => 1
  | d'.+1 => if d' is 0 then i else (i * dmul i.-1 d')%N
  end.
End Counts.

Section BSpline.
Variable F : realFieldType.

(* eps : the constant 1e-10 of the boundary snap, BSpline.cpp:242
   thr : the constant 1e-16 of evalIntegral, BSpline.cpp:1318,1348
   wtol: the constant 1e-14 of the symmetry check, BSpline.cpp:1538 *)
Variables eps thr wtol : F.
(* Linear solvers of Eigen: A.householderQr().solve(b), A.ldlt().solve(b); the first
   argument is the number of unknowns.  Behaviour assumed only where a theorem says so. *)
Variables solveQr solveLdlt : nat -> mat F -> vec F -> vec F.

(* The data members of class BSpline: include/bsplines/BSpline.hpp, members
   splineOrder_, knots_, coefficients_, basisMatrices_. *)
Record bspline := BSpline {
  bs_order : nat;
  bs_knots : seq F;
  bs_coef  : dmat F;
  bs_basis : seq (mat F)
}.
Definition bs_dim (s : bspline) := dm_rows (bs_coef s).
Definition bs_ncoef (s : bspline) := dm_cols (bs_coef s).
Definition kn (s : bspline) (j : nat) : F := nth 0 (bs_knots s) j.

(* BSpline.cpp:15-19 constructor; members are default constructed (empty). *)
Definition bs_new (k : nat) : outcome bspline :=
  assert (2 <= k)%N raise ExnSpline ;
  Ok (BSpline k [::] (DMat 0 0 zerom) [::]).

(* BSpline.cpp:123-135 d_0 *)
Definition d_0 (t : nat -> F) (k i j : nat) : F :=
  let denom := t (j + k - 1)%N - t j in
  if denom <= 0 then 0 else (t i - t j) / denom.

(* BSpline.cpp:137-149 d_1 *)
Definition d_1 (t : nat -> F) (k i j : nat) : F :=
  let denom := t (j + k - 1)%N - t j in
  if denom <= 0 then 0 else (t i.+1 - t i) / denom.

(* BSpline.cpp:98-105, the matrix A, and 107-114, the matrix B, of M(k,i); j = i-k+2+idx
   (callers guarantee i >= k-1, so the nat subtraction does not truncate). *)
Definition M_A (t : nat -> F) (k i : nat) : mat F := fun idx c =>
  let j := (i + 2 + idx - k)%N in
  if c == idx then 1 - d_0 t k i j else if c == idx.+1 then d_0 t k i j else 0.
Definition M_B (t : nat -> F) (k i : nat) : mat F := fun idx c =>
  let j := (i + 2 + idx - k)%N in
  if c == idx then - d_1 t k i j else if c == idx.+1 then d_1 t k i j else 0.

(* BSpline.cpp:70-121 M(k,i) over a knot accessor t.  k = 0 does not occur (it would not
   terminate in C++).  Reads of knots_ are not bounds checked here: M_ext in
   BSplineProofs.v shows that only the knots i-k+2 .. i+k-1 are read. *)
Fixpoint Mmat (t : nat -> F) (k i : nat) : mat F :=
  match k with
  | 0 => zerom
  | k'.+1 =>
    if k' == 0%N then (fun r c => ((r == 0%N) && (c == 0%N))%:R)
    else
      let Mkm1 := Mmat t k' i in
      let M1 : mat F := fun r c => if (r < k')%N then Mkm1 r c else 0 in
      let M2 : mat F := fun r c => if (0 < r)%N then Mkm1 r.-1 c else 0 in
      fun r c => mulm k' M1 (M_A t k'.+1 i) r c + mulm k' M2 (M_B t k'.+1 i) r c
  end.

(* BSpline.cpp:58-67 initializeBasisMatrices *)
Definition initializeBasisMatrices (k : nat) (ks : seq F) : seq (mat F) :=
  mkseq (fun i => Mmat (nth 0 ks) k (i + k - 1)%N) (numValidTimeSegments k (size ks)).

(* BSpline.cpp:183-196 verifyKnotSequence: note that the loop bound is the size of the
   OLD knot vector knots_, while the accesses go to the argument. *)
Definition verifyKnotSequence (s : bspline) (ks : seq F) : outcome unit :=
  assert (minimumKnotsRequired (bs_order s) <= size ks)%N raise ExnSpline ;
  oloop 1 (size (bs_knots s)) (fun i _ =>
    need (i < size ks)%N ;
    assert (nth 0 ks i.-1 <= nth 0 ks i) raise ExnSpline ;
    Ok tt) tt.

(* BSpline.cpp:36-56 setKnotsAndCoefficients *)
Definition setKnotsAndCoefficients (s : bspline) (ks : seq F) (c : dmat F)
  : outcome bspline :=
  let k := bs_order s in
  do _u <- verifyKnotSequence s ks ;
  assert numCoefficientsRequired k (numValidTimeSegments k (size ks)) == dm_cols c
    raise ExnSpline ;
  Ok (BSpline k ks c (initializeBasisMatrices k ks)).

(* BSpline.cpp:225-229 t_min *)
Definition t_min (s : bspline) : outcome F :=
  assert (minimumKnotsRequired (bs_order s) <= size (bs_knots s))%N raise ExnSpline ;
  Ok (kn s (bs_order s - 1)).

(* BSpline.cpp:231-235 t_max *)
Definition t_max (s : bspline) : outcome F :=
  assert (minimumKnotsRequired (bs_order s) <= size (bs_knots s))%N raise ExnSpline ;
  Ok (kn s (size (bs_knots s) - bs_order s)).

(* std::upper_bound(knots_.begin(), knots_.end(), t), used in BSpline.cpp:257: first
   element greater than t; undefined when the range is not partitioned w.r.t. t. *)
Definition upper_bound (ks : seq F) (t : F) : outcome nat :=
  let i := find (fun x => t < x) ks in
  need all (fun x => t < x) (drop i ks) ; Ok i.

(* BSpline.cpp:237-264 computeTIndex *)
Definition computeTIndex (s : bspline) (t0 : F) : outcome (F * nat) :=
  do tmin <- t_min s ;
  assert tmin <= t0 raise ExnSpline ;
  do tmax <- t_max s ;
  let t := if `|tmax - t0| < eps then tmax else t0 in
  assert t <= tmax raise ExnSpline ;
  do i <- (if t == tmax then Ok (size (bs_knots s) - bs_order s)%N
           else upper_bound (bs_knots s) t) ;
  need (0 < i < size (bs_knots s))%N ;
  Ok (kn s i - kn s i.-1, i.-1).

(* BSpline.cpp:266-287 computeUAndTIndex (the unsnapped t is used for u, as in the code) *)
Definition computeUAndTIndex (s : bspline) (t : F) : outcome (F * nat) :=
  do ' (denom, index) <- computeTIndex s t ;
  if denom <= 0 then Ok (0, index)
  else Ok ((t - kn s index) / denom, index).

(* BSpline.cpp:300-318 computeU.  derivativeOrder is a natural number here: negative
   orders are rejected by the callers (SM_ASSERT_GE, lines 333, 353, 467). *)
Definition computeU (s : bspline) (uval : F) (segmentIndex d : nat) : outcome (vec F) :=
  need (segmentIndex.+1 < size (bs_knots s))%N ;
  let delta_t := kn s segmentIndex.+1 - kn s segmentIndex in
  let multiplier := if 0 < delta_t then 1 / delta_t ^+ d else 0 in
  Ok (floop d (bs_order s) (fun i (st : vec F * F) =>
        let: (u, uu) := st in
        (upd u i (multiplier * uu * (dmul i d)%:R), uu * uval))
      (zerov, 1)).1.

(* The index computation "int bidx = idx - splineOrder_ + 1" (lines 338, 358, 408, ...)
   followed by an access to basisMatrices_[bidx] and to the splineOrder_ coefficient
   columns starting at bidx; out-of-range accesses are undefined behaviour. *)
Definition segment_access (s : bspline) (idx : nat) : outcome nat :=
  need (bs_order s <= idx.+1)%N ;
  let b := (idx.+1 - bs_order s)%N in
  need ((b < size (bs_basis s))%N && (b + bs_order s <= bs_ncoef s)%N) ;
  Ok b.

Definition basis_at (s : bspline) (b : nat) : mat F := nth zerom (bs_basis s) b.

(* BSpline.cpp:331-349 evalD *)
Definition evalD (s : bspline) (t : F) (d : nat) : outcome (vec F) :=
  let k := bs_order s in
  do ' (uval, idx) <- computeUAndTIndex s t ;
  do u <- computeU s uval idx d ;
  do b <- segment_access s idx ;
  let C := get_block (bs_coef s) 0 b in
  Ok (mulv k (mulm k C (trm (basis_at s b))) u).

(* BSpline.cpp:320-323 eval *)
Definition eval (s : bspline) (t : F) : outcome (vec F) := evalD s t 0.

(* BSpline.cpp:351-387 evalDAndJacobian with both output pointers given; the Jacobian
   blocks are written entrywise: block column i is Bt_u[i] * Identity. Returns value,
   Jacobian (D x kD), coefficient indices (Eigen LinSpaced on integers). *)
Definition evalDAndJacobian (s : bspline) (t : F) (d : nat)
  : outcome (vec F * mat F * seq nat) :=
  let k := bs_order s in
  let D := bs_dim s in
  do ' (uval, idx) <- computeUAndTIndex s t ;
  do u <- computeU s uval idx d ;
  do b <- segment_access s idx ;
  let Bt_u := mulv k (trm (basis_at s b)) u in
  let v := mulv k (get_block (bs_coef s) 0 b) Bt_u in
  let J := floop 0 k (fun i (J : mat F) =>
             set_block J 0 (i * D) D D (fun r c => eyem r c * Bt_u i)) zerom in
  Ok (v, J, iota (b * D) (k * D)).

(* BSpline.cpp:464-500 Phi (also localBasisMatrix, 400-403) *)
Definition Phi (s : bspline) (t : F) (d : nat) : outcome (mat F) :=
  let k := bs_order s in
  let D := bs_dim s in
  do ' (uval, idx) <- computeUAndTIndex s t ;
  do u <- computeU s uval idx d ;
  do b <- segment_access s idx ;
  let u' := mulv k (trm (basis_at s b)) u in
  Ok (floop 0 k (fun i (P : mat F) =>
        set_block P 0 (D * i) D D (fun r c => eyem r c * u' i)) zerom).

(* coefficient columns only (no basis matrix access) *)
Definition column_access (s : bspline) (idx : nat) : outcome nat :=
  need (bs_order s <= idx.+1)%N ;
  let b := (idx.+1 - bs_order s)%N in
  need (b + bs_order s <= bs_ncoef s)%N ;
  Ok b.

(* BSpline.cpp:405-410 localCoefficientMatrix *)
Definition localCoefficientMatrix (s : bspline) (t : F) : outcome (dmat F) :=
  do ' (_, idx) <- computeTIndex s t ;
  do b <- column_access s idx ;
  Ok (DMat (bs_dim s) (bs_order s) (get_block (bs_coef s) 0 b)).

(* Stacking k columns from column b into one vector: lines 417-421 and 428-431. *)
Definition stack_cols (D k : nat) (C : mat F) (b : nat) : vec F :=
  floop 0 k (fun i (c : vec F) => set_segment c (i * D) D (fun r => C r (i + b)%N)) zerov.

(* BSpline.cpp:412-423 localCoefficientVector *)
Definition localCoefficientVector (s : bspline) (t : F) : outcome (dvec F) :=
  do ' (_, idx) <- computeTIndex s t ;
  do b <- column_access s idx ;
  Ok (DVec (bs_order s * bs_dim s) (stack_cols (bs_dim s) (bs_order s) (bs_coef s) b)).

(* BSpline.cpp:425-433 segmentCoefficientVector; negative indices (which throw) are
   excluded by the type. *)
Definition segmentCoefficientVector (s : bspline) (i : nat) : outcome (dvec F) :=
  assert (i < numValidTimeSegments (bs_order s) (size (bs_knots s)))%N raise ExnRuntime ;
  need (i + bs_order s <= bs_ncoef s)%N ;
  Ok (DVec (bs_order s * bs_dim s) (stack_cols (bs_dim s) (bs_order s) (bs_coef s) i)).

(* BSpline.cpp:436-442 localCoefficientVectorIndices.  bidx may be negative in C++ when
   the state is corrupt; that case is reported as UB here. *)
Definition localCoefficientVectorIndices (s : bspline) (t : F) : outcome (seq nat) :=
  do ' (_, idx) <- computeTIndex s t ;
  need (bs_order s <= idx.+1)%N ;
  let b := (idx.+1 - bs_order s)%N in
  Ok (iota (b * bs_dim s) (bs_order s * bs_dim s)).

(* BSpline.cpp:444-449 segmentCoefficientVectorIndices *)
Definition segmentCoefficientVectorIndices (s : bspline) (i : nat) : outcome (seq nat) :=
  assert (i < numValidTimeSegments (bs_order s) (size (bs_knots s)))%N raise ExnRuntime ;
  Ok (iota (i * bs_dim s) (bs_order s * bs_dim s)).

(* BSpline.cpp:451-456 localVvCoefficientVectorIndices *)
Definition localVvCoefficientVectorIndices (s : bspline) (t : F) : outcome (seq nat) :=
  do ' (_, idx) <- computeTIndex s t ;
  need (bs_order s <= idx.+1)%N ;
  Ok (iota (idx.+1 - bs_order s) (bs_order s)).

(* BSpline.cpp:458-462 segmentVvCoefficientVectorIndices *)
Definition segmentVvCoefficientVectorIndices (s : bspline) (i : nat) : outcome (seq nat) :=
  assert (i < numValidTimeSegments (bs_order s) (size (bs_knots s)))%N raise ExnRuntime ;
  Ok (iota i (bs_order s)).

Definition with_coef (s : bspline) (C : mat F) : bspline :=
  BSpline (bs_order s) (bs_knots s) (DMat (bs_dim s) (bs_ncoef s) C) (bs_basis s).

(* BSpline.cpp:503-510 setCoefficientVector *)
Definition setCoefficientVector (s : bspline) (c : dvec F) : outcome bspline :=
  assert dv_size c == (bs_dim s * bs_ncoef s)%N raise ExnSpline ;
  Ok (with_coef s (floop 0 (bs_ncoef s) (fun i (C : mat F) =>
        set_col C i (get_segment c (i * bs_dim s))) (bs_coef s))).

(* BSpline.cpp:512-520 coefficientVector *)
Definition coefficientVector (s : bspline) : dvec F :=
  DVec (bs_dim s * bs_ncoef s)
       (floop 0 (bs_ncoef s) (fun i (c : vec F) =>
          set_segment c (i * bs_dim s) (bs_dim s) (fun r => bs_coef s r i)) zerov).

(* BSpline.cpp:523-528 setCoefficientMatrix *)
Definition setCoefficientMatrix (s : bspline) (C : dmat F) : outcome bspline :=
  assert bs_dim s == dm_rows C raise ExnSpline ;
  assert bs_ncoef s == dm_cols C raise ExnSpline ;
  Ok (BSpline (bs_order s) (bs_knots s) C (bs_basis s)).

(* BSpline.cpp:532-536 basisMatrix(i): the assert uses numValidTimeSegments(), the access
   uses basisMatrices_. *)
Definition basisMatrix (s : bspline) (i : nat) : outcome (mat F) :=
  assert (i < numValidTimeSegments (bs_order s) (size (bs_knots s)))%N raise ExnSpline ;
  need (i < size (bs_basis s))%N ;
  Ok (basis_at s i).

(* BSpline.cpp:539-542 timeInterval() *)
Definition timeInterval (s : bspline) : outcome (F * F) :=
  do a <- t_min s ; do b <- t_max s ; Ok (a, b).

(* BSpline.cpp:544-549 timeInterval(i) *)
Definition timeInterval_i (s : bspline) (i : nat) : outcome (F * F) :=
  let k := bs_order s in
  assert (minimumKnotsRequired k <= size (bs_knots s))%N raise ExnSpline ;
  assert (i < numValidTimeSegments k (size (bs_knots s)))%N raise ExnSpline ;
  need (k + i < size (bs_knots s))%N ;
  Ok (kn s (k + i - 1), kn s (k + i)%N).

(* BSpline.cpp:749-759 setLocalCoefficientVector *)
Definition setLocalCoefficientVector (s : bspline) (t : F) (c : dvec F) : outcome bspline :=
  assert dv_size c == (bs_order s * bs_dim s)%N raise ExnSpline ;
  do ' (_, idx) <- computeTIndex s t ;
  do b <- column_access s idx ;
  Ok (with_coef s (floop 0 (bs_order s) (fun i (C : mat F) =>
        set_col C (i + b) (get_segment c (i * bs_dim s))) (bs_coef s))).

(* BSpline.cpp:740-747 removeCurveSegment (basisMatrices_ is not touched) *)
Definition removeCurveSegment (s : bspline) : bspline :=
  if (0 < size (bs_knots s))%N && (0 < bs_ncoef s)%N then
    BSpline (bs_order s) (behead (bs_knots s))
            (DMat (bs_dim s) (bs_ncoef s).-1 (get_block (bs_coef s) 0 1)) (bs_basis s)
  else s.

(* BSpline.cpp:1751-1761 vvCoefficientVector(i): read through the returned map *)
Definition vvCoefficientVector (s : bspline) (i : nat) : outcome (dvec F) :=
  assert (i < bs_ncoef s)%N raise ExnSpline ;
  Ok (DVec (bs_dim s) (fun r => bs_coef s r i)).
(* BSpline.cpp:1751-1755: write of a whole vector through the returned map *)
Definition vvCoefficientVector_write (s : bspline) (i : nat) (v : vec F) : outcome bspline :=
  assert (i < bs_ncoef s)%N raise ExnSpline ;
  Ok (with_coef s (set_col (bs_coef s) i v)).

(* Eigen::VectorXd::LinSpaced(K,lo,hi), BSpline.cpp:1730; K >= 2 at the call site. *)
Definition linspaced (K : nat) (lo hi : F) : seq F :=
  mkseq (fun i => lo + i%:R * ((hi - lo) / (K.-1)%:R)) K.

(* BSpline.cpp:1718-1743 initConstantSpline (through setKnotVectorAndCoefficients, 153-161) *)
Definition initConstantSpline (s : bspline) (tmin tmax : F) (numSegments : nat)
  (constant : dvec F) : outcome bspline :=
  let k := bs_order s in
  assert tmin < tmax raise ExnSpline ;
  assert (1 <= numSegments)%N raise ExnSpline ;
  assert (1 <= dv_size constant)%N raise ExnSpline ;
  let K := numKnotsRequired k numSegments in
  let C := numCoefficientsRequired k numSegments in
  let dt := (tmax - tmin) / numSegments%:R in
  let minTime := tmin - (k%:R - 1) * dt in
  let maxTime := tmax + (k%:R - 1) * dt in
  let coeff := DMat (dv_size constant) C (floop 0 C (fun i (c : mat F) =>
                 set_col c i constant) zerom) in
  setKnotsAndCoefficients s (linspaced K minTime maxTime) coeff.

(* Uniform knot vector of initSpline / initSpline2 / initSpline3 / initSplineSparse:
   BSpline.cpp:567-571, 786-790, 988-992, 1111-1115. *)
Definition uniform_knots (k K : nat) (t0 dt : F) : seq F :=
  mkseq (fun i => t0 + (i%:R - k%:R + 1) * dt) K.

(* BSpline.cpp:587-589, 590-592, 598-600, 601-603, 613-615, 616-618: one row block of
   initSpline: A.block(brow,0,D,coefficientDim) = P; b.segment(brow,D) = w; brow += D. *)
Definition init_row (D constraintSize coefficientDim : nat) (r : outcome (mat F)) (w : vec F)
  (st : mat F * vec F * nat) : outcome (mat F * vec F * nat) :=
  let: (A, b, brow) := st in
  do P <- r ;
  need (brow + D <= constraintSize)%N ;
  Ok (set_block A brow 0 D coefficientDim P, set_segment b brow D w, (brow + D)%N).

(* BSpline.cpp:551-640 initSpline.  The "while(brow < A.rows())" loop of 611-620 is
   written as a for-loop over derivativeOrder = 2 .. constraintsRequired/2 - 1 (each pass
   adds 2*D rows). *)
Definition initSpline (s : bspline) (t_0 t_1 : F) (p_0 p_1 : dvec F) : outcome bspline :=
  let k := bs_order s in
  assert dv_size p_0 == dv_size p_1 raise ExnSpline ;
  assert t_0 < t_1 raise ExnSpline ;
  let K := numKnotsRequired k 1 in
  let C := numCoefficientsRequired k 1 in
  let D := dv_size p_0 in
  let dt := t_1 - t_0 in
  do s1 <- setKnotsAndCoefficients s (uniform_knots k K t_0 dt) (DMat D C zerom) ;
  let coefficientDim := (C * D)%N in
  let constraintsRequired := (C + odd C)%N in
  let constraintSize := (constraintsRequired * D)%N in
  let put := init_row D constraintSize coefficientDim in
  do tmin <- t_min s1 ;
  do tmax <- t_max s1 ;
  do st1 <- put (Phi s1 tmin 0) p_0 (zerom, zerov, 0%N) ;
  do st2 <- put (Phi s1 tmax 0) p_1 st1 ;
  do st3 <- (if (2 < k)%N then
      let v := fun r => (p_1 r - p_0 r) / dt in
      do st <- put (Phi s1 tmin 1) v st2 ;
      do st' <- put (Phi s1 tmax 1) v st ;
      if (4 < k)%N then
        oloop 2 (constraintsRequired./2) (fun d st =>
          do st <- put (Phi s1 tmin d) zerov st ;
          put (Phi s1 tmax d) zerov st) st'
      else Ok st'
    else Ok st2) ;
  let: (A, b, _) := st3 in
  let c := if constraintSize != coefficientDim
           then solveQr coefficientDim (mulm constraintSize (trm A) A)
                        (mulv constraintSize (trm A) b)
           else solveQr coefficientDim A b in
  setCoefficientVector s1 (DVec coefficientDim c).

(* Common first part of addCurveSegment (BSpline.cpp:644-678) and addCurveSegment2
   (1169-1203).  [junk] is the uninitialised new coefficient column.  Returns the end
   position p_0, the new spline, and NT. *)
Definition addCurveSegment_knots (s : bspline) (t : F) (junk : vec F) (p1size : nat)
  : outcome (vec F * bspline * nat) :=
  let k := bs_order s in
  do tmax <- t_max s ;
  assert tmax < t raise ExnSpline ;
  assert p1size == bs_dim s raise ExnSpline ;
  let NT := numValidTimeSegments k (size (bs_knots s)) in
  assert (0 < NT)%N raise ExnSpline ;      (* timeInterval(NT-1) with NT = 0 throws *)
  do ' (a, b) <- timeInterval_i s NT.-1 ;
  do p_0 <- eval s b ;
  do ' (_, km1) <- computeTIndex s a ;
  need (km1.+1 < size (bs_knots s))%N ;
  let dt := t - kn s km1.+1 in
  let ks := rcons (bs_knots s) 0 in
  let ks' := (floop km1.+2 (size ks) (fun i (st : seq F * F) =>
               let: (ks, kt) := st in (set_nth 0 ks i kt, kt + dt)) (ks, t)).1 in
  let c := DMat (bs_dim s) (bs_ncoef s).+1 (fun r j => if (j < bs_ncoef s)%N
             then bs_coef s r j else junk r) in
  do s' <- setKnotsAndCoefficients s ks' c ;
  Ok (p_0, s', NT).

(* coefficients_.col(cols-2) = cstar.head(D); coefficients_.col(cols-1) = cstar.tail(D);
   BSpline.cpp:734-735 and 1270-1271 *)
Definition write_last_two (s : bspline) (cstar : vec F) : bspline :=
  let D := bs_dim s in
  with_coef s (set_col (set_col (bs_coef s) (bs_ncoef s - 2) cstar)
                       (bs_ncoef s - 1) (get_segment cstar D)).

(* BSpline.cpp:642-737 addCurveSegment *)
Definition addCurveSegment (s : bspline) (t : F) (p_1 : dvec F) (junk : vec F)
  : outcome bspline :=
  let k := bs_order s in
  do ' (p_0, s1, NT) <- addCurveSegment_knots s t junk (dv_size p_1) ;
  do ' (t_0, t_1) <- timeInterval_i s1 NT ;
  let D := bs_dim s1 in
  let coefficientDim := (2 * D)%N in
  let off := (D * (k - 2))%N in
  do lc <- localCoefficientVector s1 t_0 ;
  do P0 <- Phi s1 t_0 0 ;
  do P1 <- Phi s1 t_1 0 ;
  let A := set_block (set_block zerom 0 0 D coefficientDim (get_block P0 0 off))
                     D 0 D coefficientDim (get_block P1 0 off) in
  let b := set_segment (set_segment zerov 0 D (fun r => p_0 r - mulv off P0 lc r))
                       D D (fun r => p_1 r - mulv off P1 lc r) in
  Ok (write_last_two s1 (solveQr coefficientDim A b)).

(* BSpline.cpp:1167-1273 addCurveSegment2 *)
Definition addCurveSegment2 (s : bspline) (t : F) (p_1 : dvec F) (lambda : F) (junk : vec F)
  : outcome bspline :=
  let k := bs_order s in
  do ' (p_0, s1, NT) <- addCurveSegment_knots s t junk (dv_size p_1) ;
  do ' (t_0, t_1) <- timeInterval_i s1 NT ;
  let D := bs_dim s1 in
  let coefficientDim := (2 * D)%N in
  let constraintSize := (4 * D)%N in
  let off := (D * (k - 2))%N in
  do lc <- localCoefficientVector s1 t_0 ;
  do P0 <- Phi s1 t_0 0 ;
  do P1 <- Phi s1 t_1 0 ;
  do P2 <- Phi s1 t_0 2 ;
  do P3 <- Phi s1 t_1 2 ;
  let sc (P : mat F) : mat F := fun r c => lambda * get_block P 0 off r c in
  let A := set_block (set_block (set_block (set_block zerom
                     0 0 D coefficientDim (get_block P0 0 off))
                     D 0 D coefficientDim (get_block P1 0 off))
                     (2 * D) 0 D coefficientDim (sc P2))
                     (3 * D) 0 D coefficientDim (sc P3) in
  let b := set_segment (set_segment zerov 0 D (fun r => p_0 r - mulv off P0 lc r))
                       D D (fun r => p_1 r - mulv off P1 lc r) in
  let cstar := if constraintSize != coefficientDim
    then solveQr coefficientDim (mulm constraintSize (trm A) A) (mulv constraintSize (trm A) b)
    else solveQr coefficientDim A b in
  Ok (write_last_two s1 cstar).

(* BSpline.cpp:1276-1302 Vi *)
Definition Vi (s : bspline) (i : nat) : outcome (mat F) :=
  assert (i < numValidTimeSegments (bs_order s) (size (bs_knots s)))%N raise ExnSpline ;
  do ' (t0, t1) <- timeInterval_i s i ;
  Ok (fun r c => (r + c).+1%:R^-1 * (t1 - t0)).

(* BSpline.cpp:1304-1366 evalIntegral.  [part] is the repeated product
   w * coefficients_.block(...) * basisMatrices_[bidx].transpose() * v of lines 1330, 1343
   and 1361.  The vector v(i) = du/(i+1), du = x^(i+1) of lines 1321-1327 and 1352-1358
   is written in closed form. *)
Definition integral_part (s : bspline) (w : F) (idx : nat) (v : vec F) : outcome (vec F) :=
  let k := bs_order s in
  do b <- segment_access s idx ;
  Ok (mulv k (mulm k (fun r c => w * get_block (bs_coef s) 0 b r c) (trm (basis_at s b))) v).

Definition evalIntegral_ordered (s : bspline) (t1 t2 : F) : outcome (vec F) :=
  do ' (w1, i1) <- computeTIndex s t1 ;
  do ' (w2, i2) <- computeTIndex s t2 ;
  let pows (x : F) : vec F := fun i => x ^+ i.+1 / i.+1%:R in
  let lhs := t1 - kn s i1 in
  do I1 <- (if (thr < lhs) && (thr < w1) then
              do p <- integral_part s w1 i1 (pows (lhs / w1)) ;
              Ok (fun r => - p r)
            else Ok zerov) ;
  do I2 <- oloop i1 i2 (fun j (I : vec F) =>
             need (j.+1 < size (bs_knots s))%N ;
             do p <- integral_part s (kn s j.+1 - kn s j) j (fun i => i.+1%:R^-1) ;
             Ok (fun r => I r + p r)) I1 ;
  let rhs := t2 - kn s i2 in
  if (thr < rhs) && (thr < w2) then
    do p <- integral_part s w2 i2 (pows (rhs / w2)) ;
    Ok (fun r => I2 r + p r)
  else Ok I2.

Definition evalIntegral (s : bspline) (t1 t2 : F) : outcome (vec F) :=
  if t2 < t1 then
    do v <- evalIntegral_ordered s t2 t1 ; Ok (fun r => - v r)
  else evalIntegral_ordered s t1 t2.

(* BSpline.cpp:1440-1444 segmentIndex *)
Definition segmentIndex (s : bspline) (t : F) : outcome nat :=
  do ' (_, idx) <- computeTIndex s t ;
  need (bs_order s <= idx.+1)%N ;
  Ok (basisMatrixIndexFromStartingKnotIndex (bs_order s) idx).

(* BSpline.cpp:1460-1466 u(t,d) *)
Definition u_vec (s : bspline) (t : F) (d : nat) : outcome (vec F) :=
  do ' (uval, idx) <- computeUAndTIndex s t ;
  computeU s uval idx d.

(* BSpline.cpp:1446-1458 U(t,d): kD x D, column i carries u in rows i*k .. *)
Definition U_mat (s : bspline) (t : F) (d : nat) : outcome (mat F) :=
  let k := bs_order s in
  do uvec <- u_vec s t d ;
  Ok (floop 0 (bs_dim s) (fun i (U : mat F) =>
        set_block U (i * k) i k 1 (fun r _ => uvec r)) zerom).

(* BSpline.cpp:1378-1389 Bij *)
Definition Bij (s : bspline) (i j : nat) : outcome (mat F) :=
  let k := bs_order s in
  assert (i < size (bs_basis s))%N raise ExnSpline ;
  assert (j < k)%N raise ExnSpline ;
  Ok (floop 0 (bs_dim s) (fun d (B : mat F) =>
        set_block B (d * k) d k 1 (fun r _ => basis_at s i r j)) zerom).

(* BSpline.cpp:1391-1403 Mi *)
Definition Mi (s : bspline) (i : nat) : outcome (mat F) :=
  let k := bs_order s in let D := bs_dim s in
  assert (i < size (bs_basis s))%N raise ExnSpline ;
  oloop 0 k (fun j (M : mat F) =>
    do B <- Bij s i j ; Ok (set_block M 0 (j * D) (D * k) D B)) zerom.

(* BSpline.cpp:1483-1500 Dii *)
Definition Dii (s : bspline) (i : nat) : outcome (mat F) :=
  assert (i < size (bs_basis s))%N raise ExnSpline ;
  do ' (t0, t1) <- timeInterval_i s i ;
  let dt := t1 - t0 in
  let recip_dt := if 0 < dt then 1 / dt else 0 in
  Ok (floop 0 (bs_order s).-1 (fun r (D : mat F) =>
        fun r' c' => if (r' == r) && (c' == r.+1) then r.+1%:R * recip_dt else D r' c') zerom).

(* BSpline.cpp:1468-1481 Di *)
Definition Di (s : bspline) (i : nat) : outcome (mat F) :=
  let k := bs_order s in
  do subD <- Dii s i ;
  Ok (floop 0 (bs_dim s) (fun d (M : mat F) =>
        set_block M (d * k) (d * k) k k subD) zerom).

(* lines 1527-1530 and 1564-1567: V = Dm^T V Dm, derivativeOrder times *)
Definition derive_V (k d : nat) (Dm V : mat F) : mat F :=
  floop 0 d (fun _ V => mulm k (mulm k (trm Dm) V) Dm) V.

(* BSpline.cpp:1512-1548 segmentQuadraticIntegral.  SM_ASSERT_NEAR(a,b,tol) holds when
   |a-b| <= tol. *)
Definition segmentQuadraticIntegral (s : bspline) (W : dmat F) (i d : nat)
  : outcome (mat F) :=
  let k := bs_order s in let D := bs_dim s in
  assert (i < size (bs_basis s))%N raise ExnSpline ;
  assert dm_rows W == D raise ExnSpline ;
  assert dm_cols W == D raise ExnSpline ;
  let N := (D * k)%N in
  do Dm <- Dii s i ;
  do V <- Vi s i ;
  do M <- Mi s i ;
  let V' := derive_V k d Dm V in
  do WV <- oloop 0 D (fun r (WV : mat F) =>
     oloop 0 D (fun c (WV : mat F) =>
       assert `|W r c - W c r| <= wtol raise ExnSpline ;
       Ok (set_block WV (k * r) (k * c) k k (fun a b => W r c * V' a b))) WV) zerom ;
  Ok (mulm N (mulm N (trm M) WV) M).

(* BSpline.cpp:1550-1581 segmentQuadraticIntegralDiag *)
Definition segmentQuadraticIntegralDiag (s : bspline) (Wd : dvec F) (i d : nat)
  : outcome (mat F) :=
  let k := bs_order s in let D := bs_dim s in
  assert (i < size (bs_basis s))%N raise ExnSpline ;
  assert dv_size Wd == D raise ExnSpline ;
  let N := (D * k)%N in
  do Dm <- Dii s i ;
  do V <- Vi s i ;
  do M <- Mi s i ;
  let V' := derive_V k d Dm V in
  let WV := floop 0 D (fun r (WV : mat F) =>
       set_block WV (k * r) (k * r) k k (fun a b => Wd r * V' a b)) zerom in
  Ok (mulm N (mulm N (trm M) WV) M).

(* Q.block(r0,c0,n,n) += B *)
Definition add_block (Q : mat F) (r0 c0 n m : nat) (B : mat F) : mat F :=
  fun r c => if [&& r0 <= r, r < r0 + n, c0 <= c & c < c0 + m]%N
             then Q r c + B (r - r0)%N (c - c0)%N else Q r c.

(* the accumulation loops of curveQuadraticIntegral (1676-1682) and Diag (1696-1702) *)
Definition curve_accumulate (s : bspline) (seg : nat -> outcome (mat F)) : outcome (mat F) :=
  let k := bs_order s in let D := bs_dim s in
  oloop 0 (numValidTimeSegments k (size (bs_knots s))) (fun i (Q : mat F) =>
    do B <- seg i ;
    need (i + k <= bs_ncoef s)%N ;
    Ok (add_block Q (i * D) (i * D) (k * D) (k * D) B)) zerom.

(* BSpline.cpp:1669-1686 curveQuadraticIntegral *)
Definition curveQuadraticIntegral (s : bspline) (W : dmat F) (d : nat) : outcome (mat F) :=
  assert dm_rows W == bs_dim s raise ExnSpline ;
  assert dm_cols W == bs_dim s raise ExnSpline ;
  curve_accumulate s (fun i => segmentQuadraticIntegral s W i d).

(* BSpline.cpp:1690-1706 curveQuadraticIntegralDiag *)
Definition curveQuadraticIntegralDiag (s : bspline) (Wd : dvec F) (d : nat)
  : outcome (mat F) :=
  assert dv_size Wd == bs_dim s raise ExnSpline ;
  curve_accumulate s (fun i => segmentQuadraticIntegralDiag s Wd i d).

(* BSpline.cpp:1606-1621 and 1647-1662: accumulation of D x D blocks into a
   SparseBlockMatrix.  The sparse matrix is modelled by its dense content (absent blocks
   are zero, block(...,true) allocates a zero block). *)
Definition sparse_accumulate (s : bspline) (seg : nat -> outcome (mat F)) : outcome (mat F) :=
  let k := bs_order s in let D := bs_dim s in
  oloop 0 (numValidTimeSegments k (size (bs_knots s))) (fun g (Q : mat F) =>
    do B <- seg g ;
    need (g + k <= bs_ncoef s)%N ;
    Ok (floop 0 k (fun i Q => floop 0 k (fun j (Q : mat F) =>
          add_block Q ((g + i) * D) ((g + j) * D) D D (get_block B (i * D) (j * D))) Q) Q)) zerom.

(* BSpline.cpp:1585-1622 curveQuadraticIntegralSparse (D >= 1; for D = 0 the loop at 1600
   does not terminate). *)
Definition curveQuadraticIntegralSparse (s : bspline) (W : dmat F) (d : nat)
  : outcome (mat F) :=
  sparse_accumulate s (fun i => segmentQuadraticIntegral s W i d).
(* BSpline.cpp:1626-1664 curveQuadraticIntegralDiagSparse (D >= 1) *)
Definition curveQuadraticIntegralDiagSparse (s : bspline) (Wd : dvec F) (d : nat)
  : outcome (mat F) :=
  sparse_accumulate s (fun i => segmentQuadraticIntegralDiag s Wd i d).

(* BSpline.cpp:1405-1420 getLocalBiVector / getLocalBiInto *)
Definition getLocalBiVector (s : bspline) (t : F) : outcome (dvec F) :=
  let k := bs_order s in
  do si <- segmentIndex s t ;
  do lu <- u_vec s t 0 ;
  need (si < size (bs_basis s))%N ;
  Ok (DVec k (floop 0 k (fun j (ret : vec F) =>
        upd ret j (dotv k lu (fun r => basis_at s si r j))) zerov)).

(* BSpline.cpp:1423-1436 getLocalCumulativeBiVector; the inner loop
   for(j = maxIndex; j > i; j--) sum += bi[j] adds bi[i+1..maxIndex]. *)
Definition getLocalCumulativeBiVector (s : bspline) (t : F) : outcome (dvec F) :=
  let k := bs_order s in
  do bi <- getLocalBiVector s t ;
  let maxIndex := k.-1 in
  let bi1 := floop 1 maxIndex.+1 (fun i (b : vec F) =>
       upd b i (b i + floop i.+1 maxIndex.+1 (fun j sum => sum + b j) 0)) (dv_get bi) in
  Ok (DVec k (upd bi1 0%N 1)).

(* include/bsplines/BSpline.hpp:36-58 class BiVector: operator()(i) *)
Definition BiVector (startIndex : nat) (local : dvec F) (endValue : F) (i : nat) : F :=
  if (i < startIndex)%N then endValue
  else if (i - startIndex < dv_size local)%N then local (i - startIndex)%N else 0.

(* include/bsplines/BSpline.hpp:567-572 getBiVector / getCumulativeBiVector: a vector of
   numValidTimeSegments() entries. *)
Definition getBiVector (s : bspline) (t : F) : outcome (dvec F) :=
  do si <- segmentIndex s t ;
  do l <- getLocalBiVector s t ;
  Ok (DVec (numValidTimeSegments (bs_order s) (size (bs_knots s))) (BiVector si l 0)).
Definition getCumulativeBiVector (s : bspline) (t : F) : outcome (dvec F) :=
  do si <- segmentIndex s t ;
  do l <- getLocalCumulativeBiVector s t ;
  Ok (DVec (numValidTimeSegments (bs_order s) (size (bs_knots s))) (BiVector si l 1)).

(* Argument checks and knot setup shared by initSpline2 (764-792), initSpline3 (1092-1117)
   and initSplineSparse (968-994). *)
Definition check_times (times : dvec F) (pts : dmat F) : outcome unit :=
  assert dv_size times == dm_cols pts raise ExnSpline ;
  assert (2 <= dv_size times)%N raise ExnSpline ;
  Ok tt.
Definition check_nondecreasing (times : dvec F) : outcome unit :=
  oloop 1 (dv_size times) (fun i _ =>
    assert times i.-1 <= times i raise ExnSpline ; Ok tt) tt.
Definition fit_setup (s : bspline) (times : dvec F) (pts : dmat F) (numSegments : nat)
  : outcome bspline :=
  let k := bs_order s in
  do _u <- check_times times pts ;
  assert (1 <= numSegments)%N raise ExnSpline ;
  do _v <- check_nondecreasing times ;
  let K := numKnotsRequired k numSegments in
  let C := numCoefficientsRequired k numSegments in
  let D := dm_rows pts in
  let dt := (times (dv_size times).-1 - times 0%N) / numSegments%:R in
  setKnotsAndCoefficients s (uniform_knots k K (times 0%N) dt) (DMat D C zerom).

(* One row block of the least-squares systems: A.block(brow,coeffIndices[0],D,kD) = P,
   b.segment(brow,D) = w (e.g. 822-826, 1136-1143); coeffIndices[0] requires D >= 1. *)
Definition put_row (s : bspline) (t : F) (P : outcome (mat F)) (w : vec F)
  (st : mat F * vec F * nat) : outcome (mat F * vec F * nat) :=
  let: (A, b, brow) := st in
  let D := bs_dim s in
  do idx <- localCoefficientVectorIndices s t ;
  do P' <- P ;
  need (0 < size idx)%N ;
  let c0 := head 0%N idx in
  need (c0 + size idx <= D * bs_ncoef s)%N ;
  Ok (set_block A brow c0 D (size idx) P', set_segment b brow D w, (brow + D)%N).

(* The same row block in the sparse variants (892-908, 1015-1031): k blocks of size D x D
   at block column coeffIndices[0]/D + j; the row b block is D x 1. *)
Definition put_row_sparse (s : bspline) (t : F) (P : outcome (mat F)) (w : vec F)
  (st : mat F * vec F * nat) : outcome (mat F * vec F * nat) :=
  let: (A, b, brow) := st in
  let D := bs_dim s in
  do idx <- localCoefficientVectorIndices s t ;
  do P' <- P ;
  need (0 < size idx)%N ;
  let c0 := (head 0 idx %/ D)%N in
  need (c0 + bs_order s <= bs_ncoef s)%N ;
  Ok (floop 0 (bs_order s) (fun j (A : mat F) =>
        set_block A (brow %/ D * D) ((c0 + j) * D) D D (get_block P' 0 (j * D))) A,
      set_segment b (brow %/ D * D) D w, (brow + D)%N).

(* the position constraints, 820-827, 1134-1144, and (blockwise) 891-909, 1014-1032 *)
Definition put_positions put (s : bspline) (times : dvec F) (pts : dmat F)
  (st : mat F * vec F * nat) : outcome (mat F * vec F * nat) :=
  oloop 0 (dm_cols pts) (fun i st =>
    put s (times i) (Phi s (times i) 0) (fun r => pts r i) st) st.

(* BSpline.cpp:762-845 initSpline2 *)
Definition initSpline2 (s : bspline) (times : dvec F) (pts : dmat F) (numSegments : nat)
  (lambda : F) : outcome bspline :=
  let k := bs_order s in
  do s1 <- fit_setup s times pts numSegments ;
  let D := bs_dim s1 in
  let cdim := (bs_ncoef s1 * D)%N in
  let nK := size (bs_knots s1) in
  let csize := ((nK - 2 * k + 2 + dm_cols pts) * D)%N in
  do st1 <- oloop (k - 1) (nK - k + 1) (fun i st =>
     put_row s1 (kn s1 i)
       (do P <- Phi s1 (kn s1 i) 2 ; Ok (fun r c => lambda * P r c)) zerov st) (zerom, zerov, 0%N) ;
  do ' (A, b, _) <- put_positions put_row s1 times pts st1 ;
  let c := solveLdlt cdim (mulm csize (trm A) A) (mulv csize (trm A) b) in
  setCoefficientVector s1 (DVec cdim c).

(* The normal equations of initSpline3 (1126-1159), built on an already set-up spline. *)
Definition fit_normal_equations (s1 : bspline) (times : dvec F) (pts : dmat F) (lambda : F)
  : outcome (mat F * vec F) :=
  let k := bs_order s1 in
  let csize := (dm_cols pts * bs_dim s1)%N in
  do ' (A, b, _) <- put_positions put_row s1 times pts (zerom, zerov, 0%N) ;
  do Q <- curveQuadraticIntegralDiag s1 (DVec (bs_dim s1) (fun _ => lambda))
            (if k == 2 then 1 else 2)%N ;
  Ok (fun r c => mulm csize (trm A) A r c + Q r c, mulv csize (trm A) b).

(* The normal equations of initSplineSparse (1009-1061) and initSplineSparseKnots
   (886-939).  Sparse block matrices are modelled by their dense content; the external
   call "Q.add(AtAp)" is taken to add Q into *AtAp. *)
Definition fit_normal_equations_sparse (s1 : bspline) (times : dvec F) (pts : dmat F)
  (lambda : F) : outcome (mat F * vec F) :=
  let k := bs_order s1 in
  let csize := (dm_cols pts * bs_dim s1)%N in
  do ' (A, b, _) <- put_positions put_row_sparse s1 times pts (zerom, zerov, 0%N) ;
  do Q <- curveQuadraticIntegralDiagSparse s1 (DVec (bs_dim s1) (fun _ => lambda))
            (if k == 2 then 1 else 2)%N ;
  Ok (fun r c => mulm csize (trm A) A r c + Q r c, mulv csize (trm A) b).

(* BSpline.cpp:1090-1164 initSpline3 *)
Definition initSpline3 (s : bspline) (times : dvec F) (pts : dmat F) (numSegments : nat)
  (lambda : F) : outcome bspline :=
  do s1 <- fit_setup s times pts numSegments ;
  let cdim := (bs_ncoef s1 * bs_dim s1)%N in
  do ' (A, b) <- fit_normal_equations s1 times pts lambda ;
  setCoefficientVector s1 (DVec cdim (solveLdlt cdim A b)).

(* BSpline.cpp:966-1086 initSplineSparse; the CHOLMOD solver (with its dense fallback
   ldlt) is the oracle solveLdlt. *)
Definition initSplineSparse (s : bspline) (times : dvec F) (pts : dmat F)
  (numSegments : nat) (lambda : F) : outcome bspline :=
  do s1 <- fit_setup s times pts numSegments ;
  let cdim := (bs_ncoef s1 * bs_dim s1)%N in
  do ' (A, b) <- fit_normal_equations_sparse s1 times pts lambda ;
  setCoefficientVector s1 (DVec cdim (solveLdlt cdim A b)).

(* BSpline.cpp:848-963 initSplineSparseKnots: knots given by the caller; the number of
   coefficients is numCoefficientsRequired(K - 2*(k-1) - 1); a negative argument (too few
   knots) is truncated here, the call then throws in verifyKnotSequence. *)
Definition initSplineSparseKnots (s : bspline) (times : dvec F) (pts : dmat F)
  (ks : seq F) (lambda : F) : outcome bspline :=
  let k := bs_order s in
  do _u <- check_times times pts ;
  do _v <- check_nondecreasing times ;
  let C := numCoefficientsRequired k (size ks - 2 * (k - 1) - 1) in
  do s1 <- setKnotsAndCoefficients s ks (DMat (dm_rows pts) C zerom) ;
  let cdim := (bs_ncoef s1 * bs_dim s1)%N in
  do ' (A, b) <- fit_normal_equations_sparse s1 times pts lambda ;
  setCoefficientVector s1 (DVec cdim (solveLdlt cdim A b)).

End BSpline.

Arguments Mmat : simpl never.
