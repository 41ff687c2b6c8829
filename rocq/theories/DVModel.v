(* Model of the design variables and expressions built on BSpline and BSplinePose:
   aslam_splines/include/aslam/splines/implementation/BSplineDesignVariable.hpp  [DV]
   aslam_splines/src/BSplinePoseDesignVariable.cpp                               [PDV]
   aslam_splines/src/BSplineExpressions.cpp                                      [EX]
   aslam_splines/include/aslam/splines/implementation/BSplineExpressions.hpp     [EXH]
   aslam_splines/include/aslam/backend/implementation/BSplineMotionError.hpp     [ME]
   No proofs in this file. *)
From mathcomp Require Import all_ssreflect all_algebra.
From Verif Require Import Prelude BSplineModel PoseModel.
Set Implicit Arguments.
Unset Strict Implicit.
Unset Printing Implicit Defensive.
Import GRing.Theory Num.Theory.
Local Open Scope ring_scope.

(* v[i] = f(v[i]) *)
Fixpoint modify A (i : nat) (f : A -> A) (s : seq A) : seq A :=
  match s, i with
  | [::], _ => [::]
  | x :: s', 0 => f x :: s'
  | x :: s', i'.+1 => x :: modify i' f s'
  end.

(* for every i: v.push_back(body(i)) over a list *)
Fixpoint omap_seq A B (f : A -> outcome B) (s : seq A) : outcome (seq B) :=
  match s with
  | [::] => Ok [::]
  | x :: s' => do y <- f x ; do ys <- omap_seq f s' ; Ok (y :: ys)
  end.

Section DV.
Variable F : realFieldType.
(* eps: BSpline.cpp:242; D: the template argument of BSplineDesignVariable (6 for poses) *)
Variable eps : F.
Variable D : nat.
Variables solveQr solveLdlt : nat -> mat F -> vec F -> vec F.

(* aslam::backend::DesignVariableMappedVector<D> (external library): a heap object (md_id is
   its address) with an Eigen::Map to D numbers, here column md_col of the coefficient buffer
   md_buf.  The value saved for a later revert is not modelled. *)
Record mapped_dv := MappedDV { md_id : nat; md_buf : nat; md_col : nat }.

(* BSplineDesignVariable.hpp:52-57 (and BSplinePoseDesignVariable.hpp): spline and vector of
   design variables; sd_buf names the memory that holds the coefficients (addCurveSegment
   and removeCurveSegment replace it), sd_next is the next fresh heap address. *)
Record spline_dv := SplineDV {
  sd_spline : bspline F; sd_buf : nat; sd_dvs : seq mapped_dv; sd_next : nat }.

(* BSpline.hpp:361-368 fixedSizeVvCoefficientVector<D>(i).data(): the address of column i.
   The check of D is a debug assertion; with another number of rows the map would cover
   other memory. *)
Definition fixedSizeVv (st : spline_dv) (i : nat) : outcome (nat * nat) :=
  assert (i < bs_ncoef (sd_spline st))%N raise ExnSpline ;
  need D == bs_dim (sd_spline st) ;
  Ok (sd_buf st, i).

(* _designVariables.push_back(new DesignVariableMappedVector<D>(... (i)));  [DV] 16, 79, 91 *)
Definition push_dv (st : spline_dv) (i : nat) : outcome spline_dv :=
  do ' (b, c) <- fixedSizeVv st i ;
  Ok (SplineDV (sd_spline st) (sd_buf st)
        (rcons (sd_dvs st) (MappedDV (sd_next st) b c)) (sd_next st).+1).

(* for i < n: _designVariables[i].updateMap(...(i).data());  [DV] 80-83, 92-95, 103-106 *)
Definition update_maps (n : nat) (st : spline_dv) : outcome spline_dv :=
  oloop 0 n (fun i st =>
    do ' (b, c) <- fixedSizeVv st i ;
    need (i < size (sd_dvs st))%N ;
    Ok (SplineDV (sd_spline st) (sd_buf st)
          (modify i (fun d => MappedDV (md_id d) b c) (sd_dvs st)) (sd_next st))) st.

(* [DV] 7-18, [PDV] 9-19: constructor from a spline, which is copied *)
Definition dv_new (s : bspline F) : outcome spline_dv :=
  oloop 0 (bs_ncoef s) (fun i st => push_dv st i) (SplineDV s 0 [::] 0).

(* the spline was changed by a call that replaced the coefficient memory *)
Definition with_spline (st : spline_dv) (s : bspline F) : spline_dv :=
  SplineDV s (sd_buf st).+1 (sd_dvs st) (sd_next st).

(* [DV] 78-83, 90-95, [PDV] 181-186, 192-197: what follows the spline call in
   addSegment / addSegment2 (numVvCoefficients() is at least 1 there) *)
Definition after_add (st : spline_dv) (s' : bspline F) : outcome spline_dv :=
  do st1 <- push_dv (with_spline st s') (bs_ncoef s').-1 ;
  update_maps (bs_ncoef s').-1 st1.

(* [DV] 75-84 addSegment *)
Definition dv_addSegment (st : spline_dv) (t : F) (p : dvec F) (junk : vec F)
  : outcome spline_dv :=
  do s' <- addCurveSegment eps solveQr (sd_spline st) t p junk ; after_add st s'.
(* [DV] 87-95 addSegment2 *)
Definition dv_addSegment2 (st : spline_dv) (t : F) (p : dvec F) (lambda : F) (junk : vec F)
  : outcome spline_dv :=
  do s' <- addCurveSegment2 eps solveLdlt (sd_spline st) t p lambda junk ; after_add st s'.
(* [PDV] 179-187 addSegment, 190-198 addSegment2 *)
Definition pdv_addSegment (R : rotation F) (st : spline_dv) (t : F) (T : mat F) (junk : vec F)
  : outcome spline_dv :=
  do s' <- addPoseSegment R eps solveQr (sd_spline st) t T junk ; after_add st s'.
Definition pdv_addSegment2 (R : rotation F) (st : spline_dv) (t : F) (T : mat F) (lambda : F)
  (junk : vec F) : outcome spline_dv :=
  do s' <- addPoseSegment2 R eps solveLdlt (sd_spline st) t T lambda junk ; after_add st s'.

(* [DV] 98-107, [PDV] 201-209 removeSegment; erase(begin()) of an empty vector is undefined *)
Definition dv_removeSegment (st : spline_dv) : outcome spline_dv :=
  let s' := removeCurveSegment (sd_spline st) in
  need (0 < size (sd_dvs st))%N ;
  update_maps (bs_ncoef s') (SplineDV s' (sd_buf st).+1 (behead (sd_dvs st)) (sd_next st)).

(* one public call that changes the set of design variables *)
Inductive dv_op :=
  | AddSegment of F & dvec F & vec F
  | AddSegment2 of F & dvec F & F & vec F
  | AddPoseSegment of rotation F & F & mat F & vec F
  | AddPoseSegment2 of rotation F & F & mat F & F & vec F
  | RemoveSegment.
Definition dv_step (st : spline_dv) (o : dv_op) : outcome spline_dv :=
  match o with
  | AddSegment t p j => dv_addSegment st t p j
  | AddSegment2 t p l j => dv_addSegment2 st t p l j
  | AddPoseSegment R t T j => pdv_addSegment R st t T j
  | AddPoseSegment2 R t T l j => pdv_addSegment2 R st t T l j
  | RemoveSegment => dv_removeSegment st
  end.
Fixpoint dv_run (st : spline_dv) (os : seq dv_op) : outcome spline_dv :=
  match os with
  | [::] => Ok st
  | o :: os' => do st' <- dv_step st o ; dv_run st' os'
  end.

(* [DV] 39-44 designVariable(i) (aslam::Exception is ExnRuntime here) *)
Definition dv_designVariable (st : spline_dv) (i : nat) : outcome mapped_dv :=
  assert (i < size (sd_dvs st))%N raise ExnRuntime ;
  Ok (nth (MappedDV 0 0 0) (sd_dvs st) i).

(* pointers &_designVariables[i]: the addresses of the heap objects *)
Definition dv_pointers (st : spline_dv) (idx : seq nat) : outcome (seq nat) :=
  omap_seq (fun i => need (i < size (sd_dvs st))%N ;
    Ok (md_id (nth (MappedDV 0 0 0) (sd_dvs st) i))) idx.

(* [DV] 62-72, [PDV] 48-58 getDesignVariables(tk) *)
Definition dv_getDesignVariables (st : spline_dv) (tk : F) : outcome (seq nat) :=
  do idx <- localVvCoefficientVectorIndices eps (sd_spline st) tk ; dv_pointers st idx.

(* Update of a design variable through its pointer: DesignVariableMappedVector<D> adds dp to the mapped numbers (external library).  Following a pointer to a
   deleted object or a map to replaced memory is undefined. *)
Definition dv_update (st : spline_dv) (ptr : nat) (dp : vec F) : outcome spline_dv :=
  let i := find (fun d => md_id d == ptr) (sd_dvs st) in
  need (i < size (sd_dvs st))%N ;
  let d := nth (MappedDV 0 0 0) (sd_dvs st) i in
  need md_buf d == sd_buf st ;
  let s := sd_spline st in
  Ok (SplineDV (with_coef s (set_col (bs_coef s) (md_col d)
                               (fun r => bs_coef s r (md_col d) + dp r)))
        (sd_buf st) (sd_dvs st) (sd_next st)).

(* An expression node: the pointers handed to it, the time, the derivative order.
   [EXH] 6-10, [EX] 7-11 and the other constructors *)
Record node := Node { nd_dvs : seq nat; nd_time : F; nd_order : nat }.

(* [DV] 47-59 toExpression; the node's constructor checks the dimension ([EXH] 9) *)
Definition dv_toExpression (st : spline_dv) (tk : F) (d : nat) : outcome node :=
  do ptrs <- dv_getDesignVariables st tk ;
  assert bs_dim (sd_spline st) == D raise ExnRuntime ;
  Ok (Node ptrs tk d).

(* [EXH] 19-22 evaluateImplementation: the result is stored in a D-vector *)
Definition node_value (st : spline_dv) (nd : node) : outcome (vec F) :=
  do v <- evalD eps (sd_spline st) (nd_time nd) (nd_order nd) ;
  need bs_dim (sd_spline st) == D ;
  Ok v.

(* outJacobians.add(_designVariables[i], J.block<rows,D>(0,i*D)) for every i: a list of
   (pointer, block); [EXH] 31-34, [EX] 28-31, 72-75, 114-117, 157-160, 201-204, 241-243,
   279-282, 427-430, 463-465.  cols is the number of columns of J; a block outside J is
   undefined. *)
Definition add_blocks (cols : nat) (J : mat F) (ptrs : seq nat) : outcome (seq (nat * mat F)) :=
  omap_seq (fun ip => need (ip.1.+1 * D <= cols)%N ; Ok (ip.2, get_block J 0 (ip.1 * D)))
    (zip (iota 0 (size ptrs)) ptrs).

(* [EXH] 26-35 evaluateJacobiansImplementation *)
Definition node_jacobians (st : spline_dv) (nd : node) : outcome (seq (nat * mat F)) :=
  do ' (_v, J, _i) <- evalDAndJacobian eps (sd_spline st) (nd_time nd) (nd_order nd) ;
  add_blocks (bs_order (sd_spline st) * bs_dim (sd_spline st)) J (nd_dvs nd).

(* [EX] 23-32 and the other pose nodes: the same with the Jacobian of a pose quantity *)
Definition pose_node_jacobians A (jac : bspline F -> F -> outcome (A * mat F * seq nat))
  (st : spline_dv) (nd : node) : outcome (seq (nat * mat F)) :=
  do ' (_v, J, _i) <- jac (sd_spline st) (nd_time nd) ;
  add_blocks (jcols (sd_spline st)) J (nd_dvs nd).

(* ---- time offset node, [EX] 297-400 ---- *)
Record to_node := ToNode { to_bmin : F; to_bmax : F; to_idx : seq nat }.

(* [EX] 297-328 constructor; initTime is the value of the time expression *)
Definition to_new (s : bspline F) (initTime bufferTmin bufferTmax : F) : outcome to_node :=
  do tmax <- t_max s ;
  do right <- (if tmax < bufferTmax + initTime
               then Ok (numValidTimeSegments (bs_order s) (size (bs_knots s))).-1
               else segmentIndex eps s (initTime + bufferTmax)) ;
  do tmin <- t_min s ;
  do left <- (if initTime - bufferTmin < tmin then Ok 0%N
              else segmentIndex eps s (initTime - bufferTmin)) ;
  do ' (_a, bmax) <- timeInterval_i s right ;
  do ' (bmin, _b) <- timeInterval_i s left ;
  do ' (l0, l1) <- timeInterval_i s left ;
  do lc <- localVvCoefficientVectorIndices eps s ((l0 + l1) / 2%:R) ;
  do ' (r0, r1) <- timeInterval_i s right ;
  do rc <- localVvCoefficientVectorIndices eps s ((r0 + r1) / 2%:R) ;
  need ((0 < size lc) && (0 < size rc))%N ;
  let l := nth 0%N lc 0 in
  let r := nth 0%N rc (size rc - 1) in
  need (l <= r.+1)%N ;       (* a vector of negative size otherwise *)
  Ok (ToNode bmin bmax (iota l (r.+1 - l))).

(* [EX] 336-340 toTransformationMatrixImplementation *)
Definition to_value (R : rotation F) (s : bspline F) (nd : to_node) (t : F) : outcome (mat F) :=
  assert (to_bmin nd <= t) && (t < to_bmax nd) raise ExnRuntime ;
  transformation R eps s t.

(* [EX] 371-382: one step of the attribution loop; the state is the list of
   (coefficient index, block) handed out so far and the counter j *)
Definition to_attribute (cols : nat) (J : mat F) (minIdx maxIdx : nat)
  (acc : seq (nat * mat F) * nat) (c : nat) : outcome (seq (nat * mat F) * nat) :=
  let: (js, j) := acc in
  if (minIdx <= c)%N && (c <= maxIdx)%N then
    need (j.+1 * 6 <= cols)%N ;
    Ok (rcons js (c, get_block J 0 (j * 6)), j.+1)
  else Ok (rcons js (c, zerom), j).
Fixpoint ofold A S (f : S -> A -> outcome S) (st : S) (s : seq A) : outcome S :=
  match s with [::] => Ok st | x :: s' => do st' <- f st x ; ofold f st' s' end.

(* [EX] 342-389 evaluateJacobiansImplementation: blocks per coefficient (designVariable(c) of
   the design variable object with ndv variables throws when out of range) and the vector
   handed to the time expression *)
Definition to_jacobians (R : rotation F) (s : bspline F) (ndv : nat) (nd : to_node) (t : F)
  : outcome (seq (nat * mat F) * vec F) :=
  assert (to_bmin nd <= t) && (t < to_bmax nd) raise ExnRuntime ;
  do dvidxs <- localVvCoefficientVectorIndices eps s t ;
  do ' (p, JS, _i) <- evalJ6 eps s t 0 ;
  let JT := (curveValueToTransformationAndJacobian R p).2 in
  let J := mulm 6 JT JS in
  need (0 < size dvidxs)%N ;
  let minIdx := nth 0%N dvidxs 0 in
  let maxIdx := nth 0%N dvidxs (size dvidxs - 1) in
  do ' (js, _j) <- ofold (fun acc c =>
      assert (c < ndv)%N raise ExnRuntime ;
      to_attribute (jcols s) J minIdx maxIdx acc c) ([::], 0%N) (to_idx nd) ;
  do Phi_dot_c <- evalD6 eps s t 1 ;
  Ok (js, mulv 6 JT Phi_dot_c).

(* ---- motion error term, [ME] ---- *)
(* wtol: the tolerance 1e-14 of the symmetry check in segmentQuadraticIntegral *)
Variable wtol : F.
Record motion_error := MotionError { me_Q : mat F; me_rows : nat }.

(* [ME] 29-57 initialize; me_rows is _coefficientVectorLength and the number of rows of _Q *)
Definition me_new (s : bspline F) (W : dmat F) (errorTermOrder : nat) : outcome motion_error :=
  let k := bs_order s in
  let d := if (k <= errorTermOrder)%N && (2 <= k)%N then k.-1 else errorTermOrder in
  do Q <- curveQuadraticIntegralSparse wtol s W d ;
  Ok (MotionError Q (bs_dim s * bs_ncoef s)).

(* VectorXd::Map(&coefficients()(0,0), n): the first n numbers of the column-major matrix *)
Definition map_coefficients (s : bspline F) (n : nat) : outcome (vec F) :=
  need (n <= bs_dim s * bs_ncoef s)%N ;
  Ok (fun x => bs_coef s (x %% bs_dim s)%N (x %/ bs_dim s)%N).

(* [ME] 62-77 evaluateErrorImplementation *)
Definition me_error (me : motion_error) (s : bspline F) : outcome F :=
  do c <- map_coefficients s (me_rows me) ;
  let Qc := mulv (me_rows me) (me_Q me) c in
  Ok (fsum (me_rows me) (fun i => c i * Qc i)).

(* [ME] 170-181 rhs *)
Definition me_rhs (me : motion_error) (s : bspline F) : outcome (vec F) :=
  do c <- map_coefficients s (me_rows me) ;
  Ok (mulv (me_rows me) (me_Q me) (fun i => - c i)).

(* [ME] 99-106: c stacked from the coefficient columns *)
Definition me_stack (s : bspline F) : vec F :=
  floop 0 (bs_ncoef s) (fun i (c : vec F) =>
    set_segment c (i * bs_dim s) (bs_dim s) (fun r => bs_coef s r i)) zerov.

(* v.segment(b, n) -= w *)
Definition sub_segment (v : vec F) (b n : nat) (w : vec F) : vec F :=
  fun i => if (b <= i < b + n)%N then v i - w (i - b)%N else v i.

(* [ME] 93-166 buildHessianImplementation.  ndv: number of design variables of the term;
   active i, blk i: isActive() and blockIndex() of design variable i; base b: row (and
   column) base of block b of the Hessian.  The Hessian and _Q are modelled by their dense
   content (a missing block of _Q is zero).  The multiplication needs a vector of as many
   entries as _Q has columns. *)
Definition me_build (me : motion_error) (s : bspline F) (ndv : nat) (active : nat -> bool)
  (blk base : nat -> nat) (H : mat F) (rhs : vec F) : outcome (mat F * vec F) :=
  let D := bs_dim s in
  let c := me_stack s in
  need me_rows me == (bs_dim s * bs_ncoef s)%N ;
  let b_u := mulv (me_rows me) (me_Q me) c in
  Ok (floop 0 ndv (fun i (st : mat F * vec F) =>
    if active i then
      let H' := floop 0 i.+1 (fun j (H : mat F) =>
        if active j then
          add_block H (base (blk j)) (base (blk i)) D D (get_block (me_Q me) (i * D) (j * D))
        else H) st.1 in
      (H', sub_segment st.2 (base (blk i)) D (get_segment b_u (i * D)))
    else st) (H, rhs)).
End DV.
