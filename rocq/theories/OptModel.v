(* Model of the optimisable manifold spline (OPTBSpline):
   aslam_splines/include/aslam/splines/OPTBSpline.hpp                             [O]
   aslam_splines/include/aslam/splines/implementation/OPTBSplineImpl.hpp          [OI]
   on top of DMModel.v.  Several spline objects live at the same time, because design variable
   pointers and the manifold references inside the segments can refer to another object.
   SM_ASSERT_*_DBG macros are compiled out.  No proofs in this file. *)
From mathcomp Require Import all_ssreflect all_algebra.
From Verif Require Import Prelude DMModel.
Set Implicit Arguments.
Unset Strict Implicit.
Unset Printing Implicit Defensive.
Import GRing.Theory Num.Theory.
Local Open Scope ring_scope.

(* the state after a call that returned *)
Definition mres_out S A (m : mres S A) : outcome S :=
  match m with MRet s _ => Ok s | MThrow _ e => Throw e | MUB => UB end.

Section Opt.
Variables (F : realFieldType) (T : realDomainType).
Variables (dbl : T -> F) (one : T) (mf : manifold F).
(* UpdateTraits::update(manifold, point, dp), bsplines/manifolds/LieGroup.hpp:29-33 *)
Variable mf_update : vec F -> vec F -> vec F.

(* address of a segment, which is also the address of its design variable: the address of the
   std::map and the key of the element (map elements do not move) *)
Definition ptr := (nat * T)%type.

(* A spline object.  op_id: its address; op_map: address of its segment map (_segments);
   op_sp: the state of the base class; for the segment at key t, op_saved t is the member
   _p_v ([O] 62; None: not yet assigned) and op_owner t the address of the spline object whose
   _manifold the member _manifold ([O] 65) refers to; op_dvs: _designVariables ([O] 254). *)
Record opt := Opt {
  op_id : nat; op_map : nat; op_sp : dspline F T;
  op_saved : T -> option (vec F); op_owner : T -> nat; op_dvs : seq ptr }.

Definition op_keys (o : opt) : seq T := [seq sg_knot x | x <- ds_segs (op_sp o)].
(* a base class call changed the spline; segments it inserted were constructed with this
   object's manifold ([O] 72, DiffManifoldBSplineImpl.hpp:71-79) *)
Definition set_sp (o : opt) (s : dspline F T) : opt :=
  Opt (op_id o) (op_map o) s
    (fun t => if t \in op_keys o then op_saved o t else None)
    (fun t => if t \in op_keys o then op_owner o t else op_id o) (op_dvs o).
Definition set_dvs (o : opt) (d : seq ptr) : opt :=
  Opt (op_id o) (op_map o) (op_sp o) (op_saved o) (op_owner o) d.

(* addresses of the segments at positions a .. b-1 *)
Definition seg_ptrs (o : opt) (a b : nat) : seq ptr :=
  [seq (op_map o, knot_at (ds_segs (op_sp o)) i) | i <- iota a (b - a)].
(* for(i = from; i != end; i++) push_back: running past end() is undefined *)
Definition collect_ptrs (o : opt) (from to : nat) : outcome (seq ptr) :=
  need (from <= to)%N ; Ok (seg_ptrs o from to).

(* [OI] 29-35 updateDesignVariablesVector *)
Definition opt_updateDesignVariablesVector (o : opt) : outcome opt :=
  do f <- pos_of (ds_segs (op_sp o)) (ds_first (op_sp o)) ;
  do e <- pos_of (ds_segs (op_sp o)) (ds_end (op_sp o)) ;
  do d <- collect_ptrs o f e ;
  Ok (set_dvs o d).

(* constructor *)
Definition opt_new (id mp k : nat) : opt :=
  Opt id mp (@dm_new F T k) (fun _ => None) (fun _ => id) [::].
(* addKnot, addControlVertex of the base class *)
Definition opt_addKnot (o : opt) (t : T) : opt := set_sp o (dm_addKnot mf (op_sp o) t).
Definition opt_addControlVertex (o : opt) (t : T) (p : vec F) : outcome opt :=
  do s <- mres_out (dm_addControlVertex mf (op_sp o) t p) ; Ok (set_sp o s).
(* [OI] 23-26 init *)
Definition opt_init (o : opt) : outcome opt :=
  do s <- mres_out (dm_init dbl (op_sp o)) ; opt_updateDesignVariablesVector (set_sp o s).
(* initConstantSpline of the base class, DiffManifoldBSplineImpl.hpp:240-250: it calls
   getDerived().init(), that is [OI] 23-26 *)
Definition opt_initConstantSpline (o : opt) (ts : seq T) (sz : nat) (p : vec F) : outcome opt :=
  assert ~~ ds_evaluable (op_sp o) raise ExnSpline ;
  assert (1 <= sz)%N raise ExnSpline ;
  do s <- mres_out (dm_addControlVertices mf (op_sp o) [seq (t, p) | t <- ts]) ;
  opt_init (set_sp o s).
(* initWithKnots and initWithKnotsAndControlVertices of the base class,
   DiffManifoldBSplineImpl.hpp:142-171: they call init() of the base class, which is not
   virtual, so _designVariables is not updated *)
Definition opt_initWithKnots (o : opt) (ts : seq T) : outcome opt :=
  do s <- mres_out (dm_initWithKnots dbl mf (op_sp o) ts) ; Ok (set_sp o s).
Definition opt_initWithKnotsAndControlVertices (o : opt) (ts : seq T) (ps : seq (vec F))
  : outcome opt :=
  do s <- mres_out (dm_initWithKnotsAndControlVertices dbl mf (op_sp o) ts ps) ;
  Ok (set_sp o s).
(* [OI] 209-218 appendSegments: the iterator i keeps pointing to the element that end() was *)
Definition opt_appendSegments (o : opt) (supports : bool) (ts : seq T)
  (value : option (vec F)) : outcome opt :=
  let i := ds_end (op_sp o) in
  do s <- mres_out (dm_appendSegments dbl mf (op_sp o) supports ts value) ;
  let o1 := set_sp o s in
  do a <- pos_of (ds_segs s) i ;
  do e <- pos_of (ds_segs s) (ds_end s) ;
  do d <- collect_ptrs o1 a e ;
  Ok (set_dvs o1 (op_dvs o1 ++ d)).
(* [O] 154-156 copy constructor; the copied segments keep their _p_v and their reference to
   the manifold *)
Definition opt_copy (o : opt) (id mp : nat) : outcome opt :=
  do s <- dm_copy (op_sp o) ;
  let o' := Opt id mp s (op_saved o) (op_owner o) [::] in
  if ds_evaluable s then opt_updateDesignVariablesVector o' else Ok o'.
(* a = b: no operator= is declared in [O], so the implicit one assigns the base class
   (DiffManifoldBSplineImpl.hpp:16-26, the map is copied to a new address mp) and then the
   vector _designVariables *)
Definition opt_assign (a b : opt) (mp : nat) : outcome opt :=
  do s <- dm_copy (op_sp b) ;
  Ok (Opt (op_id a) mp s (op_saved b) (op_owner b) (op_dvs b)).

(* [OI] 38-41 numDesignVariables *)
Definition opt_numDesignVariables (o : opt) : nat := size (op_dvs o).
(* [OI] 43-54 designVariable (aslam::Exception is ExnRuntime here) *)
Definition opt_designVariable (o : opt) (i : nat) : outcome ptr :=
  assert (i < size (op_dvs o))%N raise ExnRuntime ;
  Ok (nth (0%N, 0) (op_dvs o) i).
(* [OI] 196-205 getDesignVariables(tk): a vector of getSplineOrder() pointers (null at first);
   a write past its end is undefined *)
Definition opt_getDesignVariables (o : opt) (t : T) : outcome (seq (option ptr)) :=
  let s := op_sp o in
  do back <- dm_getSegmentIterator s t ;
  do i <- dm_getFirstRelevantSegmentByLast s back ;
  need (back < size (ds_segs s))%N ;
  do d <- collect_ptrs o i back.+1 ;
  need (size d <= ds_order s)%N ;
  Ok (map Some d ++ nseq (ds_order s - size d) None).

(* ---- all objects ---- *)
Record world := World { w_objs : seq opt; w_next : nat }.
Definition w_new : world := World [::] 0.
Definition opt0 : opt := Opt 0 0 (@dm_new F T 0) (fun _ => None) (fun _ => 0%N) [::].
Definition w_pos (w : world) (id : nat) : nat := find (fun o => op_id o == id) (w_objs w).
Definition alive (w : world) (id : nat) : bool := (w_pos w id < size (w_objs w))%N.
(* the object at address id; a call on a destroyed object is undefined *)
Definition w_get (w : world) (id : nat) : outcome opt :=
  need alive w id ; Ok (nth opt0 (w_objs w) (w_pos w id)).
Definition w_set (w : world) (i : nat) (o : opt) : world :=
  World (set_nth opt0 (w_objs w) i o) (w_next w).
Definition w_call (w : world) (id : nat) (f : opt -> outcome opt) : outcome world :=
  do o <- w_get w id ; do o' <- f o ; Ok (w_set w (w_pos w id) o').

(* Following a design variable pointer: the position of the object that holds the map and the
   position of the segment; a pointer into a map that is gone is dangling. *)
Definition w_seg (w : world) (p : ptr) : outcome (nat * nat) :=
  let a := find (fun o => op_map o == p.1) (w_objs w) in
  need (a < size (w_objs w))%N ;
  let m := ds_segs (op_sp (nth opt0 (w_objs w) a)) in
  let i := find (fun x => sg_knot x == p.2) m in
  need (i < size m)%N ;
  Ok (a, i).
(* the control vertex and the saved control vertex of the segment at key t *)
Definition set_vertex (o : opt) (t : T) (i : nat) (saved v : vec F) : opt :=
  Opt (op_id o) (op_map o)
    (with_segs (op_sp o) (seg_upd (ds_segs (op_sp o)) i (fun x => set_pt x v)))
    (fun u => if u == t then Some saved else op_saved o u) (op_owner o) (op_dvs o).

(* [O] 77-84 updateImplementation; dp has getDimension() entries *)
Definition dv_update (w : world) (p : ptr) (dp : vec F) : outcome world :=
  do ' (a, i) <- w_seg w p ;
  let o := nth opt0 (w_objs w) a in
  let x := sg_pt (seg_nth (ds_segs (op_sp o)) i) in
  need alive w (op_owner o p.2) ;
  Ok (w_set w a (set_vertex o p.2 i x (mf_update x dp))).
(* [O] 87 revertUpdateImplementation; reading _p_v before it was assigned is undefined *)
Definition dv_revert (w : world) (p : ptr) : outcome world :=
  do ' (a, i) <- w_seg w p ;
  let o := nth opt0 (w_objs w) a in
  if op_saved o p.2 is Some v then Ok (w_set w a (set_vertex o p.2 i v v)) else UB.
(* [O] 90-92 getParametersImplementation *)
Definition dv_getParameters (w : world) (p : ptr) : outcome (vec F) :=
  do ' (a, i) <- w_seg w p ;
  Ok (sg_pt (seg_nth (ds_segs (op_sp (nth opt0 (w_objs w) a))) i)).
(* [O] 95-98 setParametersImplementation; value has getPointSize() rows and one column *)
Definition dv_setParameters (w : world) (p : ptr) (value : vec F) : outcome world :=
  do ' (a, i) <- w_seg w p ;
  let o := nth opt0 (w_objs w) a in
  let x := sg_pt (seg_nth (ds_segs (op_sp o)) i) in
  Ok (w_set w a (set_vertex o p.2 i x value)).

(* public calls *)
Inductive wop :=
  | WNew of nat                                   (* OPTBSpline s(order) *)
  | WAddKnot of nat & T | WAddVertex of nat & T & vec F
  | WInit of nat
  | WInitConstant of nat & seq T & nat & vec F
  | WInitKnots of nat & seq T
  | WInitKnotsVertices of nat & seq T & seq (vec F)
  | WAppend of nat & seq T & option (vec F)
  | WCopy of nat                                  (* OPTBSpline s(other) *)
  | WAssign of nat & nat                          (* a = b *)
  | WDestroy of nat
  | WUpdate of ptr & vec F | WRevert of ptr | WSet of ptr & vec F.

(* fresh addresses for a new object and its map *)
Definition w_add (w : world) (f : nat -> nat -> outcome opt) : outcome world :=
  do o <- f (w_next w) (w_next w).+1 ; Ok (World (rcons (w_objs w) o) (w_next w).+2).

Definition w_step (w : world) (c : wop) : outcome world :=
  match c with
  | WNew k => w_add w (fun id mp => Ok (opt_new id mp k))
  | WAddKnot a t => w_call w a (fun o => Ok (opt_addKnot o t))
  | WAddVertex a t p => w_call w a (fun o => opt_addControlVertex o t p)
  | WInit a => w_call w a opt_init
  | WInitConstant a ts sz p => w_call w a (fun o => opt_initConstantSpline o ts sz p)
  | WInitKnots a ts => w_call w a (fun o => opt_initWithKnots o ts)
  | WInitKnotsVertices a ts ps => w_call w a (fun o => opt_initWithKnotsAndControlVertices o ts ps)
  | WAppend a ts v => w_call w a (fun o => opt_appendSegments o true ts v)
  | WCopy b => do o <- w_get w b ; w_add w (fun id mp => opt_copy o id mp)
  | WAssign a b =>
    do ob <- w_get w b ;
    do w' <- w_call w a (fun oa => opt_assign oa ob (w_next w)) ;
    Ok (World (w_objs w') (w_next w).+1)
  | WDestroy a => need alive w a ;
    Ok (World (filter (fun o => op_id o != a) (w_objs w)) (w_next w))
  | WUpdate p dp => dv_update w p dp
  | WRevert p => dv_revert w p
  | WSet p v => dv_setParameters w p v
  end.
Fixpoint w_run (w : world) (cs : seq wop) : outcome world :=
  if cs is c :: cs' then do w' <- w_step w c ; w_run w' cs' else Ok w.

(* ---- expressions, [OI] 143-193 ---- *)
(* evalD and evalJacobian of the evaluator (Euclidean: DMModel.eu_evalD, eu_evalJacobian) *)
Variable evD : dspline F T -> evaluator F T -> nat -> outcome (vec F).
Variable evJ : dspline F T -> evaluator F T -> nat -> outcome (mat F).
(* getPointSize() and getDimension() *)
Variables psize dim : nat.

(* [OI] 113-121 addJacImpl: chain is the matrix applyChainRule with its number of rows *)
Definition add_jac (chain : option (nat * mat F)) (p : ptr) (B : mat F) : ptr * mat F :=
  (p, if chain is Some (_, C) then mulm psize C B else B).
(* [OI] 156-166: Jacobian blocks of the segments eval.begin() .. eval.end(); a block outside J
   is undefined *)
Definition opt_blocks (o : opt) (ev : evaluator F T) (d : nat) (chain : option (nat * mat F))
  : outcome (seq (ptr * mat F)) :=
  do J <- evJ (op_sp o) ev d ;
  do ps <- collect_ptrs o (ev_first ev) (ev_end ev) ;
  need (size ps * dim <= dim * ds_order (op_sp o))%N ;
  Ok [seq add_jac chain qp.2 (get_block J 0 (qp.1 * dim)) | qp <- zip (iota 0 (size ps)) ps].

(* [O] 195-210 ConstTimeFactoryData: the evaluator is built with the factory *)
Definition const_factory (o : opt) (t : T) : outcome (evaluator F T) := dm_evaluator dbl (op_sp o) t.
(* [OI] 179-181 evaluateImplementation *)
Definition const_value (o : opt) (ev : evaluator F T) (d : nat) : outcome (vec F) :=
  evD (op_sp o) ev d.
(* [OI] 183-189 evaluateJacobiansImplementation *)
Definition const_jacobians := opt_blocks.
(* [O] 201 getDesignVariables: a set, listed in segment order *)
Definition const_dvs (o : opt) (ev : evaluator F T) : outcome (seq ptr) :=
  collect_ptrs o (ev_first ev) (ev_end ev).

(* [O] 213-241 TimeExpressionFactoryData: bounds and the cached evaluator *evalPtr *)
Record te_data := TeData { te_lo : T; te_hi : T; te_cache : option (evaluator F T) }.
(* [O] 216-220 constructor *)
Definition te_new (o : opt) (lo hi : T) : outcome te_data :=
  assert lo < hi raise ExnSpline ;
  do tmin <- dm_getMinTime (op_sp o) ;
  assert tmin <= lo raise ExnSpline ;
  do tmax <- dm_getMaxTime (op_sp o) ;
  assert hi <= tmax raise ExnSpline ;
  Ok (TeData lo hi None).
(* [OI] 71-87 getEvaluator; t is the value of the time expression.  The cached evaluator is
   kept when its getKnot(), the knot at the begin of its segment (DiffManifoldBSpline.hpp:364),
   equals t. *)
Definition te_getEvaluator (o : opt) (te : te_data) (t : T)
  : outcome (te_data * evaluator F T) :=
  assert te_lo te <= t raise ExnRuntime ;
  assert t <= te_hi te raise ExnRuntime ;
  let renew := do ev <- dm_evaluator dbl (op_sp o) t ; Ok (TeData (te_lo te) (te_hi te) (Some ev), ev) in
  if te_cache te is Some ev then
    need (ev_ti ev < size (ds_segs (op_sp o)))%N ;
    if knot_at (ds_segs (op_sp o)) (ev_ti ev) == t then Ok (te, ev) else renew
  else renew.
(* [O] 228-229 begin() and end() as positions *)
Definition te_begin (o : opt) (te : te_data) : outcome nat :=
  do tmin <- dm_getMinTime (op_sp o) ;
  do i <- dm_getSegmentIterator (op_sp o) (Num.max tmin (te_lo te)) ;
  dm_getFirstRelevantSegmentByLast (op_sp o) i.
Definition te_end (o : opt) (te : te_data) : outcome nat :=
  let m := ds_segs (op_sp o) in
  do tmax <- dm_getMaxTime (op_sp o) ;
  do i <- dm_getSegmentIterator (op_sp o) (Num.min tmax (te_hi te)) ;
  do e <- pos_of m (ds_end (op_sp o)) ;
  if i == e then Ok i else need (i < size m)%N ; Ok i.+1.
(* [OI] 90-94 getDesignVariables, without those of the time expression *)
Definition te_dvs (o : opt) (te : te_data) : outcome (seq ptr) :=
  do b <- te_begin o te ; do e <- te_end o te ; collect_ptrs o b e.
(* [OI] 179-181 *)
Definition te_value (o : opt) (te : te_data) (t : T) (d : nat) : outcome (te_data * vec F) :=
  do ' (te', ev) <- te_getEvaluator o te t ;
  do v <- evD (op_sp o) ev d ;
  Ok (te', v).
(* [OI] 154-177: the blocks of the segments, zero blocks for all registered segments
   ([OI] 96-103), and the column handed to the time expression *)
Definition te_jacobians (o : opt) (te : te_data) (t : T) (d : nat) (chain : option (nat * mat F))
  : outcome (te_data * seq (ptr * mat F) * vec F) :=
  do ' (te', ev) <- te_getEvaluator o te t ;
  do js <- opt_blocks o ev d chain ;
  do ps <- te_dvs o te' ;
  do v <- evD (op_sp o) ev d.+1 ;
  Ok (te', js ++ [seq (p, zerom) | p <- ps],
      if chain is Some (_, C) then mulv psize C v else v).
End Opt.

(* UpdateTraits::update for Euclidean space: mult(expAtId(dp), p) = dp + p and no projection,
   bsplines/manifolds/implementation/EuclideanSpaceImpl.hpp:20-23, 55-58 *)
Definition eu_update (F : realFieldType) (p dp : vec F) : vec F := fun r => dp r + p r.
