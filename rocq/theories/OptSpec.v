(* Specification vocabulary for optimisable manifold splines. *)
From mathcomp Require Import all_ssreflect all_algebra.
From Verif Require Import Prelude DMModel OptModel.
Set Implicit Arguments.
Unset Strict Implicit.
Unset Printing Implicit Defensive.
Import GRing.Theory Num.Theory.
Local Open Scope ring_scope.

Section Spec.
Variables (F : realFieldType) (T : realDomainType).
Variables (dbl : T -> F) (mf : manifold F) (mf_update : vec F -> vec F -> vec F).
Notation world := (world F T).
Notation opt := (opt F T).
Notation ptr := (ptr T).
Notation wop := (wop F T).
Notation obj w a := (nth (opt0 F T) (w_objs w) a).

(* ---- one design variable seen by the optimiser ---- *)
(* calls on design variables, the variable and what the call does to it *)
Inductive dv_call := CUpdate of vec F | CSet of vec F | CRevert.
Definition on_var (c : wop) : option (ptr * dv_call) :=
  match c with
  | WUpdate p dp => Some (p, CUpdate dp) | WSet p v => Some (p, CSet v)
  | WRevert p => Some (p, CRevert) | _ => None
  end.
(* the calls made on variable p, in order *)
Fixpoint calls_of (p : ptr) (cs : seq wop) : seq dv_call :=
  if cs is c :: cs' then
    if on_var c is Some (q, d) then if q == p then d :: calls_of p cs' else calls_of p cs'
    else calls_of p cs'
  else [::].
(* the optimiser's protocol: every revert directly follows (among the calls on the same
   variable) an update or set, which is then undone *)
Fixpoint protocol (ds : seq dv_call) : bool :=
  match ds with
  | [::] => true
  | CRevert :: _ => false
  | _ :: CRevert :: ds' => protocol ds'
  | _ :: ds' => protocol ds'
  end.
(* the value after the calls: undone calls do not count *)
Fixpoint net (x : vec F) (ds : seq dv_call) : vec F :=
  match ds with
  | [::] => x
  | _ :: CRevert :: ds' => net x ds'
  | CUpdate dp :: ds' => net (mf_update x dp) ds'
  | CSet v :: ds' => net v ds'
  | CRevert :: ds' => net x ds'
  end.
(* a pointer that can be followed, with a manifold that is still there *)
Definition usable (w : world) (p : ptr) : Prop :=
  exists a i, w_seg w p = Ok (a, i) /\ alive w (op_owner (obj w a) p.2).

(* ---- histories ---- *)
(* Calls that keep the variables of a spline its own control vertices: no addition of single
   knots to an initialised spline, appended knots are increasing and lie behind the last
   knot, no initWithKnots, initWithKnotsAndControlVertices and no assignment. *)
Definition plain (w : world) (c : wop) : bool :=
  let o a := obj w (w_pos w a) in
  match c with
  | WNew k => (0 < k)%N
  | WAddKnot a _ | WAddVertex a _ _ => ~~ ds_evaluable (op_sp (o a))
  | WAppend a ts _ => sorted <%R (op_keys (o a) ++ ts)
  | WInitKnots _ _ | WInitKnotsVertices _ _ _ | WAssign _ _ => false
  | _ => true
  end.
(* worlds reached by such calls that all return *)
Inductive reached : world -> Prop :=
  | reached_new : reached (w_new F T)
  | reached_step w c w' : reached w -> plain w c -> w_step dbl mf mf_update w c = Ok w' ->
      reached w'.

(* the design variables of the object at position a are its own control vertices in order,
   one for each *)
Definition own_variables (w : world) (a : nat) : Prop :=
  let o := obj w a in
  [/\ dm_getNumControlVertices (op_sp o) = Ok (opt_numDesignVariables o),
      (opt_numDesignVariables o <= size (ds_segs (op_sp o)))%N,
      uniq (op_dvs o) &
      forall i, (i < opt_numDesignVariables o)%N -> exists p,
        opt_designVariable o i = Ok p /\ w_seg w p = Ok (a, i)].

(* the change of the value predicted by the Jacobian blocks when the variable at p moves by
   dp: all blocks handed to p add up *)
Definition opredicted (D : nat) (js : seq (ptr * mat F)) (p : ptr) (dp : vec F) : vec F :=
  fun r => fsum (size js) (fun q =>
    ((nth ((0%N, 0), zerom) js q).1 == p)%:R *
    fsum D (fun c => (nth ((0%N, 0), zerom) js q).2 r c * dp c)).
End Spec.

(* ---- expressions whose time is an expression ---- *)
Section TeSpec.
Variables (F : realFieldType) (T : realDomainType) (dbl : T -> F).
(* states of the cached evaluator that earlier evaluations can leave behind *)
Definition te_fits (o : opt F T) (te : te_data F T) : Prop :=
  (exists lo hi, [/\ dm_getMinTime (op_sp o) = Ok lo, dm_getMaxTime (op_sp o) = Ok hi,
     lo <= te_lo te, te_lo te < te_hi te & te_hi te <= hi]) /\
  (te_cache te = None \/ exists t0 ev, [/\ te_cache te = Some ev, te_lo te <= t0 <= te_hi te &
     dm_evaluator dbl (op_sp o) t0 = Ok ev]).
End TeSpec.

(* a list of plain calls, and histories in which no object is destroyed *)
Section Runs.
Variables (F : realFieldType) (T : realDomainType).
Variables (dbl : T -> F) (mf : manifold F) (mf_update : vec F -> vec F -> vec F).
Fixpoint plain_run (w : world F T) (cs : seq (wop F T)) : bool :=
  if cs is c :: cs' then
    plain w c && (if w_step dbl mf mf_update w c is Ok w' then plain_run w' cs' else false)
  else true.
Inductive reached_alive : world F T -> Prop :=
  | alive_new : reached_alive (w_new F T)
  | alive_step w c w' : reached_alive w -> plain w c -> (if c is WDestroy _ then false else true) ->
      w_step dbl mf mf_update w c = Ok w' -> reached_alive w'.
End Runs.
