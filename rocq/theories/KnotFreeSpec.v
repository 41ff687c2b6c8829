(* Histories of calls on a DeltaFreeKnotGenerator. *)
From mathcomp Require Import all_ssreflect all_algebra.
From Verif Require Import Prelude DMModel KnotModel.
Set Implicit Arguments.
Unset Strict Implicit.
Unset Printing Implicit Defensive.
Import GRing.Theory Num.Theory Order.Theory.
Local Open Scope ring_scope.

Section Spec.
Variable T : realDomainType.

(* public calls: addPredefinedKnot, getNextKnot, extendBeyondTime *)
Inductive fop := FAdd of T | FNext | FExtend of T.

(* The knots delivered by a history; a call that throws leaves the generator as it is at that
   moment; None: some call was undefined. *)
Fixpoint free_run (g : free_gen T) (os : seq fop) : option (free_gen T * seq T) :=
  match os with
  | [::] => Some (g, [::])
  | FAdd t :: os' => free_run (df_addPredefinedKnot g t).1 os'
  | FNext :: os' =>
    let: (g1, t) := df_getNextKnot g in
    if free_run g1 os' is Some (g2, ts) then Some (g2, t :: ts) else None
  | FExtend t :: os' =>
    match df_extendBeyondTime g t with
    | MRet g1 _ => free_run g1 os'
    | MThrow g1 _ => free_run g1 os'
    | MUB => None
    end
  end.
End Spec.
Arguments FNext {T}.
