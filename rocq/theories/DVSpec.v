(* Specification vocabulary for design variables of B-splines. *)
From mathcomp Require Import all_ssreflect all_algebra.
From Verif Require Import Prelude BSplineModel PoseModel DVModel.
Set Implicit Arguments.
Unset Strict Implicit.
Unset Printing Implicit Defensive.
Import GRing.Theory Num.Theory.
Local Open Scope ring_scope.

Section Spec.
Variable F : realFieldType.
Implicit Type st : spline_dv F.

(* addresses of the design variables, in order *)
Definition dv_ids st : seq nat := [seq md_id d | d <- sd_dvs st].
(* variable i of st maps column c of the memory that holds the coefficients now *)
Definition maps_col st (i c : nat) : Prop :=
  exists2 d, dv_designVariable st i = Ok d & md_buf d = sd_buf st /\ md_col d = c.

(* as many variables as coefficient columns (of D numbers each), variable i maps column i,
   and they are different objects *)
Definition in_step (D : nat) st : Prop :=
  [/\ bs_dim (sd_spline st) = D, size (sd_dvs st) = bs_ncoef (sd_spline st),
      forall i, (i < bs_ncoef (sd_spline st))%N -> maps_col st i i,
      uniq (dv_ids st) & forall p, p \in dv_ids st -> (p < sd_next st)%N].

(* the change predicted by a list of Jacobian blocks when the variable at address p moves by
   dp: all blocks handed to p add up *)
Definition predicted (D : nat) (js : seq (nat * mat F)) (p : nat) (dp : vec F) : vec F :=
  fun r => fsum (size js) (fun q =>
    ((nth (0%N, zerom) js q).1 == p)%:R * fsum D (fun c => (nth (0%N, zerom) js q).2 r c * dp c)).

(* the change predicted when every variable moves, the one at address p by dp p *)
Definition predicted_all (D : nat) (js : seq (nat * mat F)) (dp : nat -> vec F) : vec F :=
  fun r => fsum (size js) (fun q =>
    fsum D (fun c => (nth (0%N, zerom) js q).2 r c * dp (nth (0%N, zerom) js q).1 c)).

(* the spline call inside a design variable operation *)
Definition spline_call (eps : F) (qr ldlt : nat -> mat F -> vec F -> vec F)
  (s : bspline F) (o : dv_op F) : outcome (bspline F) :=
  match o with
  | AddSegment t p j => addCurveSegment eps qr s t p j
  | AddSegment2 t p l j => addCurveSegment2 eps ldlt s t p l j
  | AddPoseSegment R t T j => addPoseSegment R eps qr s t T j
  | AddPoseSegment2 R t T l j => addPoseSegment2 R eps ldlt s t T l j
  | RemoveSegment => Ok (removeCurveSegment s)
  end.
Definition is_remove (o : dv_op F) : bool := if o is RemoveSegment then true else false.
End Spec.
