(* First order perturbations of quaternion splines: dual numbers a + e a' with e^2 = 0, the
   differentials of exp and log, the curve with perturbed control vertices. *)
From mathcomp Require Import all_ssreflect all_algebra.
From mathcomp.algebra_tactics Require Import ring.
From Verif Require Import Prelude DMModel DMSpec QuatModel QuatAlg QuatSpec QuatJacobianModel.
Set Implicit Arguments.
Unset Strict Implicit.
Unset Printing Implicit Defensive.
Import GRing.Theory.
Local Open Scope ring_scope.

Section Dual.
Variable F : comRingType.
(* re + e du *)
Record dual := Dual { re : F; du : F }.
Definition dpair (a : dual) := (re a, du a).
Definition of_dpair (p : F * F) := Dual p.1 p.2.
Lemma dpairK : cancel dpair of_dpair. Proof. by case. Qed.
Definition dual_eqMixin := CanEqMixin dpairK.
Canonical dual_eqType := Eval hnf in EqType dual dual_eqMixin.
Definition dual_choiceMixin := CanChoiceMixin dpairK.
Canonical dual_choiceType := Eval hnf in ChoiceType dual dual_choiceMixin.

Definition dualadd a b := Dual (re a + re b) (du a + du b).
Definition dualopp a := Dual (- re a) (- du a).
Definition dualmul a b := Dual (re a * re b) (re a * du b + du a * re b).
Lemma dualaddA : associative dualadd. Proof. by move=> a b c; congr Dual; apply: addrA. Qed.
Lemma dualaddC : commutative dualadd. Proof. by move=> a b; congr Dual; apply: addrC. Qed.
Lemma dualadd0 : left_id (Dual 0 0) dualadd. Proof. by case=> a b; congr Dual; apply: add0r. Qed.
Lemma dualaddN : left_inverse (Dual 0 0) dualopp dualadd.
Proof. by move=> a; congr Dual; apply: addNr. Qed.
Definition dual_zmodMixin := ZmodMixin dualaddA dualaddC dualadd0 dualaddN.
Canonical dual_zmodType := Eval hnf in ZmodType dual dual_zmodMixin.
Lemma dualmulA : associative dualmul. Proof. by move=> a b c; congr Dual => /=; ring. Qed.
Lemma dualmulC : commutative dualmul. Proof. by move=> a b; congr Dual => /=; ring. Qed.
Lemma dualmul1 : left_id (Dual 1 0) dualmul. Proof. by case=> a b; congr Dual => /=; ring. Qed.
Lemma dualmulD : left_distributive dualmul dualadd.
Proof. by move=> a b c; congr Dual => /=; ring. Qed.
Lemma dualone_neq0 : Dual 1 0 != 0 :> dual.
Proof. by apply/eqP; case => /eqP; rewrite oner_eq0. Qed.
Definition dual_ringMixin := ComRingMixin dualmulA dualmulC dualmul1 dualmulD dualone_neq0.
Canonical dual_ringType := Eval hnf in RingType dual dual_ringMixin.
Canonical dual_comRingType := Eval hnf in ComRingType dual dualmulC.

(* the number a, the quaternion q + e t, the parts of a quaternion and of a vector *)
Definition lift (a : F) : dual := Dual a 0.
Definition qdual (q t : quat F) : quat dual_comRingType :=
  Quat (Dual (qx q) (qx t)) (Dual (qy q) (qy t)) (Dual (qz q) (qz t)) (Dual (qw q) (qw t)).
Definition v3dual (v t : v3 F) : v3 dual_comRingType :=
  V3 (Dual (vx v) (vx t)) (Dual (vy v) (vy t)) (Dual (vz v) (vz t)).
Definition v3map (A B : comRingType) (f : A -> B) (v : v3 A) : v3 B :=
  V3 (f (vx v)) (f (vy v)) (f (vz v)).
End Dual.

(* An element of a ring A with a derivation D, evaluated by ev to its value and the value of its
   derivative *)
Definition dual_of (A F : comRingType) (D : A -> A) (ev : A -> F) (a : A) : dual F :=
  Dual (ev a) (ev (D a)).

Section Curve.
Variables (F : realFieldType) (T : realDomainType) (dbl : T -> F) (one : T).
Variables (expq : v3 F -> quat F) (logq : quat F -> v3 F).
(* the differentials of exp and log: exp(v + e w) = exp(e S(v) w) exp(v) and
   log(exp(e w) q) = log q + e L(log q) w, where exp(e w) = 1 + e V w, V w = w/2 *)
Variables (S L : v3 F -> m3 F).
Definition dmulV (v : v3 (dual_comRingType F)) : quat (dual_comRingType F) := qmk (v3scale (lift (1 / 2%:R)) v) 0.
Definition dexp (v : v3 (dual_comRingType F)) : quat (dual_comRingType F) :=
  let r := expq (v3map (@re F) v) in
  qdual r (mulV (m3app (S (v3map (@re F) v)) (v3map (@du F) v)) * r).
Definition dlog (q : quat (dual_comRingType F)) : v3 (dual_comRingType F) :=
  let p := logq (qmap (@re F) q) in
  v3dual p (m3app (L p) (v3scale 2%:R (qeps (qmap (@du F) q * quatInv (qmap (@re F) q))))).

(* the control vertices of segment i moved by exp(e delta_j) from the left, and all derivatives
   of the curve at time t *)
Variable delta : nat -> v3 F.
Definition dual_pt (k : nat) (kps : seq (T * vec F)) (i j : nat) : quat (dual_comRingType F) :=
  let p := quat_pt k kps i j in qdual p (mulV (delta j) * p).
Definition dual_phi k kps i j : v3 (dual_comRingType F) :=
  dlog (quatInv (dual_pt k kps i j.-1) * dual_pt k kps i j).
Definition dual_jet k kps t i : jet (dual_comRingType F) :=
  jcurve (dual_pt k kps i 0)
    (fun j => rot_jet (fun n => lift (cum_weight dbl one k kps t i n j)) (dmulV (dual_phi k kps i j))
                (dexp (v3scale (lift (cum_weight dbl one k kps t i 0 j)) (dual_phi k kps i j))))
    (k - 1).
End Curve.

(* product of a matrix with 3k columns (Jacobian blocks of k control vertices) and the vector of
   the k perturbations *)
Definition jac_apply (F : realFieldType) (k : nat) (M : mat F) (delta : nat -> v3 F) : vec F :=
  fun r => \sum_(c < 3 * k) M r c * vec_of3 (delta (c %/ 3)%N) (c %% 3)%N.
