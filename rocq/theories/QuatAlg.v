(* Quaternions form a ring and a module; conjugation, norm, componentwise maps. *)
From mathcomp Require Import all_ssreflect all_algebra.
From mathcomp.algebra_tactics Require Import ring.
From Verif Require Import Prelude DMModel QuatModel.
Set Implicit Arguments.
Unset Strict Implicit.
Unset Printing Implicit Defensive.
Import GRing.Theory.
Local Open Scope ring_scope.

Section Ring.
Variable R : comRingType.
Definition tup_of (q : quat R) := (qx q, qy q, qz q, qw q).
Definition of_tup (p : R * R * R * R) := let: (a, b, c, d) := p in Quat a b c d.
Lemma tup_ofK : cancel tup_of of_tup. Proof. by case. Qed.
Definition quat_eqMixin := CanEqMixin tup_ofK.
Canonical quat_eqType := Eval hnf in EqType (quat R) quat_eqMixin.
Definition quat_choiceMixin := CanChoiceMixin tup_ofK.
Canonical quat_choiceType := Eval hnf in ChoiceType (quat R) quat_choiceMixin.

Definition qopp (q : quat R) := Quat (- qx q) (- qy q) (- qz q) (- qw q).
Lemma qaddA : associative (@qadd R).
Proof. by move=> [? ? ? ?] [? ? ? ?] [? ? ? ?]; rewrite /qadd /= !addrA. Qed.
Lemma qaddC : commutative (@qadd R).
Proof. by move=> [? ? ? ?] [? ? ? ?]; rewrite /qadd /=; congr Quat; apply: addrC. Qed.
Lemma qadd0 : left_id (@qzero R) (@qadd R).
Proof. by move=> [? ? ? ?]; rewrite /qadd /= !add0r. Qed.
Lemma qaddN : left_inverse (@qzero R) qopp (@qadd R).
Proof. by move=> [? ? ? ?]; rewrite /qadd /= !addNr. Qed.
Definition quat_zmodMixin := ZmodMixin qaddA qaddC qadd0 qaddN.
Canonical quat_zmodType := Eval hnf in ZmodType (quat R) quat_zmodMixin.

Ltac quat_ring := rewrite /qplus /qmk /qadd /= /dot3 /=; congr Quat; ring.
Lemma qplusA : associative (@qplus R).
Proof. by move=> [? ? ? ?] [? ? ? ?] [? ? ? ?]; quat_ring. Qed.
Lemma qplus1 : left_id (quatIdentity R) (@qplus R).
Proof. by move=> [? ? ? ?]; quat_ring. Qed.
Lemma qplus1r : right_id (quatIdentity R) (@qplus R).
Proof. by move=> [? ? ? ?]; quat_ring. Qed.
Lemma qplusDl : left_distributive (@qplus R) (@qadd R).
Proof. by move=> [? ? ? ?] [? ? ? ?] [? ? ? ?]; quat_ring. Qed.
Lemma qplusDr : right_distributive (@qplus R) (@qadd R).
Proof. by move=> [? ? ? ?] [? ? ? ?] [? ? ? ?]; quat_ring. Qed.
Lemma qone_neq0 : quatIdentity R != qzero R.
Proof. by apply/eqP => -[/eqP]; rewrite oner_eq0. Qed.
Definition quat_ringMixin := RingMixin qplusA qplus1 qplus1r qplusDl qplusDr qone_neq0.
Canonical quat_ringType := Eval hnf in RingType (quat R) quat_ringMixin.

Lemma qscaleA a b (q : quat R) : qscale a (qscale b q) = qscale (a * b) q.
Proof. by rewrite /qscale /= !mulrA. Qed.
Lemma qscale1 : left_id 1 (@qscale R).
Proof. by move=> [? ? ? ?]; rewrite /qscale /= !mul1r. Qed.
Lemma qscaleDr : right_distributive (@qscale R) +%R.
Proof. by move=> a [? ? ? ?] [? ? ? ?]; rewrite /qscale /= !mulrDr. Qed.
Lemma qscaleDl q : {morph (@qscale R)^~ q : a b / a + b}.
Proof. by move=> a b; case: q => ? ? ? ?; rewrite /qscale /= !mulrDl. Qed.
Definition quat_lmodMixin := LmodMixin qscaleA qscale1 qscaleDr qscaleDl.
Canonical quat_lmodType := Eval hnf in LmodType R (quat R) quat_lmodMixin.

Lemma qscaleAl a (p q : quat R) : a *: (p * q) = (a *: p) * q.
Proof. case: p => ? ? ? ?; case: q => ? ? ? ?; rewrite /GRing.scale /= /GRing.mul /= /qscale; quat_ring. Qed.
Canonical quat_lalgType := Eval hnf in LalgType R (quat R) qscaleAl.
Lemma qscaleAr a (p q : quat R) : a *: (p * q) = p * (a *: q).
Proof. case: p => ? ? ? ?; case: q => ? ? ? ?; rewrite /GRing.scale /= /GRing.mul /= /qscale; quat_ring. Qed.
Canonical quat_algType := Eval hnf in AlgType R (quat R) qscaleAr.

(* model operations are the ring operations *)
Lemma qplusE (p q : quat R) : qplus p q = p * q. Proof. by []. Qed.
Lemma qaddE (p q : quat R) : qadd p q = p + q. Proof. by []. Qed.
Lemma qscaleE a (p : quat R) : qscale a p = a *: p. Proof. by []. Qed.
Lemma qoneE : quatIdentity R = 1. Proof. by []. Qed.
Lemma qzeroE : qzero R = 0. Proof. by []. Qed.

Lemma quatInv_mul (p q : quat R) : quatInv (p * q) = quatInv q * quatInv p.
Proof. case: p => ? ? ? ?; case: q => ? ? ? ?; rewrite -!qplusE /quatInv; quat_ring. Qed.
Lemma quatInvK : involutive (@quatInv R).
Proof. by move=> [? ? ? ?]; rewrite /quatInv /= !opprK. Qed.
Lemma qscalar (a : R) : Quat 0 0 0 a = a *: 1.
Proof. by rewrite /GRing.scale /= /qscale /= !mulr0 mulr1. Qed.
Lemma qmul_inv (q : quat R) : q * quatInv q = qnorm2 q *: 1.
Proof. rewrite -qscalar; case: q => ? ? ? ?; rewrite -!qplusE /qnorm2 /quatInv; quat_ring. Qed.
Lemma qinv_mul (q : quat R) : quatInv q * q = qnorm2 q *: 1.
Proof. rewrite -qscalar; case: q => ? ? ? ?; rewrite -!qplusE /qnorm2 /quatInv; quat_ring. Qed.
Lemma qnorm2M (p q : quat R) : qnorm2 (p * q) = qnorm2 p * qnorm2 q.
Proof. by case: p => ? ? ? ?; case: q => ? ? ? ?; rewrite -!qplusE /qnorm2 /qplus /qmk /= /dot3 /=; ring. Qed.
Lemma qnorm2_1 : qnorm2 (1 : quat R) = 1.
Proof. by rewrite /qnorm2 /= !expr0n /= expr1n !add0r. Qed.
Lemma quat_ofK (q : quat R) : quat_of (vec_of q) = q. Proof. by case: q. Qed.
Lemma v3_ofK (v : v3 R) : v3_of (vec_of3 v) = v. Proof. by case: v. Qed.
End Ring.

(* componentwise application *)
Section Map.
Variables (A B : comRingType).
Definition qmap (f : A -> B) (q : quat A) : quat B := Quat (f (qx q)) (f (qy q)) (f (qz q)) (f (qw q)).
Lemma qmapD (f : {additive A -> B}) p q : qmap f (p + q) = qmap f p + qmap f q.
Proof. by rewrite -!qaddE /qmap /qadd /= !raddfD. Qed.
Lemma qmapM (f : {rmorphism A -> B}) p q : qmap f (p * q) = qmap f p * qmap f q.
Proof.
case: p => ? ? ? ?; case: q => ? ? ? ?; rewrite -!qplusE /qmap /qplus /qmk /= /dot3 /=.
by rewrite !(rmorphD, rmorphN, rmorphM).
Qed.
Lemma qmapZ (f : {rmorphism A -> B}) a q : qmap f (a *: q) = f a *: qmap f q.
Proof. by rewrite -!qscaleE /qmap /qscale /= !rmorphM. Qed.
Lemma qmap0 (f : {additive A -> B}) : qmap f 0 = 0.
Proof. by rewrite /qmap /= !raddf0. Qed.
Lemma qmap1 (f : {rmorphism A -> B}) : qmap f 1 = 1.
Proof. by rewrite /qmap /= !rmorph0 rmorph1. Qed.
Lemma qmapMn (f : {additive A -> B}) q n : qmap f (q *+ n) = qmap f q *+ n.
Proof. by elim: n => [|n IH]; rewrite ?qmap0 // !mulrS qmapD IH. Qed.
Lemma qmap_sum (f : {additive A -> B}) n (g : 'I_n -> quat A) :
  qmap f (\sum_(i < n) g i) = \sum_(i < n) qmap f (g i).
Proof. exact: (big_morph _ (qmapD f) (qmap0 f)). Qed.
End Map.
