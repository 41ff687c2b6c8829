(* The operations of the manifold of unit quaternions. *)
From mathcomp Require Import all_ssreflect all_algebra.
From mathcomp.algebra_tactics Require Import ring.
From Verif Require Import Prelude DMModel DMSpec QuatModel QuatAlg QuatSpec.
Set Implicit Arguments.
Unset Strict Implicit.
Unset Printing Implicit Defensive.
Import GRing.Theory Num.Theory Order.Theory.
Local Open Scope ring_scope.

Section Manifold.
Variable F : realFieldType.
Variables (expq : v3 F -> quat F) (logq : quat F -> v3 F) (norm : quat F -> F).

Lemma qnorm2Z a (q : quat F) : qnorm2 (qscale a q) = a ^+ 2 * qnorm2 q.
Proof. rewrite /qnorm2 /=; ring. Qed.

Lemma qnorm2_eq0 (q : quat F) : (qnorm2 q == 0) = (q == 0).
Proof.
apply/idP/eqP => [|->]; last by rewrite /qnorm2 /= !expr0n /= !addr0.
case: q => x y z w; rewrite /qnorm2 /=.
rewrite !paddr_eq0 ?addr_ge0 ?sqr_ge0 // !sqrf_eq0.
by move=> /andP[/andP[/andP[/eqP-> /eqP->] /eqP->] /eqP->].
Qed.

Lemma project_unit (q : quat F) : q != 0 -> norm q ^+ 2 = qnorm2 q ->
  qnorm2 (uq_project norm q) = 1.
Proof.
move=> q0 e; rewrite /uq_project qnorm2Z -e exprVn mulVf //.
by rewrite e qnorm2_eq0.
Qed.

Lemma project_direction (q : quat F) : q != 0 -> 0 <= norm q -> norm q ^+ 2 = qnorm2 q ->
  exists2 a, 0 < a & q = qscale a (uq_project norm q).
Proof.
move=> q0 n0 e; have nz : norm q != 0 by rewrite -sqrf_eq0 e qnorm2_eq0.
exists (norm q); first by rewrite lt_def nz.
by rewrite /uq_project qscaleA divff // qscale1.
Qed.

Lemma project_id (q : quat F) : norm q = 1 -> uq_project norm q = q.
Proof. by rewrite /uq_project => ->; rewrite invr1 qscale1. Qed.

Hypothesis norm1 : forall q, qnorm2 q = 1 -> norm q = 1.

Lemma project_in ieps (q : quat F) : ieps != 0 -> q != 0 -> norm q ^+ 2 = qnorm2 q ->
  uq_isIn norm ieps (uq_project norm q) /\
  uq_project norm (uq_project norm q) = uq_project norm q.
Proof.
move=> i0 q0 e; have u := norm1 (project_unit q0 e); split; last exact: project_id.
by rewrite /uq_isIn u subrr normr0 normr_gt0.
Qed.

Lemma updateE p v : qnorm2 p = 1 -> qnorm2 (expq v) = 1 ->
  uq_update expq norm p v = qplus (expq v) p /\ qnorm2 (uq_update expq norm p v) = 1.
Proof.
move=> u e; have h : qnorm2 (qplus (expq v) p) = 1 by rewrite qplusE qnorm2M u e mulr1.
by rewrite /uq_update project_id // norm1.
Qed.

Lemma difference_update p v : qnorm2 p = 1 -> qnorm2 (expq v) = 1 -> logq (expq v) = v ->
  uq_minimalDifference logq p (uq_update expq norm p v) = v.
Proof.
move=> u e l; have [-> _] := updateE u e.
by rewrite /uq_minimalDifference !qplusE -mulrA qmul_inv u scale1r mulr1.
Qed.

Lemma update_difference p q : qnorm2 p = 1 -> qnorm2 q = 1 ->
  expq (logq (qplus q (quatInv p))) = qplus q (quatInv p) ->
  uq_update expq norm p (uq_minimalDifference logq p q) = q.
Proof.
move=> u w e; rewrite /uq_update /uq_minimalDifference e !qplusE -mulrA qinv_mul u scale1r mulr1.
by rewrite project_id // norm1.
Qed.

Lemma log_exp p v : qnorm2 p = 1 -> logq (expq v) = v ->
  uq_log logq p (uq_exp expq p v) = v.
Proof. by move=> u l; rewrite /uq_log /uq_exp !qplusE mulrA qinv_mul u scale1r mul1r. Qed.

Lemma exp_log p q : qnorm2 p = 1 -> expq (logq (qplus (quatInv p) q)) = qplus (quatInv p) q ->
  uq_exp expq p (uq_log logq p q) = q.
Proof. by move=> u e; rewrite /uq_log /uq_exp e !qplusE mulrA qmul_inv u scale1r mul1r. Qed.
End Manifold.
