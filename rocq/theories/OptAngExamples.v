(* A concrete optimisable unit quaternion spline for the examples. *)
From mathcomp Require Import all_ssreflect all_algebra.
From mathcomp.zify Require Import zify.
From Verif Require Import Prelude DMModel DMSpec QuatModel QuatSpec OptModel OptSpec OptProofs
  OptWorldProofs OptAngModel OptAngSpec Examples PropsQuat.
Set Implicit Arguments.
Unset Strict Implicit.
Unset Printing Implicit Defensive.
Import GRing.Theory Num.Theory Order.Theory.
Local Open Scope ring_scope.

Notation aT := rat_realDomainType.
Definition ad : Q -> Q := fun x => x.
Definition a_update (p dp : vec Q) : vec Q :=
  vec_of (uq_update cayley ex_norm (quat_of p) (v3_of dp)).
Notation arun := (w_run (T := aT) ad qmf a_update).
(* order 3, knots 0 .. 5; the second vertex is updated *)
Definition a_ops : seq (wop Q aT) :=
  [:: WNew Q aT 3; WAddVertex (T := aT) 0 0 (exq 0 0 0 1 1); WAddVertex (T := aT) 0 1 (exq 3 0 0 4 5);
   WAddVertex (T := aT) 0 2%:R (exq 0 3 0 4 5); WAddVertex (T := aT) 0 3%:R (exq 2 2 1 0 3);
   WAddVertex (T := aT) 0 4%:R (exq 1 2 2 0 3); WAddVertex (T := aT) 0 5%:R (exq 0 0 0 1 1);
   WInit Q aT 0; WUpdate (T := aT) (1%N, 1) (fun r => if r == 2%N then 1 / 2%:R else 0)].
Definition a_world : world Q aT := if arun (w_new Q aT) a_ops is Ok w then w else w_new Q aT.
Lemma a_runs : (if arun (w_new Q aT) a_ops is Ok _ then true else false).
Proof. by vm_compute. Qed.
Lemma a_run : arun (w_new Q aT) a_ops = Ok a_world.
Proof. by move: a_runs; rewrite /a_world; case: (arun (w_new Q aT) a_ops). Qed.
Lemma a_plain : plain_run ad qmf a_update (w_new Q aT) a_ops.
Proof. by vm_compute. Qed.
Lemma a_reached : reached ad qmf a_update a_world.
Proof. exact: reached_run (reached_new _ _ _) a_plain a_run. Qed.
Notation a_obj := (nth (opt0 Q aT) (w_objs a_world) 0).
Lemma a_there : (0 < size (w_objs a_world))%N.
Proof. by vm_compute. Qed.
Lemma a_evaluable : ds_evaluable (op_sp a_obj).
Proof. by vm_compute. Qed.
Lemma a_order : ds_order (op_sp a_obj) = 3%N.
Proof. by vm_compute. Qed.
Lemma a_all_unit : all (fun kp => qnorm2 (quat_of kp.2) == 1) (contents (op_sp a_obj)).
Proof. by vm_compute. Qed.
Lemma a_unit : unit_vertices (op_sp a_obj).
Proof. by have /all_nthP h := a_all_unit => j jk; apply/eqP; apply: h. Qed.
Definition a_lo : aT := (2%:R : rat).
Definition a_hi : aT := (3%:R : rat).
Definition a_t : aT := (5%:R / 2%:R : rat).
Definition a_one : aT := (1 : rat).
Lemma a_time : exact_time ad a_one.
Proof. exact: q_time. Qed.
Lemma a_min0 : (if dm_getMinTime (op_sp a_obj) is Ok x then x == a_lo else false).
Proof. by vm_compute. Qed.
Lemma a_min : dm_getMinTime (op_sp a_obj) = Ok a_lo.
Proof. by move: a_min0; case: (dm_getMinTime _) => // x /eqP ->. Qed.
Lemma a_max0 : (if dm_getMaxTime (op_sp a_obj) is Ok x then x == a_hi else false).
Proof. by vm_compute. Qed.
Lemma a_max : dm_getMaxTime (op_sp a_obj) = Ok a_hi.
Proof. by move: a_max0; case: (dm_getMaxTime _) => // x /eqP ->. Qed.
Lemma a_in : a_lo <= a_t <= a_hi.
Proof. by vm_compute. Qed.
Lemma a_lt : a_lo < a_hi.
Proof. by vm_compute. Qed.
Definition a_te : te_data Q aT := @TeData Q aT a_lo a_hi None.
Lemma a_fits : te_fits ad a_obj a_te.
Proof.
split; last by left.
exists a_lo, a_hi; split; [exact: a_min|exact: a_max|exact: lexx|exact: a_lt|exact: lexx].
Qed.
Lemma a_k2 : (1 < ds_order (op_sp a_obj))%N.
Proof. by rewrite a_order. Qed.
Lemma a_k3 : (3 <= (ds_order (op_sp a_obj)).+1)%N.
Proof. by rewrite a_order. Qed.
Definition a_eps : Q := 1 / 10%:R.
Lemma a_mf : qmf = uq_manifold cayley ex_log ex_norm a_eps.
Proof. exact: erefl. Qed.
Lemma a_reached' : reached ad (uq_manifold cayley ex_log ex_norm a_eps) a_update a_world.
Proof. by rewrite -a_mf; exact: a_reached. Qed.
Lemma a_size : size (contents (op_sp a_obj)) = 6%N.
Proof. by vm_compute. Qed.
Lemma a_knot2 : kp_knot (contents (op_sp a_obj)) 2 == a_lo.
Proof. by vm_compute. Qed.
Lemma a_segment i : is_segment (ds_order (op_sp a_obj)) (contents (op_sp a_obj)) a_t i ->
  kp_knot (contents (op_sp a_obj)) i = a_lo.
Proof.
rewrite a_order => -[h1 h2 _ _]; move: h2; rewrite a_size => h2.
have -> : i = 2%N by move: h1 h2; clear; lia.
exact/eqP/a_knot2.
Qed.
Lemma fits_cached (F : realFieldType) (T : realDomainType) (dbl : T -> F) (o : opt F T) lo hi t ev :
  te_fits dbl o (TeData lo hi None) -> lo <= t <= hi -> const_factory dbl o t = Ok ev ->
  te_fits dbl o (TeData lo hi (Some ev)).
Proof. by case=> h _ tr E; split; [exact: h|right; exists t, ev]. Qed.
Lemma a_fits_cached ev : const_factory ad a_obj a_t = Ok ev ->
  te_fits ad a_obj (@TeData Q aT a_lo a_hi (Some ev)).
Proof. exact: (fits_cached a_fits a_in). Qed.
