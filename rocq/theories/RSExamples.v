(* A concrete rolling shutter expression. *)
From mathcomp Require Import all_ssreflect all_algebra.
From mathcomp.zify Require Import zify.
From Verif Require Import Prelude CoxDeBoor BSplineModel BSplineSpec BSplineLocalProofs PoseModel
  PoseSpec PoseCayley DVModel DVSpec DVProofs RSModel RSProofs Examples PoseExamples.
Set Implicit Arguments.
Unset Strict Implicit.
Unset Printing Implicit Defensive.
Import GRing.Theory Num.Theory Order.Theory.
Local Open Scope ring_scope.

#[local] Opaque evalD evalDAndJacobian pex eps0 dv_new localVvCoefficientVectorIndices
  rs_jacobians rs_getDesignVariables rs_value transformation dv_getDesignVariables.

(* line 1 of an image that starts at 3/2; the line delay decides the knot interval *)
Definition rs_t0 : Q := 3%:R / 2%:R.
Definition rs_nd : rs_node Q := RSNode rs_t0 1.

Lemma idx_gen (o : outcome (seq nat)) l : (if o is Ok l' then l' == l else false) -> o = Ok l.
Proof. by case: o => // l' /eqP ->. Qed.
Lemma pex_idx1 : localVvCoefficientVectorIndices eps0 pex (0 * 1 + rs_t0) = Ok (iota 0 3).
Proof. by apply: idx_gen; vm_compute. Qed.
Lemma pex_idx2 : localVvCoefficientVectorIndices eps0 pex (rs_t0 * 1 + rs_t0) = Ok (iota 1 3).
Proof. by apply: idx_gen; vm_compute. Qed.
Lemma pex_q1 : tmin pex <= 0 * 1 + rs_t0. Proof. by vm_compute. Qed.
Lemma pex_q2 : 0 * 1 + rs_t0 < tmax pex + eps0. Proof. by vm_compute. Qed.
Lemma pex_q3 : tmin pex <= rs_t0 * 1 + rs_t0. Proof. by vm_compute. Qed.
Lemma pex_q4 : rs_t0 * 1 + rs_t0 < tmax pex + eps0. Proof. by vm_compute. Qed.
Lemma pex_q5 : kn pex 3 < rs_t0 * 1 + rs_t0 < kn pex 4. Proof. by vm_compute. Qed.
Lemma pex_n : bs_ncoef pex = 4%N. Proof. exact: erefl. Qed.
Lemma pex_d : bs_dim pex = 6%N. Proof. exact: erefl. Qed.

Lemma cay_extQ : rot_ext cayQ. Proof. exact: cay_ext. Qed.
Lemma cay_derivQ : rot_deriv cayQ. Proof. exact: cay_deriv. Qed.

(* the variables a node of an object uses *)
Lemma rs_vars (F : realFieldType) (eps : F) (R : rotation F) (s : bspline F) (st : spline_dv F)
  (x t0 : F) b k n :
  in_step 6 st -> sd_spline st = s -> dv_ids st = iota 0 n -> bs_ncoef s = n -> wf s -> 0 < eps ->
  rot_ext R -> rot_deriv R -> (b + k <= n)%N ->
  localVvCoefficientVectorIndices eps s (x * 1 + t0) = Ok (iota b k) ->
  tmin s <= x * 1 + t0 -> x * 1 + t0 < tmax s + eps ->
  exists js lj, rs_jacobians eps R (RSDV st x s) (RSNode t0 1) = Ok (js, lj) /\
    unzip1 js = iota b k /\
    rs_getDesignVariables eps (RSDV st x s) (RSNode t0 1) =
      Ok (rcons (map PoseVar (iota b k)) DelayVar).
Proof.
move=> ist sE ids nE wfs e0 Rx Rd bk lv t1 t2; subst s.
have [T [J [idx [js [lj [ptrs [_ h1 [h2 h3] h4 _]]]]]]] :=
  @rs_jacobians_correct F eps R (RSDV st x (sd_spline st)) (RSNode t0 1) ist wfs e0 t1 t2 Rx Rd.
have bk' : (b + k <= bs_ncoef (sd_spline st))%N by rewrite nE.
have [ptrs' g1 [g2 g3]] := getDesignVariables_ok ist bk' lv.
have pE : ptrs = iota b k.
  have : Ok ptrs = Ok ptrs' by rewrite -h3 -g1.
  move=> -[->]; apply: (@eq_from_nth _ 0%N); rewrite g2 ?size_iota // => q qk.
  by rewrite g3 // ids !nth_iota //; move: bk qk; clear; lia.
by exists js, lj; split; [exact: h1|split; [rewrite h4 pE|rewrite h2 pE]].
Qed.

Lemma pex_new : exists st, [/\ rs_new pex 0 = Ok (RSDV st 0 pex), in_step 6 st, sd_spline st = pex
  & dv_ids st = iota 0 4].
Proof.
have [st [e sE ist ids]] := dv_new_ok (erefl : bs_dim pex = 6%N).
have nE := pex_n.
exists st; split; [by rewrite /rs_new e|exact: ist|exact: sE|by rewrite ids nE].
Qed.

Theorem registered_refuted : exists (s : bspline Q) (nd : rs_node Q) (dp : vec Q) o o' regs js lj p,
  [/\ wf s /\ bs_dim s = 6%N, rs_new s 0 = Ok o, rs_getDesignVariables eps0 o nd = Ok regs,
      rs_update o (DelayVar) dp = Ok o' &
      [/\ rs_jacobians eps0 cayQ o' nd = Ok (js, lj), p \in unzip1 js & ~ List.In (PoseVar p) regs]].
Proof.
have [st [e1 ist sE ids]] := pex_new.
have nE := pex_n.
have [js1 [lj1 [_ [_ r1]]]] := rs_vars ist sE ids nE pex_wf eps0_pos cay_extQ cay_derivQ (isT : 0 + 3 <= 4)%N pex_idx1 pex_q1 pex_q2.
have [js2 [lj2 [j2 [u2 _]]]] := rs_vars ist sE ids nE pex_wf eps0_pos cay_extQ cay_derivQ (isT : 1 + 3 <= 4)%N pex_idx2 pex_q3 pex_q4.
exists pex, rs_nd, (fun _ => rs_t0), (RSDV st 0 pex), (RSDV st rs_t0 pex).
do 4 eexists; split; [by split; [exact: pex_wf|exact: erefl]|exact: e1|exact: r1| |split].
- by rewrite /rs_update add0r.
- exact: j2.
- by rewrite u2; exact: (isT : 3%N \in iota 1 3).
- by case=> // -[|[|[|[]]]].
Qed.
