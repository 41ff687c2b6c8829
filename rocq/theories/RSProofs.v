(* Proofs about the rolling shutter expression. *)
From mathcomp Require Import all_ssreflect all_algebra.
From mathcomp.algebra_tactics Require Import ring.
From mathcomp.zify Require Import zify.
From Verif Require Import Prelude CoxDeBoor CoxDeBoorProofs BSplineModel BSplineSpec
  BSplineProofs BSplineEvalProofs BSplineAccessProofs BSplineCoefProofs BSplineInitProofs
  BSplineAppendProofs BSplineLocalProofs BSplineMoreProofs PoseModel PoseSpec DerivProofs
  PoseProofs PoseTimeProofs DVModel DVSpec DVProofs TimeOffsetProofs RSModel.
Set Implicit Arguments.
Unset Strict Implicit.
Unset Printing Implicit Defensive.
Import GRing.Theory Num.Theory Order.Theory.
Local Open Scope ring_scope.

Section Chain.
Variable F : realFieldType.
(* composition with an affine function of the argument *)
Lemma deriv_comp_affine (f : F -> F) (l t0 x D : F) :
  deriv_at f (x * l + t0) D -> deriv_at (fun y => f (y * l + t0)) x (D * l).
Proof.
move=> H e e0; have e1 : 0 < e / (`|l| + 1) by rewrite divr_gt0 // ltr_paddl.
have l1 : 0 < `|l| + 1 by rewrite ltr_paddl.
have [d d0 Hd] := H _ e1; exists (d / (`|l| + 1)); first by rewrite divr_gt0.
move=> h hd; have hl : `|h * l| < d.
  rewrite normrM; apply: (@le_lt_trans _ _ (`|h| * (`|l| + 1))).
    by apply: ler_wpmul2l => //; rewrite ler_addl ler01.
  by rewrite -ltr_pdivl_mulr.
have -> : (x + h) * l + t0 = x * l + t0 + h * l by ring.
have -> : D * l * h = D * (h * l) by ring.
apply: le_trans (Hd _ hl) _; rewrite normrM.
have -> : e / (`|l| + 1) * (`|h| * `|l|) = e * `|h| * (`|l| / (`|l| + 1)).
  by rewrite mulrACA -!mulrA; congr (_ * (_ * _)); rewrite mulrC.
rewrite -[X in _ <= X]mulr1; apply: ler_wpmul2l; first by rewrite mulr_ge0 // ltW.
by rewrite ler_pdivr_mulr // mul1r ler_addl ler01.
Qed.

Lemma near_comp_affine (P : F -> Prop) (l t0 x : F) :
  near (x * l + t0) P -> near x (fun y => P (y * l + t0)).
Proof.
move=> [d d0 H]; have l1 : 0 < `|l| + 1 by rewrite ltr_paddl.
exists (d / (`|l| + 1)); first by rewrite divr_gt0.
move=> t td; apply: H; have -> : t * l + t0 - (x * l + t0) = (t - x) * l by ring.
rewrite normrM; apply: (@le_lt_trans _ _ (`|t - x| * (`|l| + 1))).
  by apply: ler_wpmul2l => //; rewrite ler_addl ler01.
by rewrite -ltr_pdivl_mulr.
Qed.
End Chain.

Section RS.
Variable F : realFieldType.
Variable eps : F.
Variable R : rotation F.
Implicit Types (o : rs_dv F) (nd : rs_node F).
Definition with_delay o (x : F) : rs_dv F := RSDV (rs_pose o) x (rs_copy o).

Lemma rs_timeE o nd : rs_time o nd = rs_delay o * rn_line nd + rn_t0 nd.
Proof. by rewrite /rs_time /unit_ mulr1. Qed.

Lemma rs_pointersE (st : spline_dv F) idx : all (fun i => i < size (sd_dvs st))%N idx ->
  rs_pointers st idx = dv_pointers st idx.
Proof.
rewrite /rs_pointers /dv_pointers; elim: idx => //= i idx IH /andP[h1 h2].
by rewrite /dv_designVariable /sm_assert h1 IH.
Qed.

(* value, blocks and registered variables at a time of the curve *)
Theorem rs_jacobians_correct o nd : let st := rs_pose o in let s := sd_spline st in
  let t := rs_delay o * rn_line nd + rn_t0 nd in
  in_step 6 st -> wf s -> 0 < eps -> tmin s <= t -> t < tmax s + eps ->
  rot_ext R -> rot_deriv R ->
  exists T J idx js lj ptrs,
  [/\ rs_value eps R o nd = Ok T, rs_jacobians eps R o nd = Ok (js, lj),
      rs_getDesignVariables eps o nd = Ok (rcons (map PoseVar ptrs) DelayVar) /\
        dv_getDesignVariables eps st t = Ok ptrs,
      unzip1 js = ptrs & pose_jacobian_of (fun s' => transformation R eps s' t) s J idx /\
      forall dp : nat -> vec F, let dC r i := dp (nth 0%N (dv_ids st) i) r in
      forall r, dir s J idx dC r = predicted_all 6 js dp r].
Proof.
move=> st s t ist wfs e0 t1 t2 Rx Rd.
have d6 : bs_dim s = 6%N by case: ist.
have sz : size (sd_dvs st) = bs_ncoef s by case: ist.
have [T [T' [J [idx [E1 E2 _ lc pj]]]]] := transformation_jac wfs d6 e0 t1 t2 Rx Rd.
have [b [w [bn lv _ H]]] := local_form wfs e0 t1 t2.
have [v [p [JS [e3 _ _ _ _]]]] := H (bs_coef s) 0%N; rewrite with_coef_id in e3.
have [v1 [_ [_ [f1 _ _ _ _]]]] := H (bs_coef s) 1%N; rewrite with_coef_id in f1.
have [ptrs e4 _] := getDesignVariables_ok ist bn lv.
have [js ej [uj hj]] := pose_blocks_aligned ist e3 e4 E1 lc.
have inr : all (fun i => i < size (sd_dvs st))%N (iota b (bs_order s)).
  by apply/allP => i; rewrite mem_iota sz; move: bn; clear; lia.
have e5 : dv_pointers st (iota b (bs_order s)) = Ok ptrs.
  by move: e4; rewrite /dv_getDesignVariables -/s lv.
move: E1 ej; rewrite /transformationAndJacobian /pose_node_jacobians /transformationAndJacobian.
rewrite [nd_time _]/= -/s; case E : (evalJ6 eps s t 0) => [[[p' JS'] ix]|e|] //=.
rewrite -/s => -[_ EJ _] ej.
exists T', J, idx, js; do 2 eexists; split.
- by rewrite /rs_value rs_timeE.
- rewrite /rs_jacobians rs_timeE -/st -/s -/t lv [obind _ _]/= E [obind _ _]/=.
  by rewrite rs_pointersE // e5 [obind _ _]/= ej /= /evalD6 f1 /= d6 /=.
- by rewrite /rs_getDesignVariables rs_timeE -/st -/s -/t lv /= rs_pointersE // e5.
- exact: uj.
- by split; [exact: pj|exact: hj].
Qed.

(* the column of the line delay is the derivative with respect to it *)
Theorem rs_delay_rate o nd i js lj : let s := sd_spline (rs_pose o) in
  let t := rs_delay o * rn_line nd + rn_t0 nd in
  wf s -> bs_dim s = 6%N -> 0 < eps -> eps <= last_len s -> inside s i t ->
  rot_ext R -> rot_deriv R -> rs_jacobians eps R o nd = Ok (js, lj) ->
  exists2 T, rs_value eps R o nd = Ok T &
    has_mrate 4 4 (fun x => rs_value eps R (with_delay o x) nd) (rs_delay o) (turned4 lj T).
Proof.
move=> s t wfs d6 e0 el ins Rx Rd.
rewrite /rs_jacobians rs_timeE -/s -/t.
case El : (localVvCoefficientVectorIndices eps s t) => [dv|e|] //=.
case EJ : (evalJ6 eps s t 0) => [[[p JS] ix]|e|] //=.
case: (rs_pointers _ _) => [ptrs|e|] //=; case: (add_blocks _ _ _ _) => [js'|e|] //=.
case Ed : (evalD6 eps s t 1) => [v1|e|] //= -[_ <-].
set tj := mulv 6 _ v1.
have dv0 : (0 < size dv)%N.
  have [ki iN _] := ins.
  have [j lvE] : exists b, localVvCoefficientVectorIndices eps s t = Ok (iota b (bs_order s)).
    move: EJ; rewrite /evalJ6; case Ev: (evalDAndJacobian eps s t 0) => [[[a b] c]|e|] //= _.
    have [q1 q2] : tmin s <= t /\ t < tmax s + eps.
      case/andP: (let: And3 _ _ h := ins in h) => h1 h2.
      split; first by apply: le_trans (ltW h1); apply: (kn_mono wfs); move: ki iN (wf_order wfs); clear; lia.
      apply: lt_trans h2 _; apply: (@le_lt_trans _ _ (tmax s)); last by rewrite ltr_addl.
      by apply: (kn_mono wfs); move: ki iN (wf_order wfs); clear; lia.
    by have [b' [w [_ lv _ _]]] := local_form wfs e0 q1 q2; exists b'.
  by move: El; rewrite lvE => -[<-]; rewrite size_iota; move: (wf_order wfs); clear; lia.
have tE : to_jacobians eps R s 0 (ToNode t (t + 1) [::]) t = Ok ([::], tj).
  by rewrite /to_jacobians /= lexx ltr_addl ltr01 /= El /= EJ /= dv0 /= Ed.
have [T ET [f nf df]] := to_time_rate e0 wfs el d6 ins Rd Rx tE.
exists T; first by rewrite /rs_value rs_timeE.
exists (fun x => f (x * rn_line nd + rn_t0 nd)).
  apply: near_imp (near_comp_affine nf) => x h.
  by rewrite /rs_value rs_timeE.
move=> r c r4 c4; apply: deriv_ext (deriv_comp_affine (df r c r4 c4)) => //.
rewrite /turned4 /turned; case: ifP => r3; last by rewrite mul0r.
by rewrite /unit_ /get_segment /cross; case: r r3 {r4} => [|[|[|r]]] // _ /=; ring.
Qed.

(* numbering of the variables *)
Theorem rs_enumeration o : in_step 6 (rs_pose o) -> let n := bs_ncoef (sd_spline (rs_pose o)) in
  [/\ rs_numDesignVariables o = n.+1, rs_designVariable o n = Ok DelayVar,
      forall i, (i < n)%N -> rs_designVariable o i = Ok (PoseVar (nth 0%N (dv_ids (rs_pose o)) i))
    & forall i, (n < i)%N -> rs_designVariable o i = Throw ExnRuntime].
Proof.
move=> [_ sz _ _ _] n; rewrite /rs_numDesignVariables /rs_designVariable /rs_numDesignVariables sz.
rewrite -/n /sm_assert; split=> //=.
- by rewrite ltnS leqnn eqxx.
- move=> i i_n; rewrite ltnS (ltnW i_n) (ltn_eqF i_n) /dv_designVariable /sm_assert sz i_n /=.
  by rewrite nth_ids // sz.
- by move=> i ni; rewrite ltnS leqNgt ni.
Qed.

(* moving the line delay moves the observation time *)
Theorem rs_delay_update o nd dp : exists2 o', rs_update o DelayVar dp = Ok o' &
  rs_value eps R o' nd =
  transformation R eps (sd_spline (rs_pose o))
    ((rs_delay o + dp 0%N) * rn_line nd + rn_t0 nd).
Proof. by eexists; [reflexivity|rewrite /rs_value rs_timeE]. Qed.

(* times in the same knot interval register the same variables *)
Theorem rs_same_segment o nd x i : let s := sd_spline (rs_pose o) in wf s ->
  segment_of eps s (rs_delay o * rn_line nd + rn_t0 nd) i ->
  segment_of eps s (x * rn_line nd + rn_t0 nd) i ->
  rs_getDesignVariables eps (with_delay o x) nd = rs_getDesignVariables eps o nd.
Proof.
move=> s wfs h1 h2; rewrite /rs_getDesignVariables !rs_timeE /= -/s.
by rewrite (localVv_seg wfs h1) (localVv_seg wfs h2).
Qed.

(* the copy of the spline gives the right indices after any sequence of updates *)
Theorem rs_active s x us o : bs_dim s = 6%N -> (do o0 <- rs_new s x ; rs_updates o0 us) = Ok o ->
  forall tk, rs_activeIndices eps o tk =
    localVvCoefficientVectorIndices eps (sd_spline (rs_pose o)) tk.
Proof.
move=> d6; rewrite /rs_new.
have [st [-> sE _ _]] := dv_new_ok d6 => /= E tk.
suff : exists C, sd_spline (rs_pose o) = with_coef (rs_copy o) C by case=> C ->.
have : exists C, sd_spline (rs_pose (RSDV st x s)) = with_coef (rs_copy (RSDV st x s)) C.
  by exists (bs_coef s); rewrite /= sE with_coef_id.
elim: us (RSDV st x s) E => [|[p dp] us IH] o0 /=; first by move=> [->].
case: p => [p|] /=; last by move=> E h; apply: IH E _.
rewrite /dv_update /ub_unless; case: (_ < _)%N => //=; case: (_ == _) => //= E [C h].
by apply: IH E _ => /=; eexists; rewrite h; reflexivity.
Qed.
End RS.
