(* Concrete data for the fitter: a straight line as quadratic spline over six knots, one
   measurement, two of the three relevant vertices fixed. *)
From mathcomp Require Import all_ssreflect all_algebra.
From mathcomp.algebra_tactics Require Import ring.
From mathcomp.zify Require Import zify.
From Verif Require Import Prelude CoxDeBoor CoxDeBoorProofs BSplineModel BSplineSpec
  BSplineProofs BSplineEvalProofs BSplineIntegralProofs BSplineQuadProofs LinSolve
  DMModel DMSpec DMProofs DMEvalProofs DMAccessProofs DMMainProofs KnotModel FitterModel FitterSpec
  FitterAlg FitterQuadProofs FitterSysProofs FitterRowProofs FitterMainProofs FitterCalcProofs
  OptTimeProofs.
Set Implicit Arguments.
Unset Strict Implicit.
Unset Printing Implicit Defensive.
Import GRing.Theory Num.Theory Order.Theory.
Local Open Scope ring_scope.
#[local] Arguments fsum : simpl never.

Notation Q := (rat_realFieldType).
Notation fxT := (int_realDomainType).
Definition fx_dbl : int -> Q := fun x => x%:~R.
Definition fx_pt (a : int) : vec Q := fun _ => a%:~R.
Definition fx_kps : seq (fxT * vec Q) :=
  [:: (0 : int, fx_pt 0); (2 : int, fx_pt 1); (4 : int, fx_pt 2); (6 : int, fx_pt 3);
      (8 : int, fx_pt 4); (10 : int, fx_pt 5)].
(* a solver that divides if there is one unknown *)
Definition fx_solve (n : nat) (A : mat Q) (b : vec Q) : vec Q :=
  if n == 1%N then (fun _ => b 0%N / A 0%N 0%N) else pinv_solve n A b.

Lemma fx_exact : exact_solver fx_solve.
Proof.
move=> n A b [x H] i iN; rewrite /fx_solve; case: eqP => [e|_]; last by apply: pinv_exact => //; exists x.
move: H iN; rewrite e => H; rewrite ltnS leqn0 => /eqP ->.
have := H 0%N (ltn0Sn 0); rewrite /mulv !fsumE !big_ord_recl !big_ord0 !addr0 => h.
have [z|nz] := eqVneq (A 0%N 0%N) 0; first by rewrite -h z !mul0r.
by rewrite mulrC divfK.
Qed.

Lemma fx_time : exact_time fx_dbl (2 : fxT).
Proof.
split; [by move=> a b; rewrite /fx_dbl rmorphB|by move=> a b; rewrite /fx_dbl ltr_int|by []].
Qed.
Lemma fx_good : good 3 fx_kps.
Proof. by vm_compute. Qed.
Lemma fx_seg : is_segment 3 fx_kps (5 : int) 2.
Proof. by split; [vm_compute..|left; vm_compute]. Qed.
Definition fx_times : seq fxT := [:: 5 : int].
Definition fx_pts : seq (vec Q) := [:: fx_pt 1].
Lemma fx_batch : batch_ok 3 fx_kps fx_times fx_pts.
Proof.
split; [by vm_compute..|move=> t; rewrite inE => /eqP ->; by rewrite !lexx].
Qed.

Lemma fx_weights : [/\ seg_weight fx_dbl (2 : fxT) 3 fx_kps (5 : int) 2 0 0 = 8%:R^-1,
  seg_weight fx_dbl (2 : fxT) 3 fx_kps (5 : int) 2 0 1 = 3%:R / 4%:R
  & seg_weight fx_dbl (2 : fxT) 3 fx_kps (5 : int) 2 0 2 = 8%:R^-1].
Proof.
have [b e H] := getLocalBiE fx_time fx_good 0 false fx_seg (leqnn 4).
have : (match dm_getLocalBi fx_dbl (2 : fxT) false 4 (canon fx_dbl 3 fx_kps)
          (ev_of fx_dbl 3 fx_kps (5 : int) 2) 0 with
        | Ok b => [&& b 0%N == 8%:R^-1, b 1%N == 3%:R / 4%:R & b 2%N == 8%:R^-1] | _ => false end).
  by vm_compute.
rewrite e => /and3P[/eqP h0 /eqP h1 /eqP h2].
split; [rewrite -h0|rewrite -h1|rewrite -h2]; apply/esym/H; exact: isT.
Qed.

Notation fx_field kps := (fun v r : nat => (nth kp0 kps v).2 r).
Lemma fx_total : total fx_dbl (2 : fxT) 3 1 fx_kps 1 (fx_field fx_kps) (fx_field fx_kps) = 0.
Proof. by apply/eqP; vm_compute. Qed.

Lemma fx_segs i : (i < size fx_pts)%N -> is_segment 3 fx_kps (nth 0 fx_times i) ((fun _ => 2%N) i).
Proof. by case: i => [|//] _; exact: fx_seg. Qed.

Lemma fx_resid (X : nat -> nat -> Q) :
  resid fx_dbl (2 : fxT) 3 fx_kps fx_times fx_pts (fun _ => 1) (fun _ => 2%N) X 0 0
  = 8%:R^-1 * X 0%N 0%N + 3%:R / 4%:R * X 1%N 0%N + 8%:R^-1 * X 2%N 0%N - 1.
Proof.
have [h0 h1 h2] := fx_weights; rewrite /resid fsumE !big_ord_recl big_ord0 mul1r addr0.
rewrite -[nth 0 fx_times 0]/(5 : int) -[nth zerov fx_pts 0 0%N]/(1%:~R : Q).
by rewrite -[nat_of_ord _]/0%N -[nat_of_ord (lift ord0 ord0)]/1%N -[nat_of_ord _]/2%N h0 h1 h2 addrA.
Qed.

Lemma fx_cost (X : nat -> nat -> Q) : cost_val fx_dbl (2 : fxT) 3 1 fx_kps fx_times fx_pts (fun _ => 1)
  (fun _ => 2%N) 1 X
  = (8%:R^-1 * X 0%N 0%N + 3%:R / 4%:R * X 1%N 0%N + 8%:R^-1 * X 2%N 0%N - 1) ^+ 2
    + total fx_dbl (2 : fxT) 3 1 fx_kps 1 X X.
Proof. by rewrite /cost_val -fx_resid [size fx_pts]/= !big_ord_recl !big_ord0 !addr0. Qed.

Lemma fx_not_best kps' : competitor 1 fx_kps kps' 2 3 ->
  (nth kp0 kps' 2).2 0%N = 2%:R / 65%:R ->
  ~ best_fit fx_dbl (2 : fxT) 3 1 fx_kps kps' 2 3 fx_times fx_pts (fun _ => 1) 1.
Proof.
move=> [key cmp] v [_ [E /(cost_valE fx_time fx_good fx_segs key) -> opt]].
have := opt fx_kps _ (conj (erefl _) (fun j r _ _ _ => erefl _))
  (cost_ex fx_time 1 fx_good (fun _ => 1) fx_segs (erefl _) 1).
rewrite !fx_cost fx_total v.
have -> : (nth kp0 kps' 0).2 0%N = 0 by rewrite (cmp 0%N 0%N).
have -> : (nth kp0 kps' 1).2 0%N = 1 by rewrite (cmp 1%N 0%N).
rewrite -[(nth kp0 fx_kps 0).2 0%N]/(0%:~R : Q) -[(nth kp0 fx_kps 1).2 0%N]/(1%:~R : Q).
rewrite -[(nth kp0 fx_kps 2).2 0%N]/(2%:~R : Q) addr0.
have := @total_psd _ _ fx_dbl 2 fx_time 3 1 fx_kps fx_good 1 (fx_field kps') ler01.
move: (total _ _ _ _ _ _ _ _) => t t0 h.
have : (8%:R^-1 * 0 + 3%:R / 4%:R * 1 + 8%:R^-1 * (2%:R / 65%:R) - 1) ^+ 2
     <= (8%:R^-1 * 0%:~R + 3%:R / 4%:R * 1%:~R + 8%:R^-1 * 2%:~R - 1) ^+ 2 :> rat.
  by apply: le_trans h; rewrite ler_addl.
by apply/negP; vm_compute.
Qed.

Lemma fx_refuted : exists s' kps',
  [/\ ft_fitSpline fx_dbl (2 : fxT) fx_solve true false 3 (euclidean Q 1) (canon fx_dbl 3 fx_kps)
        fx_times fx_pts 1 2 None false = MRet s' tt, s' = canon fx_dbl 3 kps',
      competitor 1 fx_kps kps' 2 3
    & ~ best_fit fx_dbl (2 : fxT) 3 1 fx_kps kps' 2 3 fx_times fx_pts (fun _ => 1) 1].
Proof.
set r := ft_fitSpline _ _ _ _ _ _ _ _ _ _ _ _ _ _.
have : match r with MRet s' _ => sg_pt (seg_nth (ds_segs s') 2) 0%N == 2%:R / 65%:R
       | _ => false end by vm_compute.
have sh := @fitSpline_shape _ _ fx_dbl (2 : fxT) fx_time 3 1 fx_kps fx_good isT fx_solve true false 3
  fx_times fx_pts None (fun _ => 1) 1 2 false 2 2 isT.
move: sh; rewrite -/r; move: r => [s' []|//|//] sh /eqP val.
have [||kps' e cmp] := sh _ fx_batch _ fx_seg fx_seg s' (erefl _).
- by [].
- by move=> i _.
exists s', kps'; split; [by []|exact: e|exact: cmp|apply: fx_not_best; first exact: cmp].
rewrite -val e canon_pt //.
have [key _] := cmp; by rewrite -(size_map fst) key.
Qed.
