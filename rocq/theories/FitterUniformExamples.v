(* Integer times: knots at 0, 3, 6, 10 (segments of length 10/3, rounded), data on a curve
   with these knots. *)
From mathcomp Require Import all_ssreflect all_algebra.
From mathcomp.algebra_tactics Require Import ring.
From mathcomp.zify Require Import zify.
From Verif Require Import Prelude CoxDeBoor CoxDeBoorProofs BSplineModel BSplineSpec
  BSplineProofs BSplineEvalProofs BSplineIntegralProofs BSplineQuadProofs LinSolve
  DMModel DMSpec DMProofs DMEvalProofs DMAccessProofs KnotModel KnotProofs KnotMainProofs
  FitterModel FitterSpec FitterAlg FitterQuadProofs FitterSysProofs FitterRowProofs
  FitterMainProofs FitterCalcProofs OptTimeProofs DMAppendProofs FitterExamples
  FitterUniformProofs.
Set Implicit Arguments.
Unset Strict Implicit.
Unset Printing Implicit Defensive.
Import GRing.Theory Num.Theory Order.Theory.
Local Open Scope ring_scope.
#[local] Arguments fsum : simpl never.

Definition fu_ts : seq fxT := [:: -3; 0; 3; 6; 10; 13].
Definition fu_zp : seq (fxT * vec Q) := [seq (t, zerov) | t <- fu_ts].
Definition fu_times : seq fxT := [:: 0; 3; 6; 10].
Definition fu_pts : seq (vec Q) := [:: fx_pt 0; fx_pt 1; fx_pt 2; fx_pt 3].
Definition fu_line : seq (fxT * vec Q) :=
  [:: (-3 : fxT, fx_pt 0); (0 : fxT, fx_pt 1); (3 : fxT, fx_pt 2); (6 : fxT, fx_pt 3);
      (10 : fxT, zerov); (13 : fxT, zerov)].
Definition fu_g : interval_gen fxT := IntervalGen 2 (0 : fxT) 10 3 6 6.
Notation fu_rs := (ig_getKnotIndexAtTime (nsec_policy (-1000) 1000) fu_g).

Lemma fu_good : good 2 fu_zp.
Proof. exact: isT. Qed.
Lemma fu_add : foldl (dm_addKnot (euclidean Q 1)) (dm_new Q fxT 2) fu_ts = constructing 2 fu_zp.
Proof. exact: erefl. Qed.
Lemma fu_drain : ig_drain (nsec_policy (-1000) 1000) 6 (IntervalGen 2 (0 : fxT) 10 3 0 6)
  = Ok (Some (fu_g, fu_ts)).
Proof. exact: erefl. Qed.
Lemma fu_seg0 : is_segment 2 fu_zp (0 : fxT) 1.
Proof. by split; [exact: isT..|left; exact: isT]. Qed.
Lemma fu_segl : is_segment 2 fu_zp (10 : fxT) 3.
Proof. by split; [exact: isT..|right; split; [exact: erefl|exact: erefl]]. Qed.

Definition fu_sg (i : nat) : nat := nth 3%N [:: 1; 2; 3]%N i.
Lemma fu_segs i : (i < size fu_pts)%N -> is_segment 2 fu_zp (nth 0 fu_times i) (fu_sg i).
Proof.
case: i => [_|]; first exact: fu_seg0.
case=> [_|]; first by split; [exact: isT..|left; exact: isT].
case=> [_|]; first by split; [exact: isT..|left; exact: isT].
case=> [_|]; first exact: fu_segl.
by [].
Qed.

Notation fu_w := (seg_weight fx_dbl (2 : fxT) 2 fu_zp).
Lemma fu_weights i : (i < size fu_pts)%N ->
  fu_w (nth 0 fu_times i) (fu_sg i) 0 0 = (if i == 3%N then 0 else 1) /\
  fu_w (nth 0 fu_times i) (fu_sg i) 0 1 = (if i == 3%N then 1 else 0).
Proof.
move=> ip; have [b e H] := getLocalBiE fx_time fu_good 0 false (fu_segs ip) (leqnn 3).
have : (match dm_getLocalBi fx_dbl (2 : fxT) false 3 (canon fx_dbl 2 fu_zp)
          (ev_of fx_dbl 2 fu_zp (nth 0 fu_times i) (fu_sg i)) 0 with
        | Ok b => (b 0%N == if i == 3%N then 0 else 1) && (b 1%N == if i == 3%N then 1 else 0)
        | _ => false end).
  case: i ip {e H} => [_|]; first by vm_compute.
  case=> [_|]; first by vm_compute.
  case=> [_|]; first by vm_compute.
  case=> [_|]; first by vm_compute.
  by [].
rewrite e => /andP[/eqP h0 /eqP h1].
split; [rewrite -h0|rewrite -h1]; apply/esym/H; exact: isT.
Qed.

Notation fu_resid := (resid fx_dbl (2 : fxT) 2 fu_zp fu_times fu_pts (fun _ => 1) fu_sg).
Lemma fu_residE (X : nat -> nat -> Q) i : (i < size fu_pts)%N ->
  fu_resid X i 0 = X i 0%N - nth zerov fu_pts i 0%N.
Proof.
move=> ip; have [h0 h1] := fu_weights ip.
rewrite /resid mul1r fsumE !big_ord_recl big_ord0 addr0.
rewrite -[nat_of_ord _]/0%N -[nat_of_ord (lift ord0 ord0)]/1%N h0 h1; congr (_ - _).
case: i ip {h0 h1} => [_|]; first by rewrite mul1r mul0r addr0.
case=> [_|]; first by rewrite mul1r mul0r addr0.
case=> [_|]; first by rewrite mul1r mul0r addr0.
case=> [_|]; first by rewrite mul1r mul0r add0r.
by [].
Qed.

Lemma fu_total :
  total fx_dbl (2 : fxT) 2 1 fu_zp 0 (fx_field fu_line) (fx_field fu_line) = 0.
Proof. by apply/eqP; vm_compute. Qed.

Lemma fu_not_best kps' : competitor 1 fu_zp kps' 0 4 -> (nth kp0 kps' 0).2 0%N = 2%:R^-1 ->
  ~ best_fit fx_dbl (2 : fxT) 2 1 fu_zp kps' 0 4 fu_times fu_pts (fun _ => 1) 0.
Proof.
move=> [key cmp] v [_ [E /(cost_valE fx_time fu_good fu_segs key) -> opt]].
have cl : competitor 1 fu_zp fu_line 0 4.
  split; first exact: erefl.
  by case=> [|[|[|[|[|[|j]]]]]] r //= _ _ _; exact: erefl.
have kl : map fst fu_line = map fst fu_zp by exact: erefl.
have := opt fu_line _ cl (cost_ex fx_time 1 fu_good (fun _ => 1) fu_segs kl 0).
have bE (X : nat -> nat -> Q) : \sum_(i < size fu_pts) \sum_(r < 1) fu_resid X i r ^+ 2
  = fu_resid X 0 0 ^+ 2 + (fu_resid X 1 0 ^+ 2 + (fu_resid X 2 0 ^+ 2 + fu_resid X 3 0 ^+ 2)).
  by rewrite [size fu_pts]/= !big_ord_recl !big_ord0 !addr0.
rewrite /cost_val fu_total addr0 !bE !fu_residE // v.
have := @total_psd _ _ fx_dbl 2 fx_time 2 1 fu_zp fu_good 0 (fx_field kps') (lexx _).
move: (total _ _ _ _ _ _ _ _) => t t0 h.
have {h} : (2%:R^-1 - nth zerov fu_pts 0 0%N) ^+ 2
   <= ((nth kp0 fu_line 0).2 0%N - nth zerov fu_pts 0 0%N) ^+ 2
  + (((nth kp0 fu_line 1).2 0%N - nth zerov fu_pts 1 0%N) ^+ 2
  + (((nth kp0 fu_line 2).2 0%N - nth zerov fu_pts 2 0%N) ^+ 2
  + ((nth kp0 fu_line 3).2 0%N - nth zerov fu_pts 3 0%N) ^+ 2)) :> rat.
  apply: le_trans h; rewrite -!addrA ler_addl.
  by rewrite !addr_ge0 ?sqr_ge0.
by apply/negP; vm_compute.
Qed.

Definition fu_rows := oloop 0 (size fu_pts) (ft_row fx_dbl (2 : fxT) false 3 (canon fx_dbl 2 fu_zp) 1
  fu_rs fu_times fu_pts None 0 false (kp_knot fu_zp (size fu_zp - 2)) (0 + 1%N%:Z - (2%N%:Z - 1)) 4 [::])
  (zerom, zerov).
(* the wrong normal equations: the first says 2 * c_0 = 1 *)
Lemma fu_normal : match fu_rows with
  | Ok Ab => let A := mulm 4 (trm Ab.1) Ab.1 in let b := mulv 4 (trm Ab.1) Ab.2 in
    [&& A 0%N 0%N == 2%:R, A 0%N 1%N == 0, A 0%N 2%N == 0, A 0%N 3%N == 0, b 0%N == 1
      & all (fun i => mulv 4 A (fun j => nth 0 [:: 2%:R^-1; 2%:R; 0; 3%:R] j) i == b i) (iota 0 4)]
  | _ => false
  end.
Proof. by vm_compute. Qed.

Lemma fu_calc solve : exact_solver solve -> exists2 kps',
  ft_calcFittedControlVertices fx_dbl (2 : fxT) solve true false 3 (euclidean Q 1)
    (canon fx_dbl 2 fu_zp) fu_rs fu_times fu_pts None 0 0 false = MRet (canon fx_dbl 2 kps') tt
  & competitor 1 fu_zp kps' 0 4 /\ (nth kp0 kps' 0).2 0%N = 2%:R^-1.
Proof.
move=> es; have := fu_normal; case rowE : fu_rows => [Ab|?|]; [|by []|by []].
set A := mulm _ _ _; set b := mulv _ _ _.
case/and5P=> /eqP h0 /eqP h1 /eqP h2 /eqP h3 /andP[/eqP hb /allP hx].
have r0 : fu_rs (head 0 fu_times) = Ok 1 by exact: erefl.
have rl : fu_rs (last 0 fu_times) = Ok 4 by exact: erefl.
have e0 : (1 : int) - (if head 0 fu_times == kp_knot fu_zp (size fu_zp - 2) then 1 else 0) = 0 + 1%N%:Z
  by exact: erefl.
have el : (4 : int) - (if last 0 fu_times == kp_knot fu_zp (size fu_zp - 2) then 1 else 0) = 0 + 3%N%:Z
  by exact: erefl.
have [kps' e [cmp H]] := calc_any (dbl := fx_dbl) (one := (2 : fxT)) solve true fu_good (isT : (0 < 1)%N)
  (isT : (0 < size fu_times)%N) (isT : (1 <= 3)%N) fu_seg0 fu_segl r0 rl e0 el rowE.
exists kps'; first exact: e.
split; first exact: cmp.
rewrite (H 0%N 0%N isT isT).
set c := solve _ _ _.
have fs4 (h : nat -> Q) : fsum 4 h = h 0%N + (h 1%N + (h 2%N + h 3%N)).
  by rewrite fsumE !big_ord_recl big_ord0 addr0.
have cE : mulv 4 A c 0%N = b 0%N.
  apply: (es 4%N A b); last exact: isT.
  exists (fun j => nth 0 [:: 2%:R^-1; 2%:R; 0; 3%:R] j) => i i4.
  by apply/eqP; apply: hx; rewrite mem_iota.
move: cE; rewrite /mulv fs4 h0 h1 h2 h3 hb !mul0r !addr0 => cE.
have c0 : c 0%N = 2%:R^-1.
  have n2 : (2%:R : Q) != 0 by vm_compute.
  by apply: (mulfI n2); rewrite cE divff.
have -> : base_field 2 fu_zp 1 3 0 false 0%N 0%N = 0 by exact: erefl.
by rewrite add0r -c0.
Qed.

Lemma fu_refuted solve : exact_solver solve -> exists2 kps',
  ft_initUniformSplineOverTimes fx_dbl (2 : fxT) solve (nsec_policy (-1000) 1000) 6 true false 3
    (euclidean Q 1) (dm_new Q fxT 2) fu_times fu_pts 3 0 = Some (MRet (canon fx_dbl 2 kps') tt)
  & map fst kps' = fu_ts /\ (nth kp0 kps' 0).2 0%N = 2%:R^-1 /\
    ~ best_fit fx_dbl (2 : fxT) 2 1 fu_zp kps' 0 4 fu_times fu_pts (fun _ => 1) 0.
Proof.
move=> es; have [kps' e [cmp h]] := fu_calc es.
exists kps'; last first.
  split; last by split; [exact: h|exact: fu_not_best cmp h].
  by have [-> _] := cmp; exact: erefl.
rewrite /ft_initUniformSplineOverTimes /ft_initUniformSpline.
have -> : (size fu_times < 2)%N = false by exact: erefl.
have -> : ds_evaluable (dm_new Q fxT 2) = false by exact: erefl.
have -> : (size fu_times == 0)%N = false by exact: erefl.
have -> : ig_new (ds_order (dm_new Q fxT 2)) (head 0 fu_times) (last 0 fu_times) 3
  = Ok (IntervalGen 2 (0 : fxT) 10 3 0 6) by exact: erefl.
rewrite fu_drain !lexx /ft_initSpline.
have -> : ft_checkTimesBounds fu_times by exact: erefl.
have -> : ~~ ds_evaluable (dm_new Q fxT 2) by exact: isT.
have -> : size fu_times == size fu_pts by exact: isT.
have -> : (2 <= size fu_pts)%N by exact: isT.
rewrite fu_add (initE fx_dbl fu_good) /massert /mbind.
by rewrite e.
Qed.

(* three real times *)
Definition fu_rtimes : seq Q := [:: 0; 1; 3%:R].
Definition fu_rpts : seq (vec Q) := [:: fx_pt 0; fx_pt 1; fx_pt 5].
Lemma fu_rtime : exact_time (fun x : Q => x) (1 : Q).
Proof. by split. Qed.
Lemma fu_bounded t : t \in fu_rtimes -> head 0 fu_rtimes <= t <= last 0 fu_rtimes.
Proof. by rewrite !inE => /or3P[] /eqP ->. Qed.
