(* The transformation expression with a time offset. *)
From mathcomp Require Import all_ssreflect all_algebra.
From mathcomp.algebra_tactics Require Import ring.
From mathcomp.zify Require Import zify.
From Verif Require Import Prelude CoxDeBoor CoxDeBoorProofs BSplineModel BSplineSpec
  BSplineProofs BSplineEvalProofs BSplineAccessProofs BSplineCoefProofs BSplineInitProofs
  BSplineAppendProofs BSplineLocalProofs BSplineMoreProofs PoseModel PoseSpec DerivProofs
  PoseProofs PoseTimeProofs DVModel DVSpec DVProofs.
Set Implicit Arguments.
Unset Strict Implicit.
Unset Printing Implicit Defensive.
Import GRing.Theory Num.Theory Order.Theory.
Local Open Scope ring_scope.

Section Time.
Variable F : realFieldType.
Variable eps : F.
Hypothesis e0 : 0 < eps.
Variable s : bspline F.
Hypothesis wfs : wf s.
Hypothesis el : eps <= last_len s.
Local Notation k := (bs_order s).
Local Notation n := (size (bs_knots s)).
Local Notation NT := (numValidTimeSegments k n).
Local Notation last := (n - k).-1.

Let hk := wf_order wfs.
Let hn := wf_size wfs.

Lemma seg_not_snapped x i : eps <= `|tmax s - x| -> segment_of eps s x i ->
  kn s i <= x < kn s i.+1.
Proof. by move=> h; rewrite /segment_of ltNge h /=; case. Qed.

Lemma seg_last x i : segment_of eps s x i -> (i <= last)%N.
Proof. by move=> /(segment_of_range wfs) [_]; move: hk hn; clear; lia. Qed.

Lemma kn_lt a b x y : (a < n)%N -> kn s a <= x -> x <= y -> y < kn s b -> (a < b)%N.
Proof.
move=> an h1 h2 h3; rewrite ltnNge; apply/negP => ba.
have := kn_mono wfs ba an; rewrite leNgt => /negP; apply.
by apply: le_lt_trans h3; apply: le_trans h1 h2.
Qed.

Lemma seg_mono x y i j : segment_of eps s x i -> segment_of eps s y j -> x <= y -> (i <= j)%N.
Proof.
move=> si sj xy; have [ki iN] := segment_of_range wfs si; have [kj jN] := segment_of_range wfs sj.
have [sn|ny] := ltP `|tmax s - y| eps.
  by move: (sj); rewrite /segment_of sn => -[_ ->]; exact: seg_last si.
have /andP[y1 y2] := seg_not_snapped ny sj.
have ty : y < tmax s.
  by apply: lt_le_trans y2 _; apply: (kn_mono wfs); move: hk hn jN; clear; lia.
have nx : eps <= `|tmax s - x|.
  apply: le_trans ny _; rewrite !ger0_norm ?subr_ge0 ?(ltW ty) ?(le_trans xy (ltW ty)) //.
  by rewrite ler_add2l ler_opp2.
have /andP[x1 x2] := seg_not_snapped nx si.
by have := kn_lt _ x1 xy y2; rewrite ltnS; apply; move: iN; clear; lia.
Qed.

(* interval L of the valid range and its centre *)
Section Centre.
Variable L : nat.
Hypothesis LN : (L < NT)%N.
Let a := kn s (k + L - 1).
Let b := kn s (k + L).
Let m := (a + b) / 2%:R.
Variable im : nat.
Hypothesis sm : segment_of eps s m im.

Let ab : a <= b.
Proof. by apply: (kn_mono wfs); move: LN hk hn; rewrite /numValidTimeSegments; clear; lia. Qed.

Lemma centre_bounds : a <= m /\ m <= b /\ (a < b -> a < m < b).
Proof.
have two : 0 < 2%:R :> F by rewrite ltr0n.
have h1 : m - a = (b - a) / 2%:R by rewrite /m; field.
have h2 : b - m = (b - a) / 2%:R by rewrite /m; field.
split; first by rewrite -subr_ge0 h1 divr_ge0 ?subr_ge0 ?ler0n.
split; first by rewrite -subr_ge0 h2 divr_ge0 ?subr_ge0 ?ler0n.
by move=> h; rewrite -(subr_gt0 a) -(subr_gt0 m) h1 h2 !divr_gt0 ?subr_gt0.
Qed.

Lemma not_last_far x : (L.+1 < NT)%N -> x <= b -> eps <= `|tmax s - x|.
Proof.
move=> LL xb; apply: le_trans (ler_norm _); apply: le_trans el _; rewrite /last_len ler_add2l ler_opp2.
apply: le_trans xb _; apply: (kn_mono wfs); move: LL hk hn; rewrite /numValidTimeSegments; clear; lia.
Qed.

Lemma at_least x i : a <= x -> segment_of eps s x i -> (k + L - 1 <= i)%N.
Proof.
move=> ax si; have [ki iN] := segment_of_range wfs si.
have [sn|nx] := ltP `|tmax s - x| eps.
  move: si; rewrite /segment_of sn => -[_ ->].
  by move: LN hk hn; rewrite /numValidTimeSegments; clear; lia.
have /andP[x1 x2] := seg_not_snapped nx si.
have := kn_lt _ ax (lexx x) x2; rewrite ltnS; apply.
by move: LN hk hn; rewrite /numValidTimeSegments; clear; lia.
Qed.

Lemma at_most x i : x < b -> segment_of eps s x i -> (i <= k + L - 1)%N.
Proof.
move=> xb si; have [ki iN] := segment_of_range wfs si.
have [LL|LL] := ltnP L.+1 NT; last first.
  by move: (seg_last si) LL LN hk hn; rewrite /numValidTimeSegments; clear; lia.
have /andP[x1 x2] := seg_not_snapped (not_last_far LL (ltW xb)) si.
have := kn_lt _ x1 (lexx x) xb; move: iN hk; clear; lia.
Qed.

Lemma left_registered x i : a <= x -> segment_of eps s x i -> (im <= i)%N.
Proof.
move=> ax si; have [mx|xm] := leP m x; first exact: seg_mono sm si mx.
have [am [mb sab]] := centre_bounds.
have lt : a < b by apply: le_lt_trans ax _; apply: lt_le_trans xm mb.
have /andP[_ mb'] := sab lt.
exact: leq_trans (at_most mb' sm) (at_least ax si).
Qed.

Lemma right_registered x i : x < b -> segment_of eps s x i -> (i <= im)%N.
Proof.
move=> xb si; have [xm|mx] := leP x m; first exact: seg_mono si sm xm.
have [am [mb sab]] := centre_bounds.
exact: leq_trans (at_most xb si) (at_least am sm).
Qed.
End Centre.

Lemma localVv_seg x i : segment_of eps s x i ->
  localVvCoefficientVectorIndices eps s x = Ok (iota (i.+1 - k) k).
Proof.
move=> seg; have [ki iN] := segment_of_range wfs seg.
by rewrite /localVvCoefficientVectorIndices (computeTIndexE wfs seg) /= ki.
Qed.

Lemma valid_interval L : (L < NT)%N ->
  exists i, segment_of eps s ((kn s (k + L - 1) + kn s (k + L)%N) / 2%:R) i.
Proof.
move=> LN; have [h1 [h2 _]] := centre_bounds LN.
apply: (segment_exists wfs e0).
  apply: le_trans h1; apply: (kn_mono wfs); move: LN hk hn; rewrite /numValidTimeSegments; clear; lia.
apply: le_lt_trans h2 _; apply: (@le_lt_trans _ _ (tmax s)); last by rewrite ltr_addl.
apply: (kn_mono wfs); move: LN hk hn; rewrite /numValidTimeSegments; clear; lia.
Qed.

Lemma ti L o : timeInterval_i s L = Ok o -> (L < NT)%N /\ o = (kn s (k + L - 1), kn s (k + L)%N).
Proof.
move=> E; have LN : (L < NT)%N.
  by move: E; rewrite /timeInterval_i /sm_assert; case: ifP => // _; case: ifP.
by split=> //; move: E; rewrite (timeInterval_iE wfs LN) => -[<-].
Qed.

Lemma to_new_registers iT bl br nd t : to_new eps s iT bl br = Ok nd ->
  to_bmin nd <= t -> t < to_bmax nd -> exists i l m, [/\ segment_of eps s t i,
    to_idx nd = iota l m, (l <= i.+1 - k)%N & (i < l + m <= bs_ncoef s)%N].
Proof.
rewrite /to_new (t_maxE wfs) (t_minE wfs) /=.
set rt := if _ then _ else _; case: rt => [R|e|] //=.
set lt := if _ then _ else _; case: lt => [L|e|] //=.
case ER: (timeInterval_i s R) => [[r0 r1]|e|] //=; have [RN [eR0 eR1]] := ti ER.
case EL: (timeInterval_i s L) => [[l0 l1]|e|] //=; have [LN [eL0 eL1]] := ti EL.
rewrite eL0 eL1 eR0 eR1; have [iL sL] := valid_interval LN; have [iR sR] := valid_interval RN.
rewrite (localVv_seg sL) /= (localVv_seg sR) /= !size_iota.
have k0 : (0 < k)%N by move: hk; clear; lia.
rewrite k0 /=; have [kL LN'] := segment_of_range wfs sL; have [kR RN'] := segment_of_range wfs sR.
rewrite !nth_iota //; last by move: hk; clear; lia.
rewrite addn0 (_ : (iR.+1 - k + (k - 1) = iR)%N); last by move: kR hk; clear; lia.
rewrite /ub_unless; case: ifP => // lr [<-] /= b1 b2.
have [i si] : exists i, segment_of eps s t i.
  apply: (segment_exists wfs e0).
    apply: le_trans b1; apply: (kn_mono wfs); move: LN hk hn; rewrite /numValidTimeSegments; clear; lia.
  apply: lt_trans b2 _; apply: (@le_lt_trans _ _ (tmax s)); last by rewrite ltr_addl.
  apply: (kn_mono wfs); move: RN hk hn; rewrite /numValidTimeSegments; clear; lia.
exists i, (iL.+1 - k)%N, (iR.+1 - (iL.+1 - k))%N; split=> //.
  by have := left_registered LN sL b1 si; clear; lia.
have := right_registered RN sR b2 si; have := wf_cols wfs.
move: lr RN' hk; clear; lia.
Qed.

(* the attribution loop: block c - b goes to coefficient c for b <= c < b + k *)
Lemma attribution ndv cols (J : mat F) b l m : (0 < k)%N -> (l <= b)%N -> (l + m <= ndv)%N ->
  (k * 6 <= cols)%N -> exists j,
  ofold (fun acc c => assert (c < ndv)%N raise ExnRuntime ;
      to_attribute cols J b (b + (k - 1)) acc c) ([::], 0%N) (iota l m) =
  Ok ([seq (c, if (b <= c < b + k)%N then get_block J 0 ((c - b) * 6) else zerom) | c <- iota l m], j).
Proof.
move=> k0 lb lm kc.
set f := (X in ofold X).
pose g c := (c, if (b <= c < b + k)%N then get_block J 0 ((c - b) * 6) else zerom).
rewrite -/g.
have H : forall p acc, (l <= p)%N -> forall q, (p + q <= ndv)%N ->
   exists j, ofold f (acc, minn (p - b) k) (iota p q) = Ok (acc ++ map g (iota p q), j).
  move=> p acc lp q; elim: q p acc lp => [|q IH] p acc lp pq /=.
    by rewrite cats0; eexists.
  rewrite {1}/f (_ : (p < ndv)%N = true) /=; last by move: pq; clear; lia.
  have -> : (b <= p <= b + (k - 1))%N = (b <= p < b + k)%N by move: k0; clear; lia.
  have lp' : (l <= p.+1)%N by apply: leqW.
  have pq' : (p.+1 + q <= ndv)%N by rewrite addSnnS.
  case: ifP => hb.
    have -> : minn (p - b) k = (p - b)%N by move: hb; clear; lia.
    rewrite /ub_unless (_ : ((p - b).+1 * 6 <= cols)%N = true); last first.
      by apply/idP; move: hb kc; clear; lia.
    have [j] := IH p.+1 (rcons acc (p, get_block J 0 ((p - b) * 6))) lp' pq'.
    rewrite (_ : minn (p.+1 - b) k = (p - b).+1); last by move: hb; clear; lia.
    by rewrite /= => ->; exists j; rewrite cat_rcons /g hb.
  have [j] := IH p.+1 (rcons acc (p, zerom)) lp' pq'.
  rewrite (_ : minn (p.+1 - b) k = minn (p - b) k); last by move: hb k0; clear; lia.
  by rewrite /= => ->; exists j; rewrite cat_rcons /g hb.
have [j] := H l [::] (leqnn _) m lm; rewrite (_ : minn (l - b) k = 0%N) ?cat0s; last first.
  by move: lb; clear; lia.
by move=> ->; exists j.
Qed.

(* sum over registered coefficients = sum over the local ones *)
Lemma attributed_sum (J : mat F) (b l m : nat) (dC : mat F) r : (l <= b)%N -> (b + k <= l + m)%N ->
  predicted_all 6 [seq (c, if (b <= c < b + k)%N then get_block J 0 ((c - b) * 6) else zerom)
     | c <- iota l m] (fun c y => dC y c) r
  = fsum k (fun q => fsum 6 (fun c => J r (q * 6 + c)%N * dC c (b + q)%N)).
Proof.
move=> lb bk; rewrite /predicted_all size_map size_iota.
have -> : m = ((b - l) + k + (m - (b - l) - k))%N by move: lb bk; clear; lia.
set mm := (_ + _)%N.
have nE q : (q < mm)%N -> nth (0%N, zerom) [seq (c, if (b <= c < b + k)%N then
   get_block J 0 ((c - b) * 6) else zerom) | c <- iota l mm] q =
   ((l + q)%N, if (b <= l + q < b + k)%N then get_block J 0 ((l + q - b) * 6) else zerom).
  by move=> qm; rewrite (nth_map 0%N) ?size_iota // nth_iota.
rewrite (eq_fsum (g := fun q => if (b <= l + q < b + k)%N then
   fsum 6 (fun c => J r ((l + q - b) * 6 + c)%N * dC c (l + q)%N) else 0)); last first.
  move=> q qm; rewrite nE //=; case: ifP => _ //.
  by rewrite /zerom !mul0r !addr0.
rewrite /mm !fsum_cat fsum0 ?add0r; last first.
  move=> q ql; rewrite (_ : (b <= l + q)%N = false) //; move: ql; clear; lia.
rewrite [X in _ + X]fsum0 ?addr0; last first.
  move=> q ql; rewrite (_ : (l + (b - l + k + q) < b + k)%N = false) ?andbF //; move: lb; clear; lia.
apply: eq_fsum => q qk.
have -> : (l + (b - l + q) = b + q)%N by move: lb; clear; lia.
by rewrite leq_addr ltn_add2l qk addKn.
Qed.

Theorem to_jacobians_correct (R : rotation F) iT bl br nd t : bs_dim s = 6%N ->
  to_new eps s iT bl br = Ok nd -> to_bmin nd <= t -> t < to_bmax nd ->
  exists T0 T J idx js tj idxv,
  [/\ to_value eps R s nd t = Ok T0, transformation R eps s t = Ok T0,
      transformationAndJacobian R eps s t = Ok (T, J, idx)
      /\ localCoefficientVectorIndices eps s t = Ok idx,
      to_jacobians eps R s (bs_ncoef s) nd t = Ok (js, tj) &
   [/\ localVvCoefficientVectorIndices eps s t = Ok idxv,
       forall c, c \in idxv -> c \in to_idx nd,
       unzip1 js = to_idx nd /\ uniq (to_idx nd) &
       forall dC r, predicted_all 6 js (fun c y => dC y c) r = dir s J idx dC r]].
Proof.
move=> d6 En b1 b2.
have [i [l [m [si iE li im]]]] := to_new_registers En b1 b2.
have [w [bn lv lc H]] := local_form_seg wfs si.
set b := (i.+1 - k)%N in bn lv lc H li *.
have k0 : (0 < k)%N by move: hk; clear; lia.
have [ki iN] := segment_of_range wfs si.
have [v0 [v [JS [e1 e2 e3 e4 _]]]] := H (bs_coef s) 0%N; rewrite with_coef_id in e1 e3.
have [v1 [_ [_ [f1 _ _ _ _]]]] := H (bs_coef s) 1%N; rewrite with_coef_id in f1.
have tv : transformation R eps s t = Ok (curveValueToTransformation R v0).
  by rewrite /transformation /evalD6 e1 /= d6.
exists (curveValueToTransformation R v0), (curveValueToTransformationAndJacobian R v).1,
  (mulm 6 (curveValueToTransformationAndJacobian R v).2 JS), (iota (b * bs_dim s) (k * bs_dim s)).
rewrite /to_value b1 b2 /= tv /transformationAndJacobian /to_jacobians /evalJ6 /evalD6 e3 f1 /=.
rewrite b1 b2 lv lc d6 /= size_iota k0 /= !nth_iota ?addn0 //; last by move: k0; clear; lia.
rewrite iE; set J := mulm 6 _ JS.
have [||j ->] := @attribution (bs_ncoef s) (jcols s) J b l m k0 li.
- by case/andP: im.
- by rewrite /jcols d6.
have bm : (b + k <= l + m)%N by case/andP: im => im _; move: im ki; rewrite /b; clear; lia.
exists [seq (c, if (b <= c < b + k)%N then get_block J 0 ((c - b) * 6) else zerom) | c <- iota l m].
do 2 eexists; split; [by []|by []|by split|by reflexivity|split]; first by reflexivity.
- by move=> c; rewrite !mem_iota; move: li bm; clear; lia.
- by rewrite /unzip1 -map_comp map_id iota_uniq.
move=> dC r; rewrite attributed_sum // /dir size_iota fsum_nested.
apply: eq_fsum => q qk; apply: eq_fsum => c c6; congr (_ * _).
have qc : (q * 6 + c < k * 6)%N by move: qk c6; clear; lia.
rewrite nth_iota // addnA -mulnDl.
have eD : bs_dim (with_coef s dC) = 6%N by exact: d6.
rewrite -[in X in (_ * X + _)%N]eD coefficientVectorE ?eD //.
by rewrite /bs_ncoef /=; move: bn qk; rewrite /bs_ncoef; clear; lia.
Qed.

(* the vector handed to the time expression is the time derivative of the pose *)
Theorem to_time_rate (R : rotation F) i t ndv nd js tj : bs_dim s = 6%N -> inside s i t ->
  rot_deriv R -> rot_ext R -> to_jacobians eps R s ndv nd t = Ok (js, tj) ->
  exists2 T, transformation R eps s t = Ok T &
    has_mrate 4 4 (transformation R eps s) t (turned4 tj T).
Proof.
move=> d6 ins Rd Rx; have P0 := pwE wfs e0 el ins d6 0; have P1 := pwE wfs e0 el ins d6 1.
have [h0 _] := near_self P0; have [h1 _] := near_self P1.
rewrite /to_jacobians; case: (_ && _) => //=; case: (localVvCoefficientVectorIndices eps s t) => [dv|e|] //=.
have [p [JS [ix [EJ pE]]]] : exists p JS ix, evalJ6 eps s t 0 = Ok (p, JS, ix) /\
    forall r, p r = pw eps s 0 t r.
  have hv : exists2 v, evalD eps s t 0 = Ok v & v = pw eps s 0 t.
    move: h0; rewrite {1}/evalD6; case: (evalD eps s t 0) => [v|e|] //=; rewrite d6 /= => -[E].
    by exists v.
  have [v hv1 hv2] := hv; have [b [w [_ _ _ H]]] := local_raw hv1.
  have [v' [p [JS [e1 e2 e3 e4 _]]]] := H (bs_coef s); rewrite with_coef_id in e1 e3.
  exists p, JS; eexists; split; first by rewrite /evalJ6 e3 /= d6.
  by move=> r; rewrite e4 -e2; move: e1; rewrite hv1 -hv2 => -[->].
rewrite EJ [obind (Ok _) _]/=; case: (0 < size dv)%N => //=.
case: (ofold _ _ _) => [[js' j]|e|] //=; rewrite h1 /= => -[_ <-]; set xi := mulv 6 _ _.
exists (curveValueToTransformation R (pw eps s 0 t)); first by rewrite /transformation h0.
exists (fun t => curveValueToTransformation R (pw eps s 0 t)).
  by apply: near_imp P0 => u [h _]; rewrite /transformation h.
have dP r := pw_deriv wfs e0 el ins d6 0 r.
pose phi0 := mulv 3 (rotS R (tail3 (pw eps s 0 t))) (tail3 (pw eps s 1 t)).
have hphi y : (y < 3)%N -> mulv 3 (rotS R (tail3 p)) (tail3 (pw eps s 1 t)) y = phi0 y.
  by move=> y3; apply: mulv_ext => // a b a3 b3; apply: rotS_ext => // c c3; rewrite /tail3 /get_segment pE.
have xb y : (y < 3)%N -> get_segment xi 3 y = phi0 y.
  by move=> y3; rewrite -hphi //; exact: (JT_bot R p (pw eps s 1 t) y3).
have xt y : (y < 3)%N -> xi y = pw eps s 1 t y - cross (pw eps s 0 t) phi0 y.
  move=> y3; apply: etrans (JT_top R p (pw eps s 1 t) y3) _; congr (_ - _).
  by rewrite /cross; case: y y3 => [|[|[|y]]] // _; rewrite !hphi // !pE.
move=> r c /lt4[] r3 c4; rewrite /turned4; last first.
  rewrite r3 /=; apply: deriv_ext (deriv_const ((c == 3%N)%:R) t) => // h.
  by rewrite cvt_bot.
rewrite r3; case/lt4: (c4) => c3.
  apply: deriv_ext (Rd _ _ _ (theta_deriv wfs e0 el ins d6 0) _ _ r3 c3) => //.
    by move=> h; rewrite cvt_rot.
  rewrite cvt_bot // (ltn_eqF c3) mulr0 addr0; apply: turned_ext => // [a a3|a b a3 b3].
    by rewrite xb.
  by rewrite cvt_rot.
rewrite c3; apply: deriv_ext (dP r); first by move=> h; rewrite cvt_pos.
rewrite cvt_bot // mulr1 xt // /turned /cross; move: (phi0) xb => ph xb.
by case: r r3 => [|[|[|r]]] // _; rewrite !cvt_pos // !xb //; ring.
Qed.

(* construction succeeds, and the buffer contains the initial time *)
Theorem to_new_total iT bl br : tmin s <= iT -> iT < tmax s -> 0 <= bl -> 0 <= br ->
  exists2 nd, to_new eps s iT bl br = Ok nd & to_bmin nd <= iT < to_bmax nd.
Proof.
move=> i1 i2 bl0 br0; rewrite /to_new (t_maxE wfs) (t_minE wfs) /=.
have NT0 : (0 < NT)%N by move: hk hn; rewrite /numValidTimeSegments; clear; lia.
have [R [-> RN hR]] : exists R, [/\ (if tmax s < br + iT then Ok NT.-1 else
    segmentIndex eps s (iT + br)) = Ok R, (R < NT)%N & iT < kn s (k + R)].
  case: ltP => h.
    exists NT.-1; split=> //; first by rewrite prednK.
    by rewrite (_ : (k + NT.-1 = n - k)%N) //; move: hk hn; rewrite /numValidTimeSegments; clear; lia.
  have [i si] : exists i, segment_of eps s (iT + br) i.
    apply: (segment_exists wfs e0); first by apply: le_trans i1 _; rewrite ler_addl.
    by rewrite addrC; apply: le_lt_trans h _; rewrite ltr_addl.
  have [ki iN] := segment_of_range wfs si.
  exists (i.+1 - k)%N; rewrite /segmentIndex (computeTIndexE wfs si) /= ki.
  split=> //; first by move: ki iN; rewrite /numValidTimeSegments; clear; lia.
  rewrite (_ : (k + (i.+1 - k) = i.+1)%N); last by move: ki; clear; lia.
  have [sn|nx] := ltP `|tmax s - (iT + br)| eps.
    move: si; rewrite /segment_of sn => -[_ ->].
    by rewrite (_ : last.+1 = (n - k)%N) //; move: hk hn; clear; lia.
  have /andP[_ h2] := seg_not_snapped nx si; apply: le_lt_trans h2; by rewrite ler_addl.
have [L [-> LN hL]] : exists L, [/\ (if iT - bl < tmin s then Ok 0%N else
    segmentIndex eps s (iT - bl)) = Ok L, (L < NT)%N & kn s (k + L - 1) <= iT].
  case: ltP => h.
    by exists 0%N; split; [| |rewrite addn0 subn1].  
  have it : iT - bl <= iT by rewrite ler_subl_addr ler_addl.
  have [i si] : exists i, segment_of eps s (iT - bl) i.
    apply: (segment_exists wfs e0) => //.
    by apply: le_lt_trans it _; apply: lt_trans i2 _; rewrite ltr_addl.
  have [ki iN] := segment_of_range wfs si.
  exists (i.+1 - k)%N; rewrite /segmentIndex (computeTIndexE wfs si) /= ki.
  split=> //; first by move: ki iN; rewrite /numValidTimeSegments; clear; lia.
  rewrite (_ : (k + (i.+1 - k) - 1 = i)%N); last by move: ki; clear; lia.
  have [sn|nx] := ltP `|tmax s - (iT - bl)| eps.
    move: (si); rewrite /segment_of sn => -[_ ->].
    have : tmax s - eps <= iT - bl.
      by rewrite ler_subl_addl -ler_subl_addr; apply: le_trans (ler_norm _) (ltW sn).
    move=> h'; apply: le_trans it; apply: le_trans h'.
    by move: el; rewrite /last_len ler_subr_addl -ler_subr_addr.
  by have /andP[h2 _] := seg_not_snapped nx si; apply: le_trans it.
rewrite /= (timeInterval_iE wfs RN) (timeInterval_iE wfs LN) /=.
have [iL sL] := valid_interval LN; have [iR sR] := valid_interval RN.
rewrite (localVv_seg sL) /= (localVv_seg sR) /= !size_iota.
have k0 : (0 < k)%N by move: hk; clear; lia.
rewrite k0 /=; have [kL LN'] := segment_of_range wfs sL; have [kR RN'] := segment_of_range wfs sR.
rewrite !nth_iota //; last by move: hk; clear; lia.
have [i si] : exists i, segment_of eps s iT i.
  by apply: (segment_exists wfs e0) => //; apply: lt_trans i2 _; rewrite ltr_addl.
have h1 := left_registered LN sL hL si; have h2 := right_registered RN sR hR si.
rewrite /ub_unless (_ : (_ <= _)%N = true); last by apply/idP; move: h1 h2 kL kR hk; clear; lia.
by eexists; first reflexivity; rewrite /= hL hR.
Qed.
End Time.
