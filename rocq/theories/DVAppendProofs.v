(* Expressions built before a segment is appended. *)
From mathcomp Require Import all_ssreflect all_algebra.
From mathcomp.algebra_tactics Require Import ring.
From mathcomp.zify Require Import zify.
From Verif Require Import Prelude CoxDeBoor CoxDeBoorProofs BSplineModel BSplineSpec
  BSplineProofs BSplineEvalProofs BSplineAccessProofs BSplineCoefProofs BSplineInitProofs
  BSplineAppendProofs BSplineLocalProofs PoseModel PoseSpec Examples DVModel DVSpec DVProofs.
Set Implicit Arguments.
Unset Strict Implicit.
Unset Printing Implicit Defensive.
Import GRing.Theory Num.Theory Order.Theory.
Local Open Scope ring_scope.

Section App.
Variable F : realFieldType.
Variable eps : F.
Hypothesis e0 : 0 < eps.
Variable s : bspline F.
Hypothesis wfs : wf s.
Hypothesis l0 : 0 < last_len s.
Local Notation k := (bs_order s).
Local Notation n := (size (bs_knots s)).

Lemma append_indices (t x : F) junk m p0 s1 NT :
  addCurveSegment_knots eps s t junk m = Ok (p0, s1, NT) ->
  tmin s <= x -> x <= tmax s - eps ->
  bs_order s1 = k /\
  localVvCoefficientVectorIndices eps s1 x = localVvCoefficientVectorIndices eps s x /\
  [/\ wf s1, tmin s1 = tmin s, tmax s < tmax s1 & 0 < last_len s1].
Proof.
move=> E x1 x2.
have [tm mD] : tmax s < t /\ m = bs_dim s.
  move: E; rewrite /addCurveSegment_knots (t_maxE wfs) /= /sm_assert.
  by case: ifP => // h; case: ifP => // /eqP -> _.
have := addCurveSegment_knotsE e0 wfs l0 tm junk mD.
rewrite E => -[_ [_ [[_ <- _] _ wf1 [o1 n1 d1 c1 [K1 _]]]]].
have hk := wf_order wfs; have hn := wf_size wfs.
have xt : x < tmax s by apply: le_lt_trans x2 _; rewrite ltr_subl_addr ltr_addl.
have [i seg] : exists i, segment_of eps s x i.
  by apply: (segment_exists wfs e0 x1); apply: lt_trans xt _; rewrite ltr_addl.
have [ki iN] := segment_of_range wfs seg.
have far u : tmax s <= u -> (`|u - x| < eps) = false.
  move=> hu; apply/negbTE; rewrite -leNgt; apply: le_trans (ler_norm _).
  by rewrite ler_subr_addr -ler_subr_addl (le_trans x2) // ler_add2r.
have seg2 : kn s i <= x < kn s i.+1 by move: seg; rewrite /segment_of far //; case.
have tm' : tmax s1 = t.
  rewrite /tmax n1 o1 K1; last by move: hk; clear; lia.
  rewrite /ext_kn; have -> : (n.+1 - k = (n - k).+1)%N by move: hk hn; clear; lia.
  by rewrite ltnn subSnn mul1r addrC subrK.
have seg1 : segment_of eps s1 x i.
  rewrite /segment_of tm' far ?(ltW tm) // o1 n1; split=> //; first by move: iN; clear; lia.
  rewrite !K1; try by move: iN; clear; lia.
  by rewrite /ext_kn; have [-> ->] : (i <= n - k)%N /\ (i < n - k)%N by move: iN hk hn; clear; lia.
split=> //; split.
  rewrite /localVvCoefficientVectorIndices (computeTIndexE wfs seg).
  by rewrite (computeTIndexE wf1 seg1) /= o1.
split=> //.
- rewrite /tmin o1 K1; last by move: hk hn; clear; lia.
  by rewrite /ext_kn; have -> : (k.-1 <= n - k)%N by move: hk hn; clear; lia.
- by rewrite tm'.
rewrite /last_len o1 n1 tm'; have -> : (n.+1 - k).-1 = (n - k)%N by move: hk hn; clear; lia.
rewrite K1; last by move: hk hn; clear; lia.
by rewrite /ext_kn leqnn subr_gt0.
Qed.

Lemma add_indices qr (t x : F) p junk s' : addCurveSegment eps qr s t p junk = Ok s' ->
  tmin s <= x -> x <= tmax s - eps ->
  bs_order s' = k /\
  localVvCoefficientVectorIndices eps s' x = localVvCoefficientVectorIndices eps s x /\
  [/\ wf s', tmin s' = tmin s, tmax s < tmax s' & 0 < last_len s'].
Proof.
rewrite /addCurveSegment; case E: (addCurveSegment_knots _ _ _ _ _) => [[[p0 s1] NT]|e|] //=.
case: (timeInterval_i s1 NT) => [[a b]|e|] //=.
case: (localCoefficientVector eps s1 a) => [lc|e|] //=.
case: (Phi eps s1 a 0) => [P0|e|] //=; case: (Phi eps s1 b 0) => [P1|e|] //= [<-] x1 x2.
have [h1 [h2 [h3 h4 h5 h6]]] := append_indices E x1 x2; split; [exact: h1|split; [exact: h2|]].
by split=> //; case: h3 => ? ? ? ? ?; split.
Qed.

Lemma add2_indices ldlt (t x : F) p l junk s' : addCurveSegment2 eps ldlt s t p l junk = Ok s' ->
  tmin s <= x -> x <= tmax s - eps ->
  bs_order s' = k /\
  localVvCoefficientVectorIndices eps s' x = localVvCoefficientVectorIndices eps s x /\
  [/\ wf s', tmin s' = tmin s, tmax s < tmax s' & 0 < last_len s'].
Proof.
rewrite /addCurveSegment2; case E: (addCurveSegment_knots _ _ _ _ _) => [[[p0 s1] NT]|e|] //=.
case: (timeInterval_i s1 NT) => [[a b]|e|] //=.
case: (localCoefficientVector eps s1 a) => [lc|e|] //=.
case: (Phi eps s1 a 0) => [P0|e|] //=; case: (Phi eps s1 b 0) => [P1|e|] //=.
case: (Phi eps s1 a 2) => [P2|e|] //=; case: (Phi eps s1 b 2) => [P3|e|] //= [<-] x1 x2.
have [h1 [h2 [h3 h4 h5 h6]]] := append_indices E x1 x2; split; [exact: h1|split; [exact: h2|]].
by split=> //; case: h3 => ? ? ? ? ?; split.
Qed.

Variable D : nat.
Variables qr ldlt : nat -> mat F -> vec F -> vec F.

Lemma call_indices o x s' : spline_call eps qr ldlt s o = Ok s' -> ~~ is_remove o ->
  tmin s <= x -> x <= tmax s - eps ->
  bs_order s' = k /\
  localVvCoefficientVectorIndices eps s' x = localVvCoefficientVectorIndices eps s x /\
  [/\ wf s', tmin s' = tmin s, tmax s < tmax s' & 0 < last_len s'].
Proof.
case: o => [t p j|t p l j|R t T j|R t T l j|] //= E _.
- exact: (add_indices E).
- exact: (add2_indices E).
- exact: (add_indices E).
- exact: (add2_indices E).
Qed.
End App.

(* The pointers of an expression for a time before the old end stay the right ones. *)
Lemma append_keeps (F : realFieldType) (eps : F) D qr ldlt (st st' : spline_dv F) o x :
  0 < eps -> wf (sd_spline st) -> 0 < last_len (sd_spline st) -> in_step D st ->
  dv_step eps D qr ldlt st o = Ok st' -> ~~ is_remove o ->
  tmin (sd_spline st) <= x -> x <= tmax (sd_spline st) - eps ->
  [/\ wf (sd_spline st'), 0 < last_len (sd_spline st'), in_step D st',
    tmin (sd_spline st') = tmin (sd_spline st) /\ tmax (sd_spline st) < tmax (sd_spline st') &
    exists2 ptrs, dv_getDesignVariables eps st x = Ok ptrs &
      dv_getDesignVariables eps st' x = Ok ptrs].
Proof.
move=> e0 wfs l0 ist E nr x1 x2.
have [s' C] : exists s', spline_call eps qr ldlt (sd_spline st) o = Ok s'.
  case C: (spline_call _ _ _ _ _) => [s'|e|]; first by exists s'.
  - move: E; case: o C nr => [t p j|t p l j|R t T j|R t T l j|] //= C _;
      by rewrite ?/dv_addSegment ?/dv_addSegment2 ?/pdv_addSegment ?/pdv_addSegment2 C.
  - move: E; case: o C nr => [t p j|t p l j|R t T j|R t T l j|] //= C _;
      by rewrite ?/dv_addSegment ?/dv_addSegment2 ?/pdv_addSegment ?/pdv_addSegment2 C.
have [ko [iE [wf' tn' tx' l0']]] := call_indices e0 wfs l0 C nr x1 x2.
have [|st1 [E1 sE ist1 ids]] := step_ok ist C; first by rewrite (negbTE nr).
move: E; rewrite E1 => -[e]; rewrite {st1}e in E1 sE ist1 ids.
have xt : x < tmax (sd_spline st) + eps.
  by apply: le_lt_trans x2 _; rewrite ltr_add2l gtr_opp.
have [b [w [bn lv _ _]]] := local_form wfs e0 x1 xt.
rewrite sE; split=> //.
have [ptrs Ep [sp hp]] := getDesignVariables_ok ist bn lv; exists ptrs => //.
have nc : (bs_ncoef (sd_spline st) <= bs_ncoef (sd_spline st'))%N.
  have [_ h2 _ _ _] := ist; have [_ h2' _ _ _] := ist1.
  rewrite -h2 -h2' -!(size_map md_id) -/(dv_ids st) -/(dv_ids st') ids (negbTE nr).
  by rewrite size_rcons.
rewrite -iE -sE in lv.
have [ptrs' Ep' [sp' hp']] := getDesignVariables_ok ist1 (leq_trans bn nc) lv.
rewrite Ep'; congr (Ok _); apply: (@eq_from_nth _ 0%N); rewrite sp' ?sp // => q qk.
rewrite hp // hp' // ids (negbTE nr) nth_rcons size_map.
have [_ h2 _ _ _] := ist; have -> // : (b + q < size (sd_dvs st))%N.
by rewrite h2; move: bn qk; clear; lia.
Qed.

(* the same after any number of appends *)
Lemma run_append_keeps (F : realFieldType) (eps : F) D qr ldlt os (st st' : spline_dv F) x :
  0 < eps -> wf (sd_spline st) -> 0 < last_len (sd_spline st) -> in_step D st ->
  dv_run eps D qr ldlt st os = Ok st' -> ~~ has (@is_remove F) os ->
  tmin (sd_spline st) <= x -> x <= tmax (sd_spline st) - eps ->
  exists2 ptrs, dv_getDesignVariables eps st x = Ok ptrs & dv_getDesignVariables eps st' x = Ok ptrs.
Proof.
move=> e0; elim: os st => [|o os IH] st wfs l0 ist /=.
  move=> [<-] _ x1 x2; have xt : x < tmax (sd_spline st) + eps.
    by apply: le_lt_trans x2 _; rewrite ltr_add2l gtr_opp.
  have [b [w [bn lv _ _]]] := local_form wfs e0 x1 xt.
  by have [ptrs Ep _] := getDesignVariables_ok ist bn lv; exists ptrs.
case E: (dv_step eps D qr ldlt st o) => [st1|e|] //= R; rewrite negb_or => /andP[nr nrs] x1 x2.
have [w1 l1 i1 [tn tx] [ptrs h1 h2]] := append_keeps e0 wfs l0 ist E nr x1 x2.
have [||ptrs' h3 h4] := IH _ w1 l1 i1 R nrs.
- by rewrite tn.
- by apply: le_trans x2 _; rewrite ler_add2r ltW.
by exists ptrs => //; move: h3; rewrite h2 => -[->].
Qed.

(* an expression made before the appends predicts updates made after them *)
Lemma append_expression (F : realFieldType) (eps : F) D qr ldlt os (st st' : spline_dv F) x d nd v :
  0 < eps -> wf (sd_spline st) -> 0 < last_len (sd_spline st) -> in_step D st ->
  dv_toExpression eps D st x d = Ok nd ->
  dv_run eps D qr ldlt st os = Ok st' -> ~~ has (@is_remove F) os ->
  tmin (sd_spline st) <= x -> x <= tmax (sd_spline st) - eps ->
  node_value eps D st' nd = Ok v ->
  exists2 js, node_jacobians eps D st' nd = Ok js &
  forall i dp, (i < bs_ncoef (sd_spline st'))%N -> let p := nth 0%N (dv_ids st') i in
    exists st2 v2, [/\ dv_update st' p dp = Ok st2, node_value eps D st2 nd = Ok v2 &
      forall r, (r < D)%N -> v2 r = v r + predicted D js p dp r].
Proof.
move=> e0 wfs l0 ist En R nr x1 x2 V.
have [ptrs h1 h2] := run_append_keeps e0 wfs l0 ist R nr x1 x2.
have [ptrs' h3 ndE] := toExpression_inv En; move: h3; rewrite h1 => -[h3].
have ist' := run_in_step ist R; have [d' _ _ _ _] := ist'.
have En' : dv_toExpression eps D st' x d = Ok nd.
  by rewrite /dv_toExpression h2 /= d' eqxx /= ndE -h3.
have [b [js [_ _ J _ H]]] := expression_aligned ist' En' V; exists js => // i dp ic.
by have [st2 [v2 [u1 _ u3 u4]]] := H i dp ic; exists st2, v2.
Qed.
